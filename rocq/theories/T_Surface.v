(** Property theorems about surface_integral.py (C71-C74, C83). *)
From Coquelicot Require Import Coquelicot.
From Verif Require Import Base BaseFacts P_Vec M_Tensor M_Calc S_Calc P_AD P_Calc P_Calc2 S_Model P_Model.
From Verif Require Import M_Integrate S_Integrate P_Integrate1 P_Integrate2 P_Integrate3 T_Integrate.
From Verif Require Import M_Surface S_Surface P_Surface1 P_Surface2 P_Surface3 P_Surface4 P_Surface5.

(** Two grids as the functions below take them. *)
Definition grids (u v : list R) : Prop :=
  (2 <= length u)%nat /\ (2 <= length v)%nat /\ nondecreasing u /\ nondecreasing v.

(** ** C71 *)
(** the product rule applied to the integrand times the surface element *)
Theorem surface_integral_formula method K P pf u v f args s G : library_rule method K -> grids u v ->
  parametrizes P pf u v -> repD 3 (on_surface pf u v) s (fun r => f (r :: args)) G ->
  exists T, integrate_surface f P u v args method = Ok T /\ shape T = s /\
    forall p, inside s p -> quad2 method u v (fun q => G p (point pf q) * area pf q) (entry T p).
Proof.
  intros HL (Hu & Hv & Nu & Nv) HP Hf. destruct (library_sound _ _ HL) as (n & w & SR & _).
  destruct (integrate_surface_ok method n w P pf u v f args s G) as (T & ru & rv & E & S & Eu & Ev & V); auto.
  exists T. split; [exact E|]. split; [exact S|]. intros p Hp. exists ru, rv. auto.
Qed.
Print Assumptions surface_integral_formula.

(** every element is integrated on its own cell, with the image of its parameter
    midpoint as the extra argument *)
Theorem surface_elements_formula method K P pf u v f args s G : library_rule method K -> grids u v ->
  parametrizes P pf u v ->
  (forall c, shape c = [3%nat] -> on_surface pf u v (tlist c) ->
     repD 3 (on_surface pf u v) s (fun r => f (r :: c :: args)) (G (tlist c))) ->
  exists E, integrate_surface_elements f P u v args method = Ok E /\
    shape E = (length u - 1)%nat :: (length v - 1)%nat :: s /\
    forall i j p, (S i < length u)%nat -> (S j < length v)%nat -> inside s p ->
      quad2 method (cell u i) (cell v j)
        (fun q => G (point pf [middle u i; middle v j]) p (point pf q) * area pf q) (entry E (i :: j :: p)).
Proof.
  intros HL (Hu & Hv & Nu & Nv) HP Hf. destruct (library_sound _ _ HL) as (n & w & SR & _).
  destruct (elements_ok method n w P pf u v f args s G) as (E & EE & SE & VE); auto.
  - intros i j c Hi Hj Sc Vc. apply Hf; auto. rewrite Vc. exists [middle u i; middle v j]. split; auto.
    apply (rect_cell u v i j); auto. apply rect_middle; auto.
  - exists E. split; [exact EE|]. split; [exact SE|]. intros i j p Hi Hj Hp.
    destruct (VE i j Hi Hj) as (ru & rv & E1 & E2 & V). exists ru, rv. auto.
Qed.
Print Assumptions surface_elements_formula.

Theorem surface_elements_sum method K P pf u v f g args s G : library_rule method K -> grids u v ->
  parametrizes P pf u v -> (forall r c, f (r :: c :: args) = g (r :: args)) ->
  repD 3 (on_surface pf u v) s (fun r => g (r :: args)) G ->
  exists E T, integrate_surface_elements f P u v args method = Ok E /\ integrate_surface g P u v args method = Ok T /\
    shape E = (length u - 1)%nat :: (length v - 1)%nat :: s /\ shape T = s /\
    forall p, inside s p ->
      total (length u - 1) (fun i => total (length v - 1) (fun j => entry E (i :: j :: p))) = entry T p.
Proof.
  intros HL (Hu & Hv & Nu & Nv) HP Hfg Hg. destruct (library_sound _ _ HL) as (n & w & SR & _).
  destruct (elements_ok method n w P pf u v f args s (fun _ => G)) as (E & EE & SE & VE); auto.
  - intros i j c Hi Hj Sc Vc. eapply repD_eq; [|exact Hg]. intros r. symmetry. apply Hfg.
  - destruct (integrate_surface_ok method n w P pf u v g args s G) as (T & ru & rv & ET & ST & Eu & Ev & VT); auto.
    exists E, T. repeat (split; [assumption|]). intros p Hp. rewrite VT by auto. change total with lsum.
    apply (cells_sum method n w u v ru rv (fun q => G p (point pf q) * area pf q)); auto. intros i j Hi Hj.
    destruct (VE i j Hi Hj) as (ri & rj & E1 & E2 & V). exists ri, rj. auto.
Qed.
Print Assumptions surface_elements_sum.

Theorem surface_midpoints P pf u v : grids u v -> parametrizes P pf u v ->
  exists C, midpoints P u v = Ok C /\ shape C = [length u - 1; length v - 1; 3]%nat /\
    forall i j k, (S i < length u)%nat -> (S j < length v)%nat -> (k < 3)%nat ->
      entry C [i; j; k] = pf k [(nth i u 0 + nth (S i) u 0) / 2; (nth j v 0 + nth (S j) v 0) / 2].
Proof.
  intros (Hu & Hv & Nu & Nv) HP. destruct (midpoints_ok P pf u v) as (C & E & S & V); auto.
  exists C. split; [exact E|]. split; [exact S|]. intros i j k Hi Hj Hk.
  specialize (V i j Hi Hj). unfold tlist in V. cbn [trow shape] in V. rewrite S in V. cbn [tl hd seq map trow entry] in V.
  unfold point in V. injection V as V0 V1 V2. unfold middle in *.
  destruct k as [|[|[|k]]]; try lia; assumption.
Qed.
Print Assumptions surface_midpoints.

(** rejected inputs *)
Theorem surface_rejections method K P pf u v f args : library_rule method K ->
  ((length u < 2)%nat \/ (length v < 2)%nat ->
     integrate_surface_elements f P u v args method = Err AssertionError) /\
  (grids u v -> forall D s, openset 2 D -> (forall q, rect u v q -> D q) -> repD 2 D s P pf -> s <> [3%nat] ->
     integrate_surface f P u v args method = Err AssertionError).
Proof.
  intros HL. destruct (library_sound _ _ HL) as (n & w & SR & _). split.
  - intros H. unfold integrate_surface_elements.
    destruct (Nat.leb_spec 2 (length u)); [|reflexivity]. destruct (Nat.leb_spec 2 (length v)); [lia|reflexivity].
  - intros (Hu & Hv & Nu & Nv) D s HO HD HP Hs. eapply wrong_parametrization; eauto.
Qed.
Print Assumptions surface_rejections.

(** ** C72 *)
(** any charge, any order, any value shape: each element contributes the quadrature of
    the Taylor polynomial at its centre over the distance *)
Theorem single_layer_potential_taylor method K P pf u v f args s g D order x : library_rule method K -> grids u v ->
  parametrizes P pf u v -> openset 3 D -> (forall y, on_surface pf u v y -> D y) -> nprod s <> 0%nat ->
  repD 3 D s (fun y => f (y :: args)) g -> (0 <= order)%Z -> shape x = [3%nat] -> ~ on_surface pf u v (tlist x) ->
  exists src C V, source_tensor x P u v method order false = Ok (SVal src) /\ charge_tensor f P u v args order = Ok C /\
    single_layer_potential src C = Ok V /\ shape V = rot s /\
    forall p, inside s p -> exists Q,
      (forall i j, (S i < length u)%nat -> (S j < length v)%nat -> quad2 method (cell u i) (cell v j)
         (fun q => taylor (Z.to_nat order) (g p) (point pf [middle u i; middle v j]) (point pf q)
                   / dist (tlist x) (point pf q) * area pf q) (Q i j)) /\
      entry V (rot p) = 1 / (4 * PI) * total (length u - 1) (fun i => total (length v - 1) (fun j => Q i j)).
Proof.
  intros HL (Hu & Hv & Nu & Nv) HP HO HD Ns Hf Ho Sx Nx. destruct (library_sound _ _ HL) as (n & w & SR & _).
  destruct (potential_ok method n w P pf u v f args s g D order x) as (src & C & V & E1 & H); auto.
  exists src, C, V. split; [apply source_tensor_false; exact E1|exact H].
Qed.
Print Assumptions single_layer_potential_taylor.

(** charges that are polynomials of at most the order of the expansion; [h] computes
    the charge over the distance *)
Theorem single_layer_potential_polynomial method K P pf u v f h args hargs s g D order x :
  library_rule method K -> grids u v -> parametrizes P pf u v -> openset 3 D ->
  (forall y, on_surface pf u v y -> D y) -> nprod s <> 0%nat -> repD 3 D s (fun y => f (y :: args)) g ->
  (0 <= order)%Z -> shape x = [3%nat] -> ~ on_surface pf u v (tlist x) ->
  (forall p, inside s p -> poly (Z.to_nat order) (g p)) ->
  repD 3 (on_surface pf u v) s (fun y => h (y :: hargs)) (fun p y => g p y / dist (tlist x) y) ->
  exists src C V T, source_tensor x P u v method order false = Ok (SVal src) /\ charge_tensor f P u v args order = Ok C /\
    single_layer_potential src C = Ok V /\ shape V = rot s /\
    integrate_surface h P u v hargs method = Ok T /\ shape T = s /\
    forall p, inside s p -> entry V (rot p) = 1 / (4 * PI) * entry T p.
Proof.
  intros HL (Hu & Hv & Nu & Nv) HP HO HD Ns Hf Ho Sx Nx Hp Hh. destruct (library_sound _ _ HL) as (n & w & SR & _).
  destruct (potential_poly method n w P pf u v f h args hargs s g D order x) as (src & C & V & T & E1 & H); auto.
  exists src, C, V, T. split; [apply source_tensor_false; exact E1|exact H].
Qed.
Print Assumptions single_layer_potential_polynomial.

(** negative orders are rejected *)
Theorem layer_order_rejected x P u v method order b f args : (order < 0)%Z ->
  source_tensor x P u v method order b = Err AssertionError /\ charge_tensor f P u v args order = Err AssertionError.
Proof.
  intros H. assert (E : Z.leb 0 order = false) by (apply Z.leb_gt; exact H).
  unfold source_tensor, source_tensor_, charge_tensor, value_and_jacfwd. rewrite E.
  destruct b; split; cbn; try rewrite E; reflexivity.
Qed.
Print Assumptions layer_order_rejected.

(** ** C74 *)
Theorem curl_of_single_layer_potential source s C M D x : openset 3 D ->
  repD 3 D [M] source (fun p => s (hd 0%nat p)) -> shape C = [M; 3%nat] -> shape x = [3%nat] -> D (tlist x) ->
  (forall k, (k < M)%nat -> partials 3 (s k) (tlist x)) ->
  exists V J T, repD 3 D [3%nat] (fun x => a <- source x ;; single_layer_potential a C) (fun p => V (hd 0%nat p)) /\
    jacfwd source x = Ok J /\ curl_single_layer_potential J C = Ok T /\ shape T = [3%nat] /\
    forall i, (i < 3)%nat -> entry T [i] = curl3_ V i (tlist x).
Proof. exact (curl_potential source s C M D x). Qed.
Print Assumptions curl_of_single_layer_potential.

(** with the source and charge tensors of the module *)
Theorem curl_of_layer method K P pf u v order D x f args g Df : library_rule method K -> grids u v ->
  parametrizes P pf u v -> (0 <= order)%Z ->
  openset 3 D -> (forall y, D y -> ~ on_surface pf u v y) -> shape x = [3%nat] -> D (tlist x) ->
  openset 3 Df -> (forall y, on_surface pf u v y -> Df y) -> repD 3 Df [3%nat] (fun y => f (y :: args)) g ->
  exists C V src J T, charge_tensor f P u v args order = Ok C /\
    repD 3 D [3%nat] (fun x => r <- source_tensor x P u v method order false ;;
                               match r with SVal a => single_layer_potential a C | SValJac a _ => single_layer_potential a C end)
         (fun p => V (hd 0%nat p)) /\
    source_tensor x P u v method order true = Ok (SValJac src J) /\ curl_single_layer_potential J C = Ok T /\
    shape T = [3%nat] /\ forall i, (i < 3)%nat -> entry T [i] = curl3_ V i (tlist x).
Proof.
  intros HL (Hu & Hv & Nu & Nv) HP Ho HO HD Sx Dx HOf HDf Hf. destruct (library_sound _ _ HL) as (n & w & SR & _).
  destruct (charge_tensor_ok P pf u v f args [3%nat] g Df order) as (C & EC & SC & _); auto. { discriminate. }
  destruct (curl_layer method n w P pf u v order D x C) as (V & src & J & T & H); auto.
  exists C, V, src, J, T. split; [exact EC|exact H].
Qed.
Print Assumptions curl_of_layer.

(** the same contraction with the derivative of the source gives the gradient of the
    potential of a scalar charge *)
Theorem gradient_of_layer method K P pf u v order D x f args g Df : library_rule method K -> grids u v ->
  parametrizes P pf u v -> (0 <= order)%Z ->
  openset 3 D -> (forall y, D y -> ~ on_surface pf u v y) -> shape x = [3%nat] -> D (tlist x) ->
  openset 3 Df -> (forall y, on_surface pf u v y -> Df y) -> repD 3 Df [] (fun y => f (y :: args)) g ->
  exists C V src J T, charge_tensor f P u v args order = Ok C /\
    repD 3 D [] (fun x => r <- source_tensor x P u v method order false ;;
                          match r with SVal a => single_layer_potential a C | SValJac a _ => single_layer_potential a C end)
         (fun _ => V) /\
    source_tensor x P u v method order true = Ok (SValJac src J) /\ single_layer_potential J C = Ok T /\
    shape T = [3%nat] /\ forall i, (i < 3)%nat -> entry T [i] = pd i V (tlist x).
Proof.
  intros HL (Hu & Hv & Nu & Nv) HP Ho HO HD Sx Dx HOf HDf Hf. destruct (library_sound _ _ HL) as (n & w & SR & _).
  destruct (charge_tensor_ok P pf u v f args [] g Df order) as (C & EC & SC & _); auto. { discriminate. }
  destruct (gradient_layer method n w P pf u v order D x C) as (V & src & J & T & H); auto.
  exists C, V, src, J, T. split; [exact EC|exact H].
Qed.
Print Assumptions gradient_of_layer.

(** ** C73 *)
Theorem scalar_charge_formula n D adf w x mag m phi1 phi normalized pm pp : openset n D ->
  repD n D [] adf (fun _ => w) -> shape x = [n] -> D (tlist x) -> normR (grad n w (tlist x)) <> 0 ->
  mag (x :: pm) = Ok m -> shape m = [n] -> repD n D [] (fun x => phi1 (x :: pp)) (fun _ => phi) ->
  exists y, scalar_potential_charge adf mag phi1 normalized x pm pp = Ok y /\ shape y = [] /\
    entry y [] = total n (fun k => entry m [k] * outward n w (tlist x) k) +
      (if normalized then phi (tlist x) else - total n (fun k => pd k phi (tlist x) * outward n w (tlist x) k)).
Proof. intros. eapply scalar_charge_ok; eauto. Qed.
Print Assumptions scalar_charge_formula.

Theorem vector_charge_formula D adf w x mag m A1 A normalized pm pp : openset 3 D ->
  repD 3 D [] adf (fun _ => w) -> shape x = [3%nat] -> D (tlist x) -> normR (grad 3 w (tlist x)) <> 0 ->
  mag (x :: pm) = Ok m -> shape m = [3%nat] -> repD 3 D [3%nat] (fun x => A1 (x :: pp)) (fun p => A (hd 0%nat p)) ->
  exists y, vector_potential_charge adf mag A1 normalized x pm pp = Ok y /\ shape y = [3%nat] /\
    forall i, (i < 3)%nat -> entry y [i] = vprod (fun k => entry m [k]) (outward 3 w (tlist x)) i +
      (if normalized then A i (tlist x) else - total 3 (fun k => pd k (A i) (tlist x) * outward 3 w (tlist x) k)).
Proof. intros. eapply vector_charge_ok; eauto. Qed.
Print Assumptions vector_charge_formula.

(** on the boundary; [phi0] computes adf * phi.  With a distance that is not normalized
    the second term is multiplied by the length of the gradient. *)
Theorem scalar_charges_related n D adf w x mag m phi1 phi phi0 pm pp pp0 : openset n D ->
  repD n D [] adf (fun _ => w) -> shape x = [n] -> D (tlist x) -> normR (grad n w (tlist x)) <> 0 ->
  mag (x :: pm) = Ok m -> shape m = [n] ->
  repD n D [] (fun x => phi1 (x :: pp)) (fun _ => phi) ->
  repD n D [] (fun x => phi0 (x :: pp0)) (fun _ X => w X * phi X) ->
  w (tlist x) = 0 -> partials n w (tlist x) -> partials n phi (tlist x) ->
  exists y y0, scalar_potential_charge adf mag phi1 true x pm pp = Ok y /\
    scalar_potential_charge adf mag phi0 false x pm pp0 = Ok y0 /\ shape y = [] /\ shape y0 = [] /\
    entry y0 [] - entry y [] = phi (tlist x) * (normR (grad n w (tlist x)) - 1) /\
    (normR (grad n w (tlist x)) = 1 -> entry y [] = entry y0 []).
Proof.
  intros HO HA Sx Dx Hg Em Sm H1 H0 Hw D1 D2.
  destruct (scalar_charge_formula n D adf w x mag m phi1 phi true pm pp) as (y & Ey & Sy & Vy); auto.
  destruct (scalar_charge_formula n D adf w x mag m phi0 (fun X => w X * phi X) false pm pp0) as (y0 & Ey0 & Sy0 & Vy0); auto.
  exists y, y0. repeat (split; [assumption|]). change total with lsum in *. rewrite Vy, Vy0, sum_product_outward; auto.
  - split; [ring|]. intros ->. ring.
  - apply (HO _ Dx).
Qed.
Print Assumptions scalar_charges_related.

Theorem vector_charges_related D adf w x mag m A1 A A0 pm pp pp0 : openset 3 D ->
  repD 3 D [] adf (fun _ => w) -> shape x = [3%nat] -> D (tlist x) -> normR (grad 3 w (tlist x)) <> 0 ->
  mag (x :: pm) = Ok m -> shape m = [3%nat] ->
  repD 3 D [3%nat] (fun x => A1 (x :: pp)) (fun p => A (hd 0%nat p)) ->
  repD 3 D [3%nat] (fun x => A0 (x :: pp0)) (fun p X => w X * A (hd 0%nat p) X) ->
  w (tlist x) = 0 -> partials 3 w (tlist x) -> (forall i, (i < 3)%nat -> partials 3 (A i) (tlist x)) ->
  exists y y0, vector_potential_charge adf mag A1 true x pm pp = Ok y /\
    vector_potential_charge adf mag A0 false x pm pp0 = Ok y0 /\ shape y = [3%nat] /\ shape y0 = [3%nat] /\
    forall i, (i < 3)%nat ->
      entry y0 [i] - entry y [i] = A i (tlist x) * (normR (grad 3 w (tlist x)) - 1) /\
      (normR (grad 3 w (tlist x)) = 1 -> entry y [i] = entry y0 [i]).
Proof.
  intros HO HA Sx Dx Hg Em Sm H1 H0 Hw D1 D2.
  destruct (vector_charge_formula D adf w x mag m A1 A true pm pp) as (y & Ey & Sy & Vy); auto.
  destruct (vector_charge_formula D adf w x mag m A0 (fun i X => w X * A i X) false pm pp0) as (y0 & Ey0 & Sy0 & Vy0); auto.
  exists y, y0. repeat (split; [assumption|]). change total with lsum in *. intros i Hi.
  rewrite Vy, Vy0, sum_product_outward; auto.
  - split; [ring|]. intros ->. ring.
  - apply (HO _ Dx).
Qed.
Print Assumptions vector_charges_related.

(** scaling the distance by a positive factor *)
Theorem scalar_charge_rescaled n D adf adf' w c x mag m phi1 phi normalized pm pp : openset n D ->
  repD n D [] adf (fun _ => w) -> repD n D [] adf' (fun _ X => c * w X) -> 0 < c ->
  shape x = [n] -> D (tlist x) -> normR (grad n w (tlist x)) <> 0 ->
  mag (x :: pm) = Ok m -> shape m = [n] -> repD n D [] (fun x => phi1 (x :: pp)) (fun _ => phi) ->
  exists y y', scalar_potential_charge adf mag phi1 normalized x pm pp = Ok y /\
    scalar_potential_charge adf' mag phi1 normalized x pm pp = Ok y' /\ shape y = [] /\ shape y' = [] /\
    entry y' [] = entry y [].
Proof.
  intros HO HA HA' Hc Sx Dx Hg Em Sm H1.
  destruct (scalar_charge_formula n D adf w x mag m phi1 phi normalized pm pp) as (y & Ey & Sy & Vy); auto.
  destruct (scalar_charge_formula n D adf' (fun X => c * w X) x mag m phi1 phi normalized pm pp) as (y' & Ey' & Sy' & Vy'); auto.
  { rewrite grad_scale, normR_scal by lra. intros E. apply Rmult_integral in E. destruct E; [lra|auto]. }
  exists y, y'. repeat (split; [assumption|]). rewrite Vy, Vy'. change total with lsum. f_equal.
  - apply lsum_ext. intros k _. rewrite outward_scale by auto. reflexivity.
  - destruct normalized; auto. f_equal. apply lsum_ext. intros k _. rewrite outward_scale by auto. reflexivity.
Qed.
Print Assumptions scalar_charge_rescaled.

Theorem vector_charge_rescaled D adf adf' w c x mag m A1 A normalized pm pp : openset 3 D ->
  repD 3 D [] adf (fun _ => w) -> repD 3 D [] adf' (fun _ X => c * w X) -> 0 < c ->
  shape x = [3%nat] -> D (tlist x) -> normR (grad 3 w (tlist x)) <> 0 ->
  mag (x :: pm) = Ok m -> shape m = [3%nat] -> repD 3 D [3%nat] (fun x => A1 (x :: pp)) (fun p => A (hd 0%nat p)) ->
  exists y y', vector_potential_charge adf mag A1 normalized x pm pp = Ok y /\
    vector_potential_charge adf' mag A1 normalized x pm pp = Ok y' /\ shape y = [3%nat] /\ shape y' = [3%nat] /\
    forall i, (i < 3)%nat -> entry y' [i] = entry y [i].
Proof.
  intros HO HA HA' Hc Sx Dx Hg Em Sm H1.
  destruct (vector_charge_formula D adf w x mag m A1 A normalized pm pp) as (y & Ey & Sy & Vy); auto.
  destruct (vector_charge_formula D adf' (fun X => c * w X) x mag m A1 A normalized pm pp) as (y' & Ey' & Sy' & Vy'); auto.
  { rewrite grad_scale, normR_scal by lra. intros E. apply Rmult_integral in E. destruct E; [lra|auto]. }
  exists y, y'. repeat (split; [assumption|]). intros i Hi. rewrite Vy, Vy' by auto. change total with lsum. f_equal.
  - unfold vprod. rewrite !outward_scale by auto. reflexivity.
  - destruct normalized; auto. f_equal. apply lsum_ext. intros k _. rewrite outward_scale by auto. reflexivity.
Qed.
Print Assumptions vector_charge_rescaled.

(** a vanishing gradient has no direction *)
Theorem charges_undefined n D adf w x mag phi1 normalized pm pp : openset n D ->
  repD n D [] adf (fun _ => w) -> shape x = [n] -> D (tlist x) -> (forall k, (k < n)%nat -> pd k w (tlist x) = 0) ->
  scalar_potential_charge adf mag phi1 normalized x pm pp = Err NonFinite /\
  vector_potential_charge adf mag phi1 normalized x pm pp = Err NonFinite.
Proof.
  intros HO HA Sx Dx H. assert (E : normR (grad n w (tlist x)) = 0).
  { unfold normR. rewrite <- sqrt_0. f_equal. unfold grad. rewrite map_map.
    change (lsum n (fun k => pd k w (tlist x) * pd k w (tlist x)) = 0).
    rewrite (lsum_ext n _ (fun _ => 0)); [apply lsum_0|]. intros k Hk. rewrite H by auto. ring. }
  split; [eapply scalar_charge_zero|eapply vector_charge_zero]; eauto.
Qed.
Print Assumptions charges_undefined.

(** ** C71: constant integrands on parallelograms are integrated exactly *)
Definition parallelogram (o a b : nat -> R) (k : nat) (q : list R) : R := o k + a k * nth 0 q 0 + b k * nth 1 q 0.
Lemma parallelogram_pd o a b k x y :
  pd 0 (parallelogram o a b k) [x; y] = a k /\ pd 1 (parallelogram o a b k) [x; y] = b k.
Proof.
  unfold pd, parallelogram. cbn [upd nth]. split; apply is_derive_unique; auto_derive; auto; ring.
Qed.
Theorem surface_integral_parallelogram method K P u v f args o a b c : library_rule method K -> grids u v ->
  parametrizes P (parallelogram o a b) u v ->
  repD 3 (on_surface (parallelogram o a b) u v) [] (fun r => f (r :: args)) (fun _ _ => c) ->
  exists T, integrate_surface f P u v args method = Ok T /\ shape T = [] /\
    entry T [] = c * sqrt (vprod a b 0 ^ 2 + vprod a b 1 ^ 2 + vprod a b 2 ^ 2)
                 * ((final u - first u) * (final v - first v)).
Proof.
  intros HL HG HP Hf. destruct (surface_integral_formula method K P _ u v f args [] _ HL HG HP Hf) as (T & E & S & V).
  exists T. split; [exact E|]. split; [exact S|]. destruct (V [] ltac:(constructor)) as (ru & rv & Eu & Ev & ->).
  destruct HG as (Hu & Hv & _). set (z := c * sqrt _).
  destruct (quadrature_weights method K u HL Hu) as (W1 & X1 & E1 & L1 & S1 & _).
  destruct (quadrature_weights method K v HL Hv) as (W2 & X2 & E2 & L2 & S2 & _).
  rewrite Eu in E1. rewrite Ev in E2. injection E1 as ->. injection E2 as ->.
  assert (Sum : forall W X y, length W = length X -> sumR (map2 (fun wi (_ : R) => wi * y) W X) = sumR W * y).
  { induction W as [|w0 W IH]; intros [|x0 X] y L; try discriminate L; [cbn; ring|].
    cbn [map2]. change (sumR (?p :: ?q)) with (p + sumR q). rewrite IH by (cbn in L; lia). ring. }
  transitivity (iterated [(W1, X1); (W2, X2)] (fun _ => z)).
  - cbn [iterated].
    apply sum_map2_ext. intros w1 x1. f_equal. apply sum_map2_ext. intros w2 x2. f_equal. unfold z, area.
    rewrite !(proj1 (parallelogram_pd _ _ _ _ _ _)), !(proj2 (parallelogram_pd _ _ _ _ _ _)).
    unfold vprod. cbn [Nat.add Nat.modulo Nat.divmod fst snd Nat.sub]. reflexivity.
  - cbn [iterated]. rewrite (sum_map2_ext _ (fun wi _ => wi * (sumR W2 * z))).
    + rewrite Sum by auto. rewrite S1, S2. ring.
    + intros wi xi. rewrite Sum by auto. reflexivity.
Qed.
Print Assumptions surface_integral_parallelogram.

(** ** C83: axes of tensor-valued charges *)
(** scalar and vector charges keep their axes ... *)
Theorem layer_potential_axes method K P pf u v f args s g D order x : library_rule method K -> grids u v ->
  parametrizes P pf u v -> openset 3 D -> (forall y, on_surface pf u v y -> D y) -> nprod s <> 0%nat ->
  (length s <= 1)%nat ->
  repD 3 D s (fun y => f (y :: args)) g -> (0 <= order)%Z -> shape x = [3%nat] -> ~ on_surface pf u v (tlist x) ->
  exists src C V, source_tensor x P u v method order false = Ok (SVal src) /\ charge_tensor f P u v args order = Ok C /\
    single_layer_potential src C = Ok V /\ shape V = s.
Proof.
  intros HL HG HP HO HD Ns Ls Hf Ho Sx Nx.
  destruct (single_layer_potential_taylor method K P pf u v f args s g D order x) as (src & C & V & E1 & E2 & E3 & SV & _); auto.
  exists src, C, V. repeat (split; [assumption|]). rewrite SV. destruct s as [|n [|? ?]]; cbn in Ls; [reflexivity|reflexivity|lia].
Qed.
Print Assumptions layer_potential_axes.

(** ** concrete cases *)
Definition flatP (t : tensor) : res tensor := Ok (tvec [nth 0 (tlist t) 0; nth 1 (tlist t) 0; 0]).
Definition flat (k : nat) (q : list R) : R := match k with O => nth 0 q 0 | S O => nth 1 q 0 | _ => 0 end.
Lemma openset_all n : openset n (fun q => length q = n).
Proof. intros q Hq. split; auto. exists 1. split; [lra|]. intros y (L & _). congruence. Qed.
Lemma flat_ok u v : parametrizes flatP flat u v.
Proof.
  exists (fun q => length q = 2%nat). split; [apply openset_all|]. split.
  - intros q (a & b & -> & _). reflexivity.
  - intros t St Dt. eexists. split; [reflexivity|]. split; [reflexivity|]. intros p Hp.
    inversion Hp as [|k ? l ? Hk Hl]; subst. inversion Hl; subst. cbn [hd].
    destruct k as [|[|[|k]]]; try lia; reflexivity.
Qed.
Lemma unit_grids : grids [0; 1; 3] [0; 1].
Proof. repeat split; cbn; try lia; try lra. Qed.
Lemma flat_height u v y : on_surface flat u v y -> nth 2 y 0 = 0 /\ length y = 3%nat.
Proof. intros (q & _ & ->). auto. Qed.

(** area of the rectangle [0,3] x [0,1] *)
Example flat_area : exists T, integrate_surface (fun _ => Ok (tsc 2)) flatP [0; 1; 3] [0; 1] [] trap = Ok T /\
  shape T = [] /\ entry T [] = 6.
Proof.
  set (e := fun i j : nat => if Nat.eqb i j then 1 else 0).
  destruct (surface_integral_parallelogram trap 1 flatP [0; 1; 3] [0; 1] (fun _ => Ok (tsc 2)) []
     (fun _ => 0) (e 0%nat) (e 1%nat) 2 lib_trap unit_grids) as (T & E & S & V).
  - destruct (flat_ok [0; 1; 3] [0; 1]) as (D & H1 & H2 & H3). exists D. split; auto. split; auto.
    eapply repD_ext; [|exact H3]. intros p q Hp. inversion Hp as [|k ? l ? Hk Hl]; subst. inversion Hl; subst. cbn [hd].
    destruct k as [|[|[|k]]]; try lia; unfold parallelogram, e; cbn [Nat.eqb flat]; ring.
  - intros t St Dt. exists (tsc 2). repeat split.
  - exists T. split; [exact E|]. split; [exact S|]. rewrite V. unfold vprod, e, final, first.
    cbn [Nat.add Nat.modulo Nat.divmod fst snd Nat.sub Nat.eqb last hd].
    match goal with |- context [sqrt ?z] => replace z with 1 by ring end. rewrite sqrt_1. ring.
Qed.
Example elements_example : exists E T,
  integrate_surface_elements (fun a => match a with r :: _ => Ok (tsc (entry r [0%nat])) | _ => Err TypeError end)
    flatP [0; 1; 3] [0; 1] [] trap = Ok E /\
  integrate_surface (fun a => match a with r :: _ => Ok (tsc (entry r [0%nat])) | _ => Err TypeError end)
    flatP [0; 1; 3] [0; 1] [] trap = Ok T /\
  total 2 (fun i => total 1 (fun j => entry E [i; j])) = entry T [].
Proof.
  destruct (surface_elements_sum trap 1 flatP flat [0; 1; 3] [0; 1]
    (fun a => match a with r :: _ => Ok (tsc (entry r [0%nat])) | _ => Err TypeError end)
    (fun a => match a with r :: _ => Ok (tsc (entry r [0%nat])) | _ => Err TypeError end)
    [] [] (fun _ y => nth 0 y 0) lib_trap unit_grids (flat_ok _ _)) as (E & T & E1 & E2 & _ & _ & V).
  - reflexivity.
  - intros t St Dt. exists (tsc (entry t [0%nat])). split; [reflexivity|]. split; [reflexivity|].
    intros p Hp. rewrite (tlist3 t St). reflexivity.
  - exists E, T. split; [exact E1|]. split; [exact E2|]. exact (V [] ltac:(constructor)).
Qed.

(** charge y_0, target (0,0,1), first order *)
Definition charge0 (a : list tensor) : res tensor :=
  match a with r :: _ => Ok (tsc (nth 0 (tlist r) 0)) | _ => Err TypeError end.
Definition target : tensor := tvec [0; 0; 1].
Lemma target_off u v : ~ on_surface flat u v (tlist target).
Proof. intros H. apply flat_height in H. unfold target in H. rewrite tlist_tvec in H. cbn in H. lra. Qed.
Example potential_example : exists src C V T,
  source_tensor target flatP [0; 1; 3] [0; 1] trap 1 false = Ok (SVal src) /\
  charge_tensor charge0 flatP [0; 1; 3] [0; 1] [] 1 = Ok C /\ single_layer_potential src C = Ok V /\
  integrate_surface (fun a => match a with r :: _ => Ok (tsc (nth 0 (tlist r) 0 / dist (tlist target) (tlist r)))
                     | _ => Err TypeError end) flatP [0; 1; 3] [0; 1] [] trap = Ok T /\
  entry V [] = 1 / (4 * PI) * entry T [].
Proof.
  destruct (single_layer_potential_polynomial trap 1 flatP flat [0; 1; 3] [0; 1] charge0
    (fun a => match a with r :: _ => Ok (tsc (nth 0 (tlist r) 0 / dist (tlist target) (tlist r))) | _ => Err TypeError end)
    [] [] [] (fun _ y => nth 0 y 0) (fun y => length y = 3%nat) 1 target lib_trap unit_grids (flat_ok _ _))
    as (src & C & V & T & E1 & E2 & E3 & _ & E4 & _ & H).
  - apply openset_all.
  - intros y Hy. apply flat_height in Hy. apply Hy.
  - discriminate.
  - intros t St Dt. eexists. split; [reflexivity|]. split; [reflexivity|]. reflexivity.
  - lia.
  - reflexivity.
  - apply target_off.
  - intros p Hp. apply (poly_same 1 (fun x => nth 0 x 0 * 1)); [|intros; ring]. apply poly_mul; [lia|]. apply poly_const.
  - intros t St Dt. eexists. split; [reflexivity|]. split; [reflexivity|]. reflexivity.
  - exists src, C, V, T. repeat (split; [assumption|]). exact (H [] ltac:(constructor)).
Qed.

(** ... but a matrix-valued charge comes out transposed *)
Definition charge23 (_ : list tensor) : res tensor :=
  Ok (mkT [2; 3]%nat (fun p => INR (3 * nth 0 p 0 + nth 1 p 0)%nat)).
Theorem layer_potential_axes_refuted :
  exists src C V, source_tensor target flatP [0; 1; 3] [0; 1] trap 0 false = Ok (SVal src) /\
    charge_tensor charge23 flatP [0; 1; 3] [0; 1] [] 0 = Ok C /\ single_layer_potential src C = Ok V /\
    (forall r, exists y, charge23 [r] = Ok y /\ shape y = [2; 3]%nat) /\ shape V = [3; 2]%nat /\
    ~ (forall p f g u v P pf, repD 3 (fun y => length y = 3%nat) p (fun y => f [y]) g -> grids u v ->
         parametrizes P pf u v -> ~ on_surface pf u v (tlist target) -> nprod p <> 0%nat ->
         forall src C V, source_tensor target P u v trap 0 false = Ok (SVal src) ->
           charge_tensor f P u v [] 0 = Ok C -> single_layer_potential src C = Ok V -> shape V = p).
Proof.
  assert (R23 : repD 3 (fun y => length y = 3%nat) [2; 3]%nat (fun y => charge23 [y])
     (fun p _ => INR (3 * nth 0 p 0 + nth 1 p 0)%nat)).
  { intros t St Dt. eexists. split; [reflexivity|]. split; reflexivity. }
  destruct (single_layer_potential_taylor trap 1 flatP flat [0; 1; 3] [0; 1] charge23 [] [2; 3]%nat
    (fun p _ => INR (3 * nth 0 p 0 + nth 1 p 0)%nat) (fun y => length y = 3%nat) 0 target lib_trap unit_grids (flat_ok _ _))
    as (src & C & V & E1 & E2 & E3 & SV & _); auto.
  - apply openset_all.
  - intros y Hy. apply flat_height in Hy. apply Hy.
  - discriminate.
  - lia.
  - apply target_off.
  - exists src, C, V. repeat (split; [assumption|]). split; [intros r; eexists; split; reflexivity|]. split; [exact SV|].
    intros H. specialize (H [2; 3]%nat charge23 _ [0; 1; 3] [0; 1] flatP flat R23 unit_grids (flat_ok _ _)
      (target_off _ _) ltac:(discriminate) src C V E1 E2 E3). rewrite SV in H. discriminate H.
Qed.
Print Assumptions layer_potential_axes_refuted.

(** targets above the plane *)
Lemma upper_open : openset 3 (fun y => length y = 3%nat /\ 0 < nth 2 y 0).
Proof.
  intros q (L & H). split; auto. exists (nth 2 q 0). split; auto. intros y (Ly & Hy). split; [congruence|].
  specialize (Hy 2%nat). apply Rabs_def2 in Hy. lra.
Qed.
Example curl_example : exists C V src J T, charge_tensor (fun a => Ok (tvec [0; 0; 1])) flatP [0; 1; 3] [0; 1] [] 1 = Ok C /\
    repD 3 (fun y => length y = 3%nat /\ 0 < nth 2 y 0) [3%nat]
      (fun x => r <- source_tensor x flatP [0; 1; 3] [0; 1] trap 1 false ;;
                               match r with SVal a => single_layer_potential a C | SValJac a _ => single_layer_potential a C end)
         (fun p => V (hd 0%nat p)) /\
    source_tensor target flatP [0; 1; 3] [0; 1] trap 1 true = Ok (SValJac src J) /\ curl_single_layer_potential J C = Ok T /\
    shape T = [3%nat] /\ forall i, (i < 3)%nat -> entry T [i] = curl3_ V i (tlist target).
Proof.
  apply (curl_of_layer trap 1 flatP flat [0; 1; 3] [0; 1] 1 (fun y => length y = 3%nat /\ 0 < nth 2 y 0) target
    (fun a => Ok (tvec [0; 0; 1])) [] (fun p _ => nth (hd 0%nat p) [0; 0; 1] 0) (fun y => length y = 3%nat) lib_trap unit_grids (flat_ok _ _)).
  - lia.
  - apply upper_open.
  - intros y (_ & H) Hy. apply flat_height in Hy. lra.
  - reflexivity.
  - unfold target. rewrite tlist_tvec. cbn. split; [reflexivity|lra].
  - apply openset_all.
  - intros y Hy. apply flat_height in Hy. apply Hy.
  - intros t St Dt. eexists. split; [reflexivity|]. split; reflexivity.
Qed.

(** half space x_0 > 0 at the origin: normal (-1,0,0), charge -1 + 5 *)
Example charge_example : exists y,
  scalar_potential_charge (fun t => Ok (tsc (nth 0 (tlist t) 0))) (fun _ => Ok (tvec [1; 2; 3])) (fun _ => Ok (tsc 5)) true
    (tvec [0; 0; 0]) [] [] = Ok y /\ entry y [] = 4.
Proof.
  set (D := fun q : list R => length q = 3%nat).
  assert (G : forall k, pd k (fun y : list R => nth 0 y 0) [0; 0; 0] = if Nat.eqb k 0 then 1 else 0).
  { intros k. unfold pd. destruct k as [|k]; cbn [Nat.eqb].
    - rewrite (Derive_ext _ (fun t => t)) by reflexivity. apply Derive_id.
    - rewrite (Derive_ext _ (fun _ => 0)); [apply Derive_const|]. intros t. reflexivity. }
  assert (N : normR (grad 3 (fun y : list R => nth 0 y 0) (tlist (tvec [0; 0; 0]))) = 1).
  { rewrite tlist_tvec. unfold grad. cbn [seq map]. rewrite !G. cbn [Nat.eqb]. unfold normR, sumR. cbn [map fold_right].
    match goal with |- sqrt ?z = _ => replace z with 1 by ring end. apply sqrt_1. }
  destruct (scalar_charge_formula 3 D (fun t => Ok (tsc (nth 0 (tlist t) 0))) (fun y => nth 0 y 0) (tvec [0; 0; 0])
    (fun _ => Ok (tvec [1; 2; 3])) (tvec [1; 2; 3]) (fun _ => Ok (tsc 5)) (fun _ => 5) true [] []) as (y & E & S & V); auto.
  - apply openset_all.
  - intros t St Dt. eexists. split; [reflexivity|]. split; reflexivity.
  - reflexivity.
  - rewrite N. lra.
  - intros t St Dt. eexists. split; [reflexivity|]. split; reflexivity.
  - exists y. split; [exact E|]. rewrite V. unfold outward. rewrite N, tlist_tvec. unfold total. cbn [seq map]. rewrite !G.
    cbn [Nat.eqb tvec entry hd nth]. unfold sumR. cbn [fold_right]. field.
Qed.
