(** Proofs about surface_integral.py, part 4: source tensor, the single layer
    potential and its curl. *)
From Coquelicot Require Import Coquelicot.
From Verif Require Import Base BaseFacts P_Vec M_Tensor M_Calc S_Calc P_AD P_Calc P_Calc2 S_Model P_Model.
From Verif Require Import M_Integrate S_Integrate P_Integrate1 P_Integrate2 P_Integrate3 T_Integrate.
From Verif Require Import M_Surface S_Surface P_Surface1 P_Surface2 P_Surface3.

(** ** source tensor *)
Definition rule_of (method : quadrule) (d : list R) : list R * list R :=
  match method d with Ok r => r | Err _ => ([], []) end.

Section Source.
Variables (method : quadrule) (pf : nat -> list R -> R) (u v : list R) (o : nat).
(** moment [m] of the cell [i, j] as a function of the target point *)
Definition moment_fun (i j m : nat) (X : list R) : R :=
  iterated [rule_of method (cell u i); rule_of method (cell v j)]
    (fun q => mono (map2 Rminus (point pf q) (point pf [middle u i; middle v j])) (multi (S o) 0 m)
              / dist X (point pf q) * area pf q).
Definition src_shape : list nat := [length u - 1; length v - 1; nmulti (S o) 0]%nat.
Definition source_fun (k : nat) (X : list R) : R :=
  match unravel src_shape k with
  | [i; j; m] => moment_fun i j m X
  | _ => 0
  end.
End Source.

Lemma inside3 a b c q : inside [a; b; c] q -> exists i j m, q = [i; j; m] /\ (i < a)%nat /\ (j < b)%nat /\ (m < c)%nat.
Proof.
  intros I1. inversion I1 as [|i ? l1 ? Hi I2 E1]; subst. inversion I2 as [|j ? l2 ? Hj I3 E2]; subst.
  inversion I3 as [|m ? l3 ? Hm I4 E3]; subst. inversion I4; subst. exists i, j, m. auto.
Qed.
Lemma inside1 a i : (i < a)%nat -> inside [a] [i].
Proof. intros H. constructor; [exact H|constructor]. Qed.
Lemma inside2 a b i j : (i < a)%nat -> (j < b)%nat -> inside [a; b] [i; j].
Proof. intros H K. constructor; [exact H|]. apply inside1. exact K. Qed.
Lemma sum3 a b c (F : nat -> nat -> nat -> R) :
  lsum (nprod [a; b; c]) (fun k => match unravel [a; b; c] k with [i; j; m] => F i j m | _ => 0 end) =
  lsum a (fun i => lsum b (fun j => lsum c (fun m => F i j m))).
Proof.
  pose (G := fun q : list nat => match q with [i; j; m] => F i j m | _ => 0 end).
  change (lsum (nprod [a; b; c]) (fun k => G (unravel [a; b; c] k)) = lsum a (fun i => lsum b (fun j => lsum c (fun m => F i j m)))).
  rewrite (sum_unravel a [b; c] G). apply lsum_ext. intros i _.
  rewrite (sum_unravel b [c] (fun q => G (i :: q))). apply lsum_ext. intros j _.
  rewrite (sum_unravel c [] (fun q => G (i :: j :: q))). apply lsum_ext. intros m _.
  unfold lsum, sumR. cbn. ring.
Qed.
Lemma iterated_lsum rs n (F : nat -> list R -> R) :
  iterated rs (fun q => lsum n (fun k => F k q)) = lsum n (fun k => iterated rs (F k)).
Proof.
  induction n as [|n IH].
  - unfold lsum at 2. cbn [seq map]. change (sumR []) with 0.
    rewrite (iterated_ext rs _ (fun p => 0 * 0)) by (intros; unfold lsum; cbn; ring).
    rewrite (iterated_scal rs 0 (fun _ => 0)). ring.
  - rewrite lsum_S, <- IH. rewrite (iterated_ext rs _ (fun q => 1 * lsum n (fun k => F k q) + 1 * F n q)).
    + rewrite (iterated_linear rs 1 1 (fun q => lsum n (fun k => F k q)) (F n)). ring.
    + intros p _. rewrite lsum_S. ring.
Qed.

Lemma source_ok method n w P pf u v order x : sound_rule method n w ->
  (2 <= length u)%nat -> (2 <= length v)%nat -> nondecreasing u -> nondecreasing v -> parametrizes P pf u v ->
  (0 <= order)%Z -> shape x = [3%nat] -> ~ on_surface pf u v (tlist x) ->
  exists S, source_tensor_ x P u v method order = Ok S /\ shape S = [nprod (src_shape u v (Z.to_nat order))] /\
    forall k, (k < nprod (src_shape u v (Z.to_nat order)))%nat ->
      entry S [k] = source_fun method pf u v (Z.to_nat order) k (tlist x).
Proof.
  intros SR Hu Hv Nu Nv HP Ho Sx Nx. set (o := Z.to_nat order). unfold source_tensor_.
  rewrite (proj2 (Z.leb_le _ _) Ho). cbn [assert_ bind]. fold o.
  destruct (elements_ok method n w P pf u v (source_integrand o) [x] [nmulti (S o) 0]
     (fun c p y => mono (map2 Rminus y c) (multi (S o) 0 (hd 0%nat p)) / dist (tlist x) y)) as (Z & EZ & SZ & VZ); auto.
  { intros i j c Hi Hj Sc Vc. apply source_integrand_rep; auto. intros y Hy ->. auto. }
  rewrite EZ. cbn [bind]. eexists. split; [reflexivity|].
  assert (SZ' : shape Z = src_shape u v o) by exact SZ.
  split. { cbn [travel shape]. rewrite SZ'. reflexivity. }
  intros k Hk. rewrite travel_entry, SZ'. unfold source_fun.
  destruct (unravel_inside _ _ Hk) as (I & _). remember (unravel (src_shape u v o) k) as q eqn:Eq. clear Eq.
  destruct (inside3 _ _ _ _ I) as (i & j & m & -> & Hi & Hj & Hm).
  destruct (VZ i j ltac:(lia) ltac:(lia)) as (ru & rv & E1 & E2 & V).
  rewrite V by (apply inside1; auto). unfold moment_fun, rule_of. rewrite E1, E2. reflexivity.
Qed.

(** ** the potential *)
Lemma contract_ok source charge M s : shape source = [M] -> shape charge = M :: s ->
  exists V, single_layer_potential source charge = Ok V /\ shape V = s /\
    forall p, inside s p -> entry V p = 1 / (4 * PI) * lsum M (fun k => entry charge (k :: p) * entry source [k]).
Proof.
  intros Ss Sc. unfold single_layer_potential, tcontract0. rewrite Ss, Sc, Nat.eqb_refl. cbn [bind].
  eexists. split; [reflexivity|]. cbn [tmap shape entry]. split; [apply app_nil_r|].
  intros p Hp. pose proof (inside_length _ _ Hp) as L. f_equal. unfold lsum. f_equal. apply map_ext. intros k.
  rewrite firstn_all2, skipn_all2 by lia. reflexivity.
Qed.

Lemma potential_ok method n w P pf u v f args s g D order x : sound_rule method n w ->
  (2 <= length u)%nat -> (2 <= length v)%nat -> nondecreasing u -> nondecreasing v -> parametrizes P pf u v ->
  openset 3 D -> (forall y, on_surface pf u v y -> D y) -> nprod s <> 0%nat ->
  repD 3 D s (fun y => f (y :: args)) g -> (0 <= order)%Z -> shape x = [3%nat] -> ~ on_surface pf u v (tlist x) ->
  exists Sr C V, source_tensor_ x P u v method order = Ok Sr /\ charge_tensor f P u v args order = Ok C /\
    single_layer_potential Sr C = Ok V /\ shape V = rot s /\
    forall p, inside s p -> exists Q, 
      (forall i j, (S i < length u)%nat -> (S j < length v)%nat -> quad2 method (cell u i) (cell v j)
         (fun q => taylor (Z.to_nat order) (g p) (point pf [middle u i; middle v j]) (point pf q)
                   / dist (tlist x) (point pf q) * area pf q) (Q i j)) /\
      entry V (rot p) = 1 / (4 * PI) * total (length u - 1) (fun i => total (length v - 1) (fun j => Q i j)).
Proof.
  intros SR Hu Hv Nu Nv HP HO HD Ns Hf Ho Sx Nx.
  destruct (source_ok method n w P pf u v order x) as (Sr & ES & SS & VS); auto.
  destruct (charge_tensor_ok P pf u v f args s g D order) as (C & EC & SC & VC); auto.
  set (o := Z.to_nat order) in *. fold (src_shape u v o) in SC, VC.
  destruct (contract_ok Sr C _ _ SS SC) as (V & EV & SV & VV).
  exists Sr, C, V. repeat (split; [assumption|]). intros p Hp.
  exists (fun i j => iterated [rule_of method (cell u i); rule_of method (cell v j)]
     (fun q => taylor o (g p) (point pf [middle u i; middle v j]) (point pf q) / dist (tlist x) (point pf q) * area pf q)).
  split.
  - intros i j Hi Hj. unfold quad2.
    destruct (sr_comp _ _ _ SR (cell u i) ltac:(cbn; lia)) as (Wi & Xi & Ei & _).
    destruct (sr_comp _ _ _ SR (cell v j) ltac:(cbn; lia)) as (Wj & Xj & Ej & _).
    exists (Wi, Xi), (Wj, Xj). split; auto. split; auto. unfold rule_of. rewrite Ei, Ej. reflexivity.
  - rewrite VV by (apply inside_rot; auto). f_equal. change total with lsum.
    set (F := fun i j m => coef (g p) (point pf [middle u i; middle v j]) (multi (S o) 0 m) * moment_fun method pf u v o i j m (tlist x)).
    rewrite (lsum_ext _ _ (fun k => match unravel (src_shape u v o) k with [i; j; m] => F i j m | _ => 0 end)).
    + unfold src_shape. rewrite (sum3 _ _ _ F). apply lsum_ext. intros i _. apply lsum_ext. intros j _.
      unfold F, moment_fun. set (rs := [rule_of method (cell u i); rule_of method (cell v j)]).
      rewrite (lsum_ext _ _ (fun m => iterated rs (fun q => coef (g p) (point pf [middle u i; middle v j]) (multi (S o) 0 m) *
         (mono (map2 Rminus (point pf q) (point pf [middle u i; middle v j])) (multi (S o) 0 m) / dist (tlist x) (point pf q) * area pf q))))
        by (intros m _; rewrite iterated_scal; reflexivity).
      rewrite <- (iterated_lsum rs _ (fun m q => coef (g p) (point pf [middle u i; middle v j]) (multi (S o) 0 m) *
         (mono (map2 Rminus (point pf q) (point pf [middle u i; middle v j])) (multi (S o) 0 m) / dist (tlist x) (point pf q) * area pf q))).
      apply iterated_ext. intros q _. unfold taylor. rewrite <- sum_taylor.
      unfold Rdiv. rewrite Rmult_assoc, Rmult_comm, <- lsum_scal. apply lsum_ext. intros m _. ring.
    + intros k Hk. rewrite VC, VS by auto. unfold source_fun.
      destruct (unravel_inside _ _ Hk) as (I & _). remember (unravel (src_shape u v o) k) as q eqn:Eq. clear Eq.
      destruct (inside3 _ _ _ _ I) as (i & j & m & -> & Hi & Hj & Hm). reflexivity.
Qed.

(** polynomial charges of at most the expansion order *)
Lemma potential_poly method n w P pf u v f h args hargs s g D order x : sound_rule method n w ->
  (2 <= length u)%nat -> (2 <= length v)%nat -> nondecreasing u -> nondecreasing v -> parametrizes P pf u v ->
  openset 3 D -> (forall y, on_surface pf u v y -> D y) -> nprod s <> 0%nat ->
  repD 3 D s (fun y => f (y :: args)) g -> (0 <= order)%Z -> shape x = [3%nat] -> ~ on_surface pf u v (tlist x) ->
  (forall p, inside s p -> poly (Z.to_nat order) (g p)) ->
  repD 3 (on_surface pf u v) s (fun y => h (y :: hargs)) (fun p y => g p y / dist (tlist x) y) ->
  exists Sr C V T, source_tensor_ x P u v method order = Ok Sr /\ charge_tensor f P u v args order = Ok C /\
    single_layer_potential Sr C = Ok V /\ shape V = rot s /\
    integrate_surface h P u v hargs method = Ok T /\ shape T = s /\
    forall p, inside s p -> entry V (rot p) = 1 / (4 * PI) * entry T p.
Proof.
  intros SR Hu Hv Nu Nv HP HO HD Ns Hf Ho Sx Nx Hpoly Hh.
  destruct (potential_ok method n w P pf u v f args s g D order x) as (Sr & C & V & E1 & E2 & E3 & SV & VV); auto.
  destruct (integrate_surface_ok method n w P pf u v h hargs s (fun p y => g p y / dist (tlist x) y))
    as (T & ru & rv & ET & ST & Eu & Ev & VT); auto.
  exists Sr, C, V, T. repeat (split; [assumption|]). intros p Hp.
  destruct (VV p Hp) as (Q & HQ & ->). f_equal. rewrite VT by auto. change total with lsum.
  apply (cells_sum method n w u v ru rv _ Q SR Hu Hv Eu Ev). intros i j Hi Hj.
  destruct (HQ i j Hi Hj) as (ri & rj & Ei & Ej & ->). exists ri, rj. split; auto. split; auto.
  apply iterated_ext. intros q _. rewrite (taylor_poly (Z.to_nat order)); auto.
Qed.

(** ** derivatives in the target point *)
Lemma pd_potential M (c : nat -> R) (s : nat -> list R -> R) i X : (i < 3)%nat ->
  (forall k, (k < M)%nat -> partials 3 (s k) X) ->
  pd i (fun Y => 1 / (4 * PI) * lsum M (fun k => c k * s k Y)) X = 1 / (4 * PI) * lsum M (fun k => c k * pd i (s k) X).
Proof.
  intros Hi H. destruct (pd_lsum M s c i X) as (E & D). { intros k Hk. apply H; auto. }
  unfold pd at 1. rewrite (Derive_ext _ (fun t => 1 / (4 * PI) * lsum M (fun k => s k (upd X i t) * c k))).
  2:{ intros t. f_equal. apply lsum_ext. intros k _. ring. }
  rewrite (Derive_scal (fun t => lsum M (fun k => s k (upd X i t) * c k))). f_equal.
  transitivity (lsum M (fun k => pd i (s k) X * c k)); [exact E|]. apply lsum_ext. intros k _. ring.
Qed.

Lemma curl_potential S s C M D x : openset 3 D -> repD 3 D [M] S (fun p => s (hd 0%nat p)) ->
  shape C = [M; 3%nat] -> shape x = [3%nat] -> D (tlist x) -> (forall k, (k < M)%nat -> partials 3 (s k) (tlist x)) ->
  exists V J T, repD 3 D [3%nat] (fun x => S0 <- S x ;; single_layer_potential S0 C) (fun p => V (hd 0%nat p)) /\
    jacfwd S x = Ok J /\ curl_single_layer_potential J C = Ok T /\ shape T = [3%nat] /\
    forall i, (i < 3)%nat -> entry T [i] = curl3_ V i (tlist x).
Proof.
  intros HO HS SC Sx Dx Hd.
  set (V := fun i X => 1 / (4 * PI) * lsum M (fun k => entry C [k; i] * s k X)).
  destruct (jacfwd_repD 3 D [M] S _ HO HS x Sx Dx) as (J & EJ & SJ & VJ).
  exists V, J. rewrite EJ. unfold curl_single_layer_potential, tcross_rows. rewrite SC, SJ. cbn [app].
  rewrite !Nat.eqb_refl. cbn [andb bind].
  eexists. split; [|split; [reflexivity|split; [reflexivity|split; [reflexivity|]]]].
  - intros t St Dt. destruct (HS t St Dt) as (y & -> & Sy & Vy). cbn [bind].
    destruct (contract_ok y C M [3%nat] Sy SC) as (W & EW & SW & VW). exists W. split; auto. split; auto.
    intros p Hp. rewrite VW by auto. inversion Hp as [|i ? l ? Hi Hl]; subst. inversion Hl; subst. cbn [hd].
    unfold V. f_equal. apply lsum_ext. intros k Hk. rewrite Vy by (apply inside1; auto). reflexivity.
  - assert (EV : forall i j, (j < 3)%nat -> pd j (V i) (tlist x) = 1 / (4 * PI) * lsum M (fun k => entry C [k; i] * pd j (s k) (tlist x))).
    { intros i j Hj. apply (pd_potential M (fun k => entry C [k; i]) s j (tlist x)); auto. }
    assert (EJk : forall k j, (k < M)%nat -> (j < 3)%nat -> entry J [k; j] = pd j (s k) (tlist x)).
    { intros k j Hk Hj. rewrite VJ by (apply inside2; auto). reflexivity. }
    intros i Hi. cbn [entry tmap shape tl hd]. fold (lsum M (fun k => - cross_at (fun l => entry C [k; l]) (fun l => entry J [k; l]) i)).
    assert (G : forall a b c d, (b < 3)%nat -> (d < 3)%nat ->
      lsum M (fun k => - (entry C [k; a] * entry J [k; b] - entry C [k; c] * entry J [k; d])) =
      lsum M (fun k => entry C [k; c] * pd d (s k) (tlist x)) - lsum M (fun k => entry C [k; a] * pd b (s k) (tlist x))).
    { intros a b c d Hb Hd'. replace (lsum M (fun k => entry C [k; c] * pd d (s k) (tlist x)) - lsum M (fun k => entry C [k; a] * pd b (s k) (tlist x)))
        with (lsum M (fun k => entry C [k; c] * pd d (s k) (tlist x)) + (-1) * lsum M (fun k => entry C [k; a] * pd b (s k) (tlist x))) by ring.
      rewrite <- lsum_scal, <- lsum_add. apply lsum_ext. intros k Hk. rewrite !EJk by auto. ring. }
    destruct i as [|[|[|i]]]; try lia; cbn [curl3_ cross_at]; rewrite !EV by lia; rewrite G by lia; ring.
Qed.

Lemma gradient_potential S s C M D x : openset 3 D -> repD 3 D [M] S (fun p => s (hd 0%nat p)) ->
  shape C = [M] -> shape x = [3%nat] -> D (tlist x) -> (forall k, (k < M)%nat -> partials 3 (s k) (tlist x)) ->
  exists V J T, repD 3 D [] (fun x => S0 <- S x ;; single_layer_potential S0 C) (fun _ => V) /\
    jacfwd S x = Ok J /\ single_layer_potential J C = Ok T /\ shape T = [3%nat] /\
    forall i, (i < 3)%nat -> entry T [i] = pd i V (tlist x).
Proof.
  intros HO HS SC Sx Dx Hd.
  set (V := fun X => 1 / (4 * PI) * lsum M (fun k => entry C [k] * s k X)).
  destruct (jacfwd_repD 3 D [M] S _ HO HS x Sx Dx) as (J & EJ & SJ & VJ).
  exists V, J. rewrite EJ. unfold single_layer_potential at 2, tcontract0. rewrite SC, SJ. cbn [app].
  rewrite !Nat.eqb_refl. cbn [andb bind].
  eexists. split; [|split; [reflexivity|split; [reflexivity|split; [reflexivity|]]]].
  - intros t St Dt. destruct (HS t St Dt) as (y & -> & Sy & Vy). cbn [bind].
    destruct (contract_ok y C M [] Sy SC) as (W & EW & SW & VW). exists W. split; auto. split; auto.
    intros p Hp. rewrite VW by auto. inversion Hp; subst.
    unfold V. f_equal. apply lsum_ext. intros k Hk. rewrite Vy by (apply inside1; auto). reflexivity.
  - intros i Hi. unfold V. rewrite (pd_potential M (fun k => entry C [k]) s i (tlist x)) by auto.
    cbn [tmap entry shape]. f_equal. unfold lsum. f_equal. apply map_ext_in. intros k Hk. apply in_seq in Hk.
    cbn [length firstn skipn]. rewrite VJ by (apply inside2; lia). reflexivity.
Qed.
