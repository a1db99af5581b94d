(** Proofs about surface_integral.py, part 5: derivatives of the source tensor in
    the target point; the charges of the scalar and the vector potential. *)
From Coquelicot Require Import Coquelicot.
From Verif Require Import Base BaseFacts P_Vec M_Tensor M_Calc S_Calc P_AD P_Calc P_Calc2 S_Model P_Model.
From Verif Require Import M_Integrate S_Integrate P_Integrate1 P_Integrate2 P_Integrate3 T_Integrate.
From Verif Require Import M_Surface S_Surface P_Surface1 P_Surface2 P_Surface3 P_Surface4.

Lemma ex_derive_sum_map2 (F : R -> R -> R -> R) t0 : forall ws xs,
  (forall w x, In x xs -> ex_derive (fun t => F t w x) t0) -> ex_derive (fun t => sumR (map2 (F t) ws xs)) t0.
Proof.
  induction ws as [|w ws IH]; intros xs H.
  - apply (ex_derive_ext (fun _ => 0)); [reflexivity|]. apply ex_derive_const.
  - destruct xs as [|x xs].
    + apply (ex_derive_ext (fun _ => 0)); [reflexivity|]. apply ex_derive_const.
    + apply (ex_derive_ext (fun t => F t w x + sumR (map2 (F t) ws xs))); [reflexivity|].
      apply (ex_derive_plus (fun t => F t w x) (fun t => sumR (map2 (F t) ws xs))).
      * apply H. left. reflexivity.
      * apply IH. intros w' x' Hx. apply H. right. auto.
Qed.

Lemma ex_derive_iterated2 (F : R -> list R -> R) t0 ru rv :
  (forall a b, In a (snd ru) -> In b (snd rv) -> ex_derive (fun t => F t [a; b]) t0) ->
  ex_derive (fun t => iterated [ru; rv] (F t)) t0.
Proof.
  intros H. destruct ru as [wu xu], rv as [wv xv]. cbn [iterated snd] in *.
  apply (ex_derive_sum_map2 (fun t wi a => wi * sumR (map2 (fun wj b => wj * F t [a; b]) wv xv))). intros w a Ha.
  apply (ex_derive_scal (fun t => sumR (map2 (fun wj b => wj * F t [a; b]) wv xv))).
  apply (ex_derive_sum_map2 (fun t wj b => wj * F t [a; b])). intros w' b Hb.
  apply (ex_derive_scal (fun t => F t [a; b])). auto.
Qed.

Lemma ex_derive_dist X y i : length X = 3%nat -> length y = 3%nat -> (i < 3)%nat -> dist X y <> 0 ->
  ex_derive (fun t => dist (upd X i t) y) (nth i X 0).
Proof.
  intros HX Hy Hi Hn.
  destruct X as [|a [|b [|c [|? ?]]]]; try discriminate HX. destruct y as [|a' [|b' [|c' [|? ?]]]]; try discriminate Hy.
  assert (P : 0 < (a - a') * (a - a') + ((b - b') * (b - b') + ((c - c') * (c - c') + 0))).
  { pose proof (Rle_0_sqr (a - a')) as H1. pose proof (Rle_0_sqr (b - b')) as H2. pose proof (Rle_0_sqr (c - c')) as H3.
    unfold Rsqr in *. destruct (Rle_lt_or_eq_dec 0 ((a - a') * (a - a') + ((b - b') * (b - b') + ((c - c') * (c - c') + 0)))) as [H|H]; [lra|auto|].
    exfalso. apply Hn. unfold dist, normR, sumR. cbn [map2 map fold_right].
    rewrite <- H. apply sqrt_0. }
  destruct i as [|[|[|i]]]; try lia; unfold dist, normR, sumR; cbn [upd map2 map fold_right nth]; auto_derive; nra.
Qed.

Lemma moment_partials method n w P pf u v o i j m X : sound_rule method n w -> nondecreasing u -> nondecreasing v ->
  parametrizes P pf u v -> (S i < length u)%nat -> (S j < length v)%nat -> length X = 3%nat -> ~ on_surface pf u v X ->
  partials 3 (moment_fun method pf u v o i j m) X.
Proof.
  intros SR Nu Nv HP Hi Hj LX NX k Hk. unfold moment_fun, rule_of.
  destruct (sr_comp _ _ _ SR (cell u i) ltac:(cbn; lia)) as (Wi & Xi & Ei & _).
  destruct (sr_comp _ _ _ SR (cell v j) ltac:(cbn; lia)) as (Wj & Xj & Ej & _). rewrite Ei, Ej.
  apply (ex_derive_iterated2 (fun t q => mono (map2 Rminus (point pf q) (point pf [middle u i; middle v j])) (multi (S o) 0 m)
              / dist (upd X k t) (point pf q) * area pf q)).
  intros a b Ha Hb. cbn [snd] in Ha, Hb.
  pose proof (sr_between _ _ _ SR (cell u i) Wi Xi ltac:(cbn; lia) (cell_nondecreasing u i Nu Hi) Ei) as B1.
  pose proof (sr_between _ _ _ SR (cell v j) Wj Xj ltac:(cbn; lia) (cell_nondecreasing v j Nv Hj) Ej) as B2.
  unfold all_between in B1, B2. rewrite Forall_forall in B1, B2.
  assert (Rq : rect u v [a; b]). { apply (rect_cell u v i j); auto. exists a, b. split; auto. }
  assert (Hd : dist X (point pf [a; b]) <> 0).
  { intros E. apply dist_0 in E; auto. apply NX. exists [a; b]. auto. }
  apply (ex_derive_mult (fun t => mono (map2 Rminus (point pf [a; b]) (point pf [middle u i; middle v j])) (multi (S o) 0 m)
              / dist (upd X k t) (point pf [a; b])) (fun _ => area pf [a; b])); [|apply ex_derive_const].
  apply (ex_derive_mult (fun _ => mono (map2 Rminus (point pf [a; b]) (point pf [middle u i; middle v j])) (multi (S o) 0 m))
              (fun t => / dist (upd X k t) (point pf [a; b]))); [apply ex_derive_const|].
  apply (ex_derive_inv (fun t => dist (upd X k t) (point pf [a; b]))).
  - apply ex_derive_dist; auto.
  - rewrite upd_self by lia. auto.
Qed.

Lemma source_partials method n w P pf u v o k X : sound_rule method n w -> nondecreasing u -> nondecreasing v ->
  parametrizes P pf u v -> (k < nprod (src_shape u v o))%nat -> length X = 3%nat -> ~ on_surface pf u v X ->
  partials 3 (source_fun method pf u v o k) X.
Proof.
  intros SR Nu Nv HP Hk LX NX. unfold partials, source_fun.
  destruct (unravel_inside _ _ Hk) as (I & _). remember (unravel (src_shape u v o) k) as q eqn:Eq. clear Eq.
  destruct (inside3 _ _ _ _ I) as (i & j & m & -> & Hi & Hj & Hm).
  eapply moment_partials; eauto; lia.
Qed.

Lemma source_repD method n w P pf u v order (D : list R -> Prop) : sound_rule method n w ->
  (2 <= length u)%nat -> (2 <= length v)%nat -> nondecreasing u -> nondecreasing v -> parametrizes P pf u v ->
  (0 <= order)%Z -> (forall y, D y -> ~ on_surface pf u v y) ->
  repD 3 D [nprod (src_shape u v (Z.to_nat order))] (fun x => source_tensor_ x P u v method order)
    (fun p => source_fun method pf u v (Z.to_nat order) (hd 0%nat p)).
Proof.
  intros SR Hu Hv Nu Nv HP Ho HD t St Dt.
  destruct (source_ok method n w P pf u v order t) as (Sr & E & SS & VS); auto. exists Sr. split; auto. split; auto.
  intros p Hp. inversion Hp as [|k ? l ? Hk Hl]; subst. inversion Hl; subst. apply VS. auto.
Qed.

(** [source_tensor] without derivative is [source_tensor_], with derivative it also
    returns the Jacobian *)
Lemma source_tensor_false x P u v method order S : source_tensor_ x P u v method order = Ok S ->
  source_tensor x P u v method order false = Ok (SVal S).
Proof. intros H. unfold source_tensor. rewrite H. reflexivity. Qed.
Lemma source_tensor_true x P u v method order Sr J : source_tensor_ x P u v method order = Ok Sr ->
  jacfwd (fun x => source_tensor_ x P u v method order) x = Ok J ->
  source_tensor x P u v method order true = Ok (SValJac Sr J).
Proof.
  intros H HJ. unfold source_tensor, value_and_jacfwd.
  cbn [pyget Z.ltb Z.compare nth_error List.length Z.to_nat pyset upd bind]. rewrite H. cbn [bind].
  match goal with |- context [jacfwd ?g x] => change g with (fun x => source_tensor_ x P u v method order) end.
  rewrite HJ. reflexivity.
Qed.

(** the potential as a function of the target point *)
Definition potential_at (P : tensor -> res tensor) u v method order (C : tensor) (x : tensor) : res tensor :=
  r <- source_tensor x P u v method order false ;;
  match r with SVal s => single_layer_potential s C | SValJac s _ => single_layer_potential s C end.
Lemma potential_at_eq P u v method order C x :
  potential_at P u v method order C x = (s <- source_tensor_ x P u v method order ;; single_layer_potential s C).
Proof. unfold potential_at, source_tensor. destruct (source_tensor_ x P u v method order); reflexivity. Qed.
Lemma repD_eq n D s F G f : (forall x, F x = G x) -> repD n D s F f -> repD n D s G f.
Proof. intros E H t Ht Dt. rewrite <- E. apply H; auto. Qed.

Lemma curl_layer method n w P pf u v order (D : list R -> Prop) x C : sound_rule method n w ->
  (2 <= length u)%nat -> (2 <= length v)%nat -> nondecreasing u -> nondecreasing v -> parametrizes P pf u v ->
  (0 <= order)%Z -> openset 3 D -> (forall y, D y -> ~ on_surface pf u v y) -> shape x = [3%nat] -> D (tlist x) ->
  shape C = [nprod (src_shape u v (Z.to_nat order)); 3%nat] ->
  exists V Sr J T, repD 3 D [3%nat] (potential_at P u v method order C) (fun p => V (hd 0%nat p)) /\
    source_tensor x P u v method order true = Ok (SValJac Sr J) /\ curl_single_layer_potential J C = Ok T /\
    shape T = [3%nat] /\ forall i, (i < 3)%nat -> entry T [i] = curl3_ V i (tlist x).
Proof.
  intros SR Hu Hv Nu Nv HP Ho HO HD Sx Dx SC.
  pose proof (source_repD method n w P pf u v order D SR Hu Hv Nu Nv HP Ho HD) as HS.
  destruct (curl_potential _ _ C _ D x HO HS SC Sx Dx) as (V & J & T & RV & EJ & ET & ST & VT).
  { intros k Hk. eapply source_partials; eauto. apply (HO _ Dx). }
  destruct (HS x Sx Dx) as (Sr & ES & _). exists V, Sr, J, T. split.
  - eapply repD_eq; [|exact RV]. intros t. symmetry. apply potential_at_eq.
  - split; [apply source_tensor_true; auto|]. auto.
Qed.
Lemma gradient_layer method n w P pf u v order (D : list R -> Prop) x C : sound_rule method n w ->
  (2 <= length u)%nat -> (2 <= length v)%nat -> nondecreasing u -> nondecreasing v -> parametrizes P pf u v ->
  (0 <= order)%Z -> openset 3 D -> (forall y, D y -> ~ on_surface pf u v y) -> shape x = [3%nat] -> D (tlist x) ->
  shape C = [nprod (src_shape u v (Z.to_nat order))] ->
  exists V Sr J T, repD 3 D [] (potential_at P u v method order C) (fun _ => V) /\
    source_tensor x P u v method order true = Ok (SValJac Sr J) /\ single_layer_potential J C = Ok T /\
    shape T = [3%nat] /\ forall i, (i < 3)%nat -> entry T [i] = pd i V (tlist x).
Proof.
  intros SR Hu Hv Nu Nv HP Ho HO HD Sx Dx SC.
  pose proof (source_repD method n w P pf u v order D SR Hu Hv Nu Nv HP Ho HD) as HS.
  destruct (gradient_potential _ _ C _ D x HO HS SC Sx Dx) as (V & J & T & RV & EJ & ET & ST & VT).
  { intros k Hk. eapply source_partials; eauto. apply (HO _ Dx). }
  destruct (HS x Sx Dx) as (Sr & ES & _). exists V, Sr, J, T. split.
  - eapply repD_eq; [|exact RV]. intros t. symmetry. apply potential_at_eq.
  - split; [apply source_tensor_true; auto|]. auto.
Qed.

(** ** charges *)
Lemma unit_normal_ok n D adf w x : openset n D -> repD n D [] adf (fun _ => w) -> shape x = [n] -> D (tlist x) ->
  if Req_EM_T (normR (grad n w (tlist x))) 0 then unit_normal adf x = Err NonFinite
  else exists N, unit_normal adf x = Ok N /\ shape N = [n] /\
         forall k, (k < n)%nat -> entry N [k] = outward n w (tlist x) k.
Proof.
  intros HO HA Sx Dx. unfold unit_normal.
  destruct (jacfwd_repD n D [] adf _ HO HA x Sx Dx) as (J & -> & SJ & VJ). cbn [bind app] in *.
  assert (EN : tnorm (tmap Ropp J) = normR (grad n w (tlist x))).
  { rewrite (tnorm_tlist _ n) by exact SJ. unfold normR. f_equal.
    unfold tlist, grad. cbn [tmap shape entry]. rewrite SJ. cbn [hd]. rewrite !map_map. unfold sumR. f_equal.
    apply map_ext_in. intros k Hk. apply in_seq in Hk. rewrite VJ by (apply inside1; lia). cbn [last removelast]. change (map (fun i : nat => entry x [i]) (seq 0 (hd 0%nat (shape x)))) with (tlist x). ring. }
  rewrite EN. destruct (Req_EM_T (normR (grad n w (tlist x))) 0) as [E|E]; [reflexivity|].
  eexists. split; [reflexivity|]. cbn [tmap shape entry]. split; [exact SJ|].
  intros k Hk. rewrite VJ by (apply inside1; auto). reflexivity.
Qed.

Lemma tmatvec_vec m N n : shape m = [n] -> shape N = [n] ->
  exists y, tmatvec m N = Ok y /\ shape y = [] /\ entry y [] = lsum n (fun k => entry m [k] * entry N [k]).
Proof.
  intros Hm HN. unfold tmatvec. rewrite Hm, HN. cbn [rev app]. rewrite Nat.eqb_refl. eexists. split; [reflexivity|].
  split; reflexivity.
Qed.
Lemma tmatvec_mat A N m n : shape A = [m; n] -> shape N = [n] ->
  exists y, tmatvec A N = Ok y /\ shape y = [m] /\
    forall i, entry y [i] = lsum n (fun k => entry A [i; k] * entry N [k]).
Proof.
  intros Hm HN. unfold tmatvec. rewrite Hm, HN. cbn [rev app]. rewrite Nat.eqb_refl. eexists. split; [reflexivity|].
  split; reflexivity.
Qed.

Section Charges.
Variables (n : nat) (D : list R -> Prop) (adf : tensor -> res tensor) (w : list R -> R) (x : tensor).
Hypotheses (HO : openset n D) (HA : repD n D [] adf (fun _ => w)) (Sx : shape x = [n]) (Dx : D (tlist x)).
Let X := tlist x.

Lemma scalar_charge_zero mag phi b pm pp : normR (grad n w X) = 0 ->
  scalar_potential_charge adf mag phi b x pm pp = Err NonFinite.
Proof.
  intros H. pose proof (unit_normal_ok n D adf w x HO HA Sx Dx) as U. fold X in U. unfold scalar_potential_charge.
  destruct (Req_EM_T (normR (grad n w X)) 0) as [E|E]; [|tauto]. rewrite U. reflexivity.
Qed.
Lemma vector_charge_zero mag phi b pm pp : normR (grad n w X) = 0 ->
  vector_potential_charge adf mag phi b x pm pp = Err NonFinite.
Proof.
  intros H. pose proof (unit_normal_ok n D adf w x HO HA Sx Dx) as U. fold X in U. unfold vector_potential_charge.
  destruct (Req_EM_T (normR (grad n w X)) 0) as [E|E]; [|tauto]. rewrite U. reflexivity.
Qed.

Lemma scalar_charge_ok mag m phi1 phi b pm pp : normR (grad n w X) <> 0 -> mag (x :: pm) = Ok m -> shape m = [n] ->
  repD n D [] (fun x => phi1 (x :: pp)) (fun _ => phi) ->
  exists y, scalar_potential_charge adf mag phi1 b x pm pp = Ok y /\ shape y = [] /\
    entry y [] = lsum n (fun k => entry m [k] * outward n w X k) +
      (if b then phi X else - lsum n (fun k => pd k phi X * outward n w X k)).
Proof.
  intros H Em Sm Hphi. pose proof (unit_normal_ok n D adf w x HO HA Sx Dx) as U. fold X in U.
  destruct (Req_EM_T (normR (grad n w X)) 0) as [E|E]; [tauto|]. destruct U as (N & EN & SN & VN).
  unfold scalar_potential_charge. rewrite EN. cbn [bind]. rewrite Em. cbn [bind].
  destruct (tmatvec_vec m N n Sm SN) as (a & -> & Sa & Va). cbn [bind].
  assert (Va' : entry a [] = lsum n (fun k => entry m [k] * outward n w X k)).
  { rewrite Va. apply lsum_ext. intros k Hk. rewrite VN by auto. reflexivity. }
  destruct b.
  - destruct (Hphi x Sx Dx) as (p & -> & Sp & Vp). cbn [bind].
    destruct (tbop_same Rplus a p [] Sa Sp) as (y & Ey & Sy & Vy). exists y. split; auto. split; auto.
    rewrite Vy, Va', Vp by constructor. reflexivity.
  - destruct (jacfwd_repD n D [] _ _ HO Hphi x Sx Dx) as (J & -> & SJ & VJ). cbn [bind app] in *.
    destruct (tmatvec_vec J N n SJ SN) as (p & -> & Sp & Vp). cbn [bind].
    destruct (tbop_same Rminus a p [] Sa Sp) as (y & Ey & Sy & Vy). exists y. split; auto. split; auto.
    rewrite Vy, Va', Vp by constructor. unfold Rminus. do 2 f_equal. apply lsum_ext. intros k Hk.
    rewrite VJ by (apply inside1; auto). rewrite VN by auto. reflexivity.
Qed.

Lemma vector_charge_ok mag m A1 A b pm pp : n = 3%nat -> normR (grad n w X) <> 0 -> mag (x :: pm) = Ok m -> shape m = [3%nat] ->
  repD n D [3%nat] (fun x => A1 (x :: pp)) (fun p => A (hd 0%nat p)) ->
  exists y, vector_potential_charge adf mag A1 b x pm pp = Ok y /\ shape y = [3%nat] /\
    forall i, (i < 3)%nat -> entry y [i] = vprod (fun k => entry m [k]) (outward n w X) i +
      (if b then A i X else - lsum n (fun k => pd k (A i) X * outward n w X k)).
Proof.
  intros E3 H Em Sm HAA. pose proof (unit_normal_ok n D adf w x HO HA Sx Dx) as U. fold X in U.
  destruct (Req_EM_T (normR (grad n w X)) 0) as [E|E]; [tauto|]. destruct U as (N & EN & SN & VN).
  unfold vector_potential_charge. rewrite EN. cbn [bind]. rewrite Em. cbn [bind].
  assert (SN3 : shape N = [3%nat]) by congruence. unfold tcross. rewrite Sm, SN3. cbn [list_eqb Nat.eqb andb bind].
  match goal with |- context [tbop Rplus ?c _] => remember c as a eqn:Ea end.
  assert (Sa : shape a = [3%nat]) by (subst a; reflexivity).
  assert (Va : forall i, (i < 3)%nat -> entry a [i] = vprod (fun k => entry m [k]) (outward n w X) i).
  { intros i Hi. subst a. cbn [entry hd]. destruct i as [|[|[|i]]]; try lia; cbn [cross_at]; unfold vprod; cbn [Nat.add Nat.modulo Nat.divmod fst snd Nat.sub];
      rewrite !VN by lia; reflexivity. }
  destruct b.
  - destruct (HAA x Sx Dx) as (p & -> & Sp & Vp). cbn [bind].
    destruct (tbop_same Rplus a p [3%nat] Sa Sp) as (y & Ey & Sy & Vy). exists y. split; auto. split; auto.
    intros i Hi. rewrite Vy, Va, Vp by (auto; apply inside1; auto). reflexivity.
  - destruct (jacfwd_repD n D [3%nat] _ _ HO HAA x Sx Dx) as (J & -> & SJ & VJ). cbn [bind app] in *.
    destruct (tmatvec_mat J N 3 n SJ SN) as (p & -> & Sp & Vp). cbn [bind].
    destruct (tbop_same Rminus a p [3%nat] Sa Sp) as (y & Ey & Sy & Vy). exists y. split; auto. split; auto.
    intros i Hi. rewrite Vy, Va, Vp by (auto; apply inside1; auto). unfold Rminus. do 2 f_equal. apply lsum_ext. intros k Hk.
    rewrite VJ by (apply inside2; auto). rewrite VN by auto. reflexivity.
Qed.
End Charges.

(** the product with the adf has gradient [phi * grad w] where [w] vanishes *)
Lemma pd_product_zero k (w phi : list R -> R) X : w X = 0 -> (k < length X)%nat ->
  ex_derive (fun t => w (upd X k t)) (nth k X 0) -> ex_derive (fun t => phi (upd X k t)) (nth k X 0) ->
  pd k (fun Y => w Y * phi Y) X = phi X * pd k w X.
Proof.
  intros Hw Hk D1 D2. unfold pd.
  rewrite (Derive_mult (fun t => w (upd X k t)) (fun t => phi (upd X k t))) by auto.
  rewrite upd_self by auto. rewrite Hw. ring.
Qed.
Lemma normR_sq l : normR l * normR l = sumR (map (fun x => x * x) l).
Proof.
  unfold normR. rewrite sqrt_sqrt; [reflexivity|]. induction l as [|a l IH]; [cbn; lra|].
  cbn [map]. change (sumR (?p :: ?q)) with (p + sumR q). pose proof (Rle_0_sqr a). unfold Rsqr in *. lra.
Qed.
Lemma sum_grad_outward n w X : normR (grad n w X) <> 0 ->
  lsum n (fun k => pd k w X * outward n w X k) = - normR (grad n w X).
Proof.
  intros H. unfold outward.
  rewrite (lsum_ext n _ (fun k => (- / normR (grad n w X)) * (pd k w X * pd k w X))) by (intros; field; auto).
  rewrite lsum_scal. replace (lsum n (fun k => pd k w X * pd k w X)) with (normR (grad n w X) * normR (grad n w X)).
  - field. auto.
  - rewrite normR_sq. unfold grad. rewrite map_map. reflexivity.
Qed.
Lemma sum_product_outward n w phi X : w X = 0 -> length X = n -> partials n w X -> partials n phi X ->
  normR (grad n w X) <> 0 ->
  - lsum n (fun k => pd k (fun Y => w Y * phi Y) X * outward n w X k) = phi X * normR (grad n w X).
Proof.
  intros Hw L D1 D2 H.
  rewrite (lsum_ext n _ (fun k => phi X * (pd k w X * outward n w X k))).
  - rewrite lsum_scal, sum_grad_outward by auto. ring.
  - intros k Hk. rewrite pd_product_zero by (auto; lia). ring.
Qed.
Lemma normR_scal c l : 0 <= c -> normR (map (fun z => c * z) l) = c * normR l.
Proof.
  intros Hc. unfold normR. transitivity (sqrt (c * c) * sqrt (sumR (map (fun x => x * x) l))); [|rewrite sqrt_square by auto; reflexivity].
  rewrite <- sqrt_mult_alt by nra. f_equal.
  rewrite map_map. induction l as [|a l IH]; [cbn; ring|]. cbn [map]. change (sumR (?p :: ?q)) with (p + sumR q). rewrite IH. ring.
Qed.
Lemma pd_scale k c w X : pd k (fun Y => c * w Y) X = c * pd k w X.
Proof. unfold pd. apply (Derive_scal (fun t => w (upd X k t))). Qed.
Lemma grad_scale n c w X : grad n (fun Y => c * w Y) X = map (fun z => c * z) (grad n w X).
Proof. unfold grad. rewrite map_map. apply map_ext. intros k. apply pd_scale. Qed.
Lemma outward_scale n c w X k : 0 < c -> normR (grad n w X) <> 0 -> outward n (fun Y => c * w Y) X k = outward n w X k.
Proof. intros Hc H. unfold outward. rewrite pd_scale, grad_scale, normR_scal by lra. field. split; auto. lra. Qed.

(** ** parametrizations of another shape *)
Lemma tintegrate_err method n w f u v e : sound_rule method n w -> (2 <= length u)%nat -> (2 <= length v)%nat ->
  nondecreasing u -> nondecreasing v -> (forall q, rect u v q -> f (tvec q) = Err e) -> tintegrate f u v method = Err e.
Proof.
  intros SR Hu Hv Nu Nv Hf. unfold tintegrate.
  destruct (sound_rules_of _ _ _ [u; v] SR ltac:(repeat constructor; auto)) as (rs & HR).
  inversion HR as [|? ru ? rs' (E1 & L1 & N1) HR']; subst. inversion HR' as [|? rv ? rs'' (E2 & L2 & N2) HR'']; subst.
  inversion HR''; subst. rewrite E1. cbn [bind]. rewrite E2. cbn [bind].
  assert (Bu : all_between (first u) (final u) (snd ru)).
  { eapply (sr_between _ _ _ SR); eauto. rewrite E1, <- surjective_pairing; reflexivity. }
  assert (Bv : all_between (first v) (final v) (snd rv)).
  { eapply (sr_between _ _ _ SR); eauto. rewrite E2, <- surjective_pairing; reflexivity. }
  assert (Bal : balanced [ru; rv]) by (repeat constructor; auto).
  pose proof (meshgrid_length _ Bal) as LM. cbn [map] in LM.
  destruct (meshgrid [snd ru; snd rv]) as [|q X] eqn:EX.
  - exfalso. apply (mesh_nonempty _ _ _ HR). apply length_zero_iff_nil. rewrite map_length. cbn [map].
    rewrite LM. reflexivity.
  - unfold vmapT. cbn [map sequence]. rewrite Hf; [reflexivity|].
    destruct (meshgrid2_in (snd ru) (snd rv) q) as (a & b & -> & Ha & Hb); [rewrite EX; left; reflexivity|].
    exists a, b. split; auto. unfold all_between in Bu, Bv. rewrite Forall_forall in Bu, Bv. auto.
Qed.
Lemma list_eqb_false a b : a <> b -> list_eqb a b = false.
Proof. intros H. destruct (list_eqb a b) eqn:E; auto. apply list_eqb_eq in E. tauto. Qed.
Lemma wrong_parametrization method n w f P u v args (D : list R -> Prop) s pf : sound_rule method n w ->
  (2 <= length u)%nat -> (2 <= length v)%nat -> nondecreasing u -> nondecreasing v ->
  openset 2 D -> (forall q, rect u v q -> D q) -> repD 2 D s P pf -> s <> [3%nat] ->
  integrate_surface f P u v args method = Err AssertionError.
Proof.
  intros SR Hu Hv Nu Nv HO HD HP Hs. eapply tintegrate_err; eauto. intros q Hq. unfold surface_integrand.
  destruct (jacfwd_repD 2 D s P pf HO HP (tvec q)) as (J & -> & SJ & _).
  - destruct Hq as (a & b & -> & _). reflexivity.
  - rewrite tlist_tvec. auto.
  - cbn [bind]. rewrite SJ, list_eqb_false; [reflexivity|]. intros E. apply Hs.
    change [3; 2]%nat with ([3] ++ [2])%nat in E. apply app_inj_tail in E. apply E.
Qed.
