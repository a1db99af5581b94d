(** Proofs for the stray field fit, part 3: a fit with one point and one hidden unit. *)
From Coquelicot Require Import Coquelicot.
From Verif Require Import Base BaseFacts P_Vec S_RFun M_Quat M_RFun M_Domain M_Tensor M_Calc M_Integrate M_Surface M_Mumag M_Stray.
From Verif Require Import S_Calc P_AD P_Calc P_Calc2 S_Integrate P_Integrate1 P_Integrate2 P_Integrate3 S_Model P_Model S_Surface S_Mumag S_Stray.
From Verif Require Import P_Surface1 P_Surface2 P_Surface3 P_Surface4 P_Surface5 P_Mumag1 P_Mumag2 P_Mumag3 P_Mumag4 P_Mumag5 P_Mumag6 P_Stray1 P_Stray2.

Lemma D2_mult_value F G t : D2 F t -> D2 G t ->
  Derive (Derive (fun s => F s * G s)) t = Derive (Derive F) t * G t + 2 * (Derive F t * Derive G t) + F t * Derive (Derive G) t.
Proof.
  intros (A & B) (A' & B').
  pose proof (locally_singleton _ _ A) as EF. pose proof (locally_singleton _ _ A') as EG.
  assert (E : locally t (fun s => Derive (fun s => F s * G s) s = Derive F s * G s + F s * Derive G s)).
  { assert (L : locally t (fun s => ex_derive F s /\ ex_derive G s)) by (apply filter_and; auto).
    revert L. apply filter_imp. intros s (H & H'). apply Derive_mult; auto. }
  rewrite (Derive_ext_loc _ _ t E).
  rewrite (Derive_plus (fun s => Derive F s * G s) (fun s => F s * Derive G s)).
  - rewrite (Derive_mult (Derive F) G), (Derive_mult F (Derive G)) by auto. ring.
  - apply (ex_derive_mult (Derive F) G); auto.
  - apply (ex_derive_mult F (Derive G)); auto.
Qed.
Lemma is_derive_tanh t : is_derive tanh t (1 - tanh t * tanh t).
Proof.
  pose proof (cosh_pos t).
  replace (1 - tanh t * tanh t) with ((cosh t * cosh t - sinh t * sinh t) / cosh t ^ 2) by (unfold tanh; field; lra).
  apply (is_derive_div sinh cosh t (cosh t) (sinh t)); [apply is_derive_sinh|apply is_derive_cosh|lra].
Qed.
Lemma tanh_lt1 : 0 < tanh 1 < 1.
Proof.
  pose proof (cosh_pos 1). unfold tanh. assert (0 < sinh 1 < cosh 1).
  { unfold sinh, cosh in *. pose proof (exp_pos (- (1))). assert (exp (- (1)) < exp 1) by (apply exp_increasing; lra). lra. }
  split; [apply Rdiv_lt_0_compat; lra|]. apply Rlt_div_l; lra.
Qed.
Section One.
Variable w : R.
Let F t := tanh (2 * w * t - w + 1).
Lemma F1 t : is_derive F t (2 * w * (1 - tanh (2 * w * t - w + 1) * tanh (2 * w * t - w + 1))).
Proof.
  unfold F. apply (is_derive_comp tanh (fun t => 2 * w * t - w + 1)); [apply is_derive_tanh|]. auto_derive; auto. ring.
Qed.
Lemma F2 t : is_derive (Derive F) t
  (2 * w * (- 2 * tanh (2 * w * t - w + 1) * (2 * w * (1 - tanh (2 * w * t - w + 1) * tanh (2 * w * t - w + 1))))).
Proof.
  apply (is_derive_ext (fun t => 2 * w * (1 - F t * F t))).
  { intros s. symmetry. apply is_derive_unique, F1. }
  apply (is_derive_scal (fun t => 1 - F t * F t)). 
  replace (-2 * _ * _) with (0 - (2 * w * (1 - tanh (2 * w * t - w + 1) * tanh (2 * w * t - w + 1)) * F t + F t * (2 * w * (1 - tanh (2 * w * t - w + 1) * tanh (2 * w * t - w + 1)))))
    by (unfold F; ring).
  apply (is_derive_minus (fun _ => 1) (fun t => F t * F t)); [apply @is_derive_const|].
  apply (is_derive_mult F F); [apply F1|apply F1|]. intros; apply Rmult_comm.
Qed.
Lemma F_D2 t : D2 F t.
Proof.
  split; [apply filter_forall; intros s; eexists; apply F1|eexists; apply F2].
Qed.
End One.

Definition cube_mid : tensor := tvec [1 / 2; 1 / 2; 1 / 2].
Definition oneW (w : R) : tensor := mkT [1; 3]%nat (fun p => match p with [_; O] => w | _ => 0 end).
Definition oneb : tensor := tvec [1].
Lemma mid_inside : inside_box [0; 1] [0; 1] [0; 1] (tlist cube_mid).
Proof.
  unfold cube_mid. rewrite tlist_tvec. split; [reflexivity|]. intros i Hi. destruct i as [|[|[|i]]]; try lia; cbn; lra.
Qed.
Definition cube_adf := box_adf [0; 0; 0] [1; 1; 1].
Definition mid : list R := [1 / 2; 1 / 2; 1 / 2].
Lemma one_feature w (X : list R) : feature [0; 1] [0; 1] [0; 1] (oneW w) oneb 0 X = tanh (2 * w * nth 0 X 0 - w + 1) * cube_adf X.
Proof.
  unfold feature, unit_value. f_equal. f_equal. unfold total, scaled, oneW, oneb, first, final. cbn. field.
Qed.
Lemma one_lap w : lap_ 3 (feature [0; 1] [0; 1] [0; 1] (oneW w) oneb 0) mid =
  - 8 * w ^ 2 * (tanh 1 * (1 - tanh 1 * tanh 1)) * cube_adf mid + 4 * w * (1 - tanh 1 * tanh 1) * pd 0 cube_adf mid + tanh 1 * lap_ 3 cube_adf mid.
Proof.
  assert (G : forall l, (l < 3)%nat -> D2 (fun t => cube_adf (upd mid l t)) (nth l mid 0)).
  { intros l Hl. apply D2_box; [cbn; lia|]. intros i Hi. destruct i as [|[|[|i]]]; try lia; cbn; lra. }
  assert (E : forall l, (l < 3)%nat -> pd l (pd l (feature [0; 1] [0; 1] [0; 1] (oneW w) oneb 0)) mid =
    Derive (Derive (fun t => tanh (2 * w * nth 0 (upd mid l t) 0 - w + 1) * cube_adf (upd mid l t))) (nth l mid 0)).
  { intros l Hl. rewrite pd_pd by (cbn; lia). apply Derive_ext. intros t. apply Derive_ext. intros s. apply one_feature. }
  assert (T : 2 * w * (1 / 2) - w + 1 = 1) by field.
  assert (E0 : pd 0 (pd 0 (feature [0; 1] [0; 1] [0; 1] (oneW w) oneb 0)) mid =
    - 8 * w ^ 2 * (tanh 1 * (1 - tanh 1 * tanh 1)) * cube_adf mid + 4 * w * (1 - tanh 1 * tanh 1) * pd 0 cube_adf mid + tanh 1 * pd 0 (pd 0 cube_adf) mid).
  { rewrite E by lia. rewrite (pd_pd 0 cube_adf) by (cbn; lia). specialize (G 0%nat ltac:(lia)). unfold pd. cbn [nth mid upd] in *.
    rewrite (D2_mult_value (fun t => tanh (2 * w * t - w + 1)) (fun t => cube_adf [t; 1 / 2; 1 / 2]) (1 / 2) (F_D2 w (1 / 2)) G).
    rewrite (is_derive_unique _ _ _ (F1 w (1 / 2))), (is_derive_unique _ _ _ (F2 w (1 / 2))), T.
    change (1 / 2 :: 1 / 2 :: 1 / 2 :: nil) with mid. ring. }
  assert (EL : forall l, (0 < l < 3)%nat -> pd l (pd l (feature [0; 1] [0; 1] [0; 1] (oneW w) oneb 0)) mid = tanh 1 * pd l (pd l cube_adf) mid).
  { intros l Hl. rewrite E by lia. rewrite (pd_pd l cube_adf) by (cbn; lia).
    rewrite (Derive_ext _ (fun t => Derive (fun s => cube_adf (upd mid l s)) t * tanh 1)).
    - rewrite Derive_scal_l. ring.
    - intros t. rewrite <- Derive_scal_l. apply Derive_ext. intros s. destruct l as [|[|[|l]]]; try lia; cbn [upd mid nth]; rewrite T; ring. }
  unfold lap_, total. cbn [seq map sumR fold_right]. rewrite E0, !EL by lia. ring.
Qed.
(** some weight gives a non-zero entry *)
Lemma one_nonzero : exists w, lap_ 3 (feature [0; 1] [0; 1] [0; 1] (oneW w) oneb 0) mid <> 0.
Proof.
  destruct (Req_dec (lap_ 3 (feature [0; 1] [0; 1] [0; 1] (oneW 0) oneb 0) mid) 0) as [Z|]; [|eauto].
  destruct (Req_dec (lap_ 3 (feature [0; 1] [0; 1] [0; 1] (oneW 1) oneb 0) mid) 0) as [P|]; [|eauto].
  exists (-1). rewrite one_lap in *. intros Q.
  assert (C : 0 < cube_adf mid).
  { unfold cube_adf, box_adf, mid. cbv zeta. cbn [nth]. repeat (apply cj_pos; try lra). }
  pose proof tanh_lt1. assert (0 < tanh 1 * (1 - tanh 1 * tanh 1)) by nra.
  assert (0 < tanh 1 * (1 - tanh 1 * tanh 1) * cube_adf mid) by (apply Rmult_lt_0_compat; auto). nra.
Qed.
(** singular values of a matrix with one entry *)
Definition svd1 (Q : tensor) : tensor * tensor * tensor :=
  (mkT [1; 1]%nat (fun _ => if Rle_dec 0 (entry Q [0; 0]%nat) then 1 else -1), tvec [Rabs (entry Q [0; 0]%nat)], mkT [1; 1]%nat (fun _ => 1)).
Lemma svd1_ok Q U s VT : svd1 Q = (U, s, VT) -> is_svd 1 1 Q U s VT /\ entry s [0%nat] = Rabs (entry Q [0; 0]%nat).
Proof.
  intros E. injection E as <- <- <-. split; [|reflexivity]. unfold is_svd, total. cbn [Nat.min seq map sumR fold_right tvec entry shape length].
  split; [reflexivity|]. split; [reflexivity|]. split; [reflexivity|].
  split. { intros a b Ha Hb. assert (a = 0%nat) by lia. assert (b = 0%nat) by lia. subst. cbn [Nat.eqb]. destruct (Rle_dec _ _); ring. }
  split. { intros a b Ha Hb. assert (a = 0%nat) by lia. assert (b = 0%nat) by lia. subst. cbn [Nat.eqb]. ring. }
  split. { intros a Ha. assert (a = 0%nat) by lia. subst. cbn. apply Rabs_pos. }
  intros i j Hi Hj. assert (i = 0%nat) by lia. assert (j = 0%nat) by lia. subst. cbn [hd nth].
  destruct (Rle_dec 0 (entry Q [0; 0]%nat)); [rewrite Rabs_pos_eq by auto|rewrite Rabs_left by lra]; ring.
Qed.
Lemma one_fit c : Cuboid [0; 1] [0; 1] [0; 1] = Ok c -> exists w U s VT,
  (forall Q, fit_matrix c (oneW w) oneb [cube_mid] = Ok Q -> svd1 Q = (U, s, VT) /\ is_svd 1 1 Q U s VT) /\
    forall a, (a < 1)%nat -> entry s [a] <> 0.
Proof.
  intros HC. destruct one_nonzero as (w & Hw). exists w.
  assert (HT : thick [0; 1] [0; 1] [0; 1]) by (repeat split; cbn; lra).
  assert (HX : forall x, In x [cube_mid] -> shape x = [3%nat] /\ inside_box [0; 1] [0; 1] [0; 1] (tlist x)).
  { intros x [<-|[]]. split; [reflexivity|apply mid_inside]. }
  destruct (fit_ok _ _ _ c (oneW w) oneb 1 HC HT eq_refl eq_refl [cube_mid] ltac:(discriminate) HX) as (Q & EQ & SQ & VQ).
  destruct (svd1 Q) as ((U & s) & VT) eqn:ES. exists U, s, VT. split.
  - intros Q' E'. rewrite EQ in E'. injection E' as <-. split; auto. apply svd1_ok; auto.
  - intros a Ha. assert (a = 0%nat) by lia. subst. rewrite (proj2 (svd1_ok Q U s VT ES)). rewrite VQ by (cbn; lia).
    apply Rabs_no_R0. apply Ropp_neq_0_compat. cbn [nth]. unfold cube_mid. rewrite tlist_tvec. exact Hw.
Qed.
