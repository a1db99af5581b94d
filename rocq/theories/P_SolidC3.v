(** Proofs about boundary conditions on solids, part 3: the predefined R-systems are smooth away from (0, 0). *)
From Coquelicot Require Import Coquelicot.
From Verif Require Import Base BaseFacts M_Quat S_Quat M_RFun S_RFun P_RFun1 P_Vec P_RFun2 M_Solid S_Solid
  P_Solid1 P_Solid2 P_Solid3 P_Solid4 P_Solid5 S_SolidBC P_SolidC1 P_SolidC2.

(** *** Total derivatives of functions of two variables *)
Lemma dl_eq f x y lx ly lx' ly' : differentiable_pt_lim f x y lx ly -> lx = lx' -> ly = ly' -> differentiable_pt_lim f x y lx' ly'.
Proof. intros H -> ->. exact H. Qed.
Lemma dl_exact f x y lx ly : (forall u v, f u v - f x y = lx * (u - x) + ly * (v - y)) -> differentiable_pt_lim f x y lx ly.
Proof.
  intros H e. exists (mkposreal 1 Rlt_0_1). intros u v _ _. rewrite H, Rminus_eq_0, Rabs_R0.
  apply Rmult_le_pos; [left; apply cond_pos|]. eapply Rle_trans; [apply Rabs_pos|apply Rmax_l].
Qed.
Lemma dl_id1 x y : differentiable_pt_lim (fun u _ => u) x y 1 0.
Proof. apply dl_exact. intros. ring. Qed.
Lemma dl_id2 x y : differentiable_pt_lim (fun _ v => v) x y 0 1.
Proof. apply dl_exact. intros. ring. Qed.
Lemma dl_const c x y : differentiable_pt_lim (fun _ _ => c) x y 0 0.
Proof. apply dl_exact. intros. ring. Qed.
Lemma dl_Rplus x y : differentiable_pt_lim Rplus x y 1 1.
Proof. apply dl_exact. intros. ring. Qed.
Lemma dl_Rmult x y : differentiable_pt_lim Rmult x y y x.
Proof.
  intros e. exists e. intros u v _ Lv. replace (u * v - x * y - (y * (u - x) + x * (v - y))) with ((v - y) * (u - x)) by ring.
  rewrite Rabs_mult. apply Rmult_le_compat; try apply Rabs_pos; [lra|apply Rmax_l].
Qed.
Lemma dl_plus f g x y a b c d : differentiable_pt_lim f x y a b -> differentiable_pt_lim g x y c d ->
  differentiable_pt_lim (fun u v => f u v + g u v) x y (a + c) (b + d).
Proof. intros F G. eapply dl_eq; [exact (differentiable_pt_lim_comp Rplus f g x y _ _ _ _ _ _ (dl_Rplus _ _) F G)|ring|ring]. Qed.
Lemma dl_mult f g x y a b c d : differentiable_pt_lim f x y a b -> differentiable_pt_lim g x y c d ->
  differentiable_pt_lim (fun u v => f u v * g u v) x y (a * g x y + f x y * c) (b * g x y + f x y * d).
Proof. intros F G. eapply dl_eq; [exact (differentiable_pt_lim_comp Rmult f g x y _ _ _ _ _ _ (dl_Rmult _ _) F G)|ring|ring]. Qed.
Lemma dl_1 F l u x y a b : derivable_pt_lim F (u x y) l -> differentiable_pt_lim u x y a b ->
  differentiable_pt_lim (fun s t => F (u s t)) x y (l * a) (l * b).
Proof.
  intros H U. eapply dl_eq.
  - exact (differentiable_pt_lim_comp (fun s _ => F s) u u x y _ _ _ _ _ _ (differentiable_pt_lim_proj1_0 F (u x y) (u x y) l H) U U).
  - ring.
  - ring.
Qed.

(** sum plus or minus a root *)
Lemma rooted_smooth op k c (u ua ub : R -> R -> R) (F F' : R -> R) :
  (forall a b, a <> 0 \/ b <> 0 -> 0 < u a b) ->
  (forall a b, a <> 0 \/ b <> 0 -> op a b = Ok (k * (a + b + c * F (u a b)))) ->
  (forall a b, differentiable_pt_lim u a b (ua a b) (ub a b)) ->
  (forall a b, continuity_2d_pt u a b) -> (forall a b, continuity_2d_pt ua a b) -> (forall a b, continuity_2d_pt ub a b) ->
  (forall t, 0 < t -> derivable_pt_lim F t (F' t)) -> (forall t, 0 < t -> continuity_pt F' t) ->
  smooth_op op.
Proof.
  intros Pu E Du Cu Ca Cb DF CF.
  exists (fun a b => k * (a + b + c * F (u a b))), (fun a b => k * (1 + c * (F' (u a b) * ua a b))),
    (fun a b => k * (1 + c * (F' (u a b) * ub a b))).
  intros a b N. specialize (Pu a b N). split; [auto|]. split; [|split].
  - eapply dl_eq.
    + apply dl_mult; [apply dl_const|]. apply dl_plus; [apply dl_plus; [apply dl_id1|apply dl_id2]|].
      apply dl_mult; [apply dl_const|]. apply dl_1; [apply DF; auto|apply Du].
    + cbv beta; ring.
    + cbv beta; ring.
  - assert (C : continuity_2d_pt (fun a b => F' (u a b)) a b) by (apply continuity_1d_2d_pt_comp; auto).
    repeat first [apply continuity_2d_pt_plus|apply continuity_2d_pt_mult|apply continuity_2d_pt_const]; auto.
  - assert (C : continuity_2d_pt (fun a b => F' (u a b)) a b) by (apply continuity_1d_2d_pt_comp; auto).
    repeat first [apply continuity_2d_pt_plus|apply continuity_2d_pt_mult|apply continuity_2d_pt_const]; auto.
Qed.

Lemma Dalpha_pos alpha a b : -1 < alpha < 1 -> a <> 0 \/ b <> 0 -> 0 < Dalpha alpha a b.
Proof.
  intros Ha N. unfold Dalpha.
  replace (a ^ 2 + b ^ 2 - 2 * alpha * a * b) with ((1 - alpha) / 2 * ((a + b) * (a + b)) + (1 + alpha) / 2 * ((a - b) * (a - b))) by field.
  pose proof (sq_nonneg (a + b)). pose proof (sq_nonneg (a - b)).
  destruct (Req_dec (a + b) 0) as [Z|Z].
  - assert (a - b <> 0) by (destruct N; lra).
    assert (0 < (a - b) * (a - b)) by (apply Rsqr_pos_lt; auto). nra.
  - assert (0 < (a + b) * (a + b)) by (apply Rsqr_pos_lt; auto). nra.
Qed.

Lemma RAlpha_smooth alpha s : RAlpha alpha = Ok s -> alpha < 1 -> smooth_system s.
Proof.
  intros H Ha1. split; [eapply RAlpha_normalized; eauto|]. apply RAlpha_ok in H as [Ha ->].
  assert (D : forall a b, differentiable_pt_lim (Dalpha alpha) a b (2 * a - 2 * alpha * b) (2 * b - 2 * alpha * a)).
  { intros a b. eapply dl_eq.
    - apply (differentiable_pt_lim_ext (fun u v => u * u + v * v + (- (2 * alpha)) * (u * v))).
      + apply locally_2d_forall. intros u v. unfold Dalpha. ring.
      + apply dl_plus; [apply dl_plus; apply dl_mult|apply dl_mult; [apply dl_const|apply dl_mult]];
          first [apply dl_id1|apply dl_id2].
    - cbv beta; ring.
    - cbv beta; ring. }
  assert (C0 : forall a b, continuity_2d_pt (Dalpha alpha) a b) by (intros; unfold Dalpha; c2).
  assert (C1 : forall a b, continuity_2d_pt (fun a b => 2 * a - 2 * alpha * b) a b) by (intros; c2).
  assert (C2 : forall a b, continuity_2d_pt (fun a b => 2 * b - 2 * alpha * a) a b) by (intros; c2).
  assert (DF : forall t, 0 < t -> derivable_pt_lim sqrt t (/ (2 * sqrt t))) by (intros; apply derivable_pt_lim_sqrt; auto).
  assert (CF : forall t, 0 < t -> continuity_pt (fun t => / (2 * sqrt t)) t).
  { intros t Ht. apply continuity_pt_inv.
    - apply continuity_pt_mult; [apply continuity_pt_const; intros ? ?; auto|apply continuity_pt_sqrt; lra].
    - pose proof (sqrt_lt_R0 t Ht). lra. }
  split; cbn [conj_ disj_].
  - apply (rooted_smooth _ (1 / (1 + alpha)) (-1) (Dalpha alpha) (fun a b => 2 * a - 2 * alpha * b) (fun a b => 2 * b - 2 * alpha * a)
      sqrt (fun t => / (2 * sqrt t))); auto.
    + intros. apply Dalpha_pos; auto. lra.
    + intros a b _. rewrite ralpha_conj_ok by auto. unfold ralpha_conj_v. f_equal. ring.
  - apply (rooted_smooth _ (1 / (1 + alpha)) 1 (Dalpha alpha) (fun a b => 2 * a - 2 * alpha * b) (fun a b => 2 * b - 2 * alpha * a)
      sqrt (fun t => / (2 * sqrt t))); auto.
    + intros. apply Dalpha_pos; auto. lra.
    + intros a b _. rewrite ralpha_disj_ok by auto. unfold ralpha_disj_v. f_equal. ring.
Qed.

Lemma RP_smooth p s : RP p = Ok s -> (2 <= p)%Z -> smooth_system s.
Proof.
  intros H Hp. split; [eapply RP_normalized; eauto|]. apply RP_ok in H as [Ev ->].
  destruct (even_nat p Hp Ev) as (n & Hn & ->). destruct (rp_value n Hn) as (r & E & P & Q).
  set (m := (2 * n)%nat) in *. assert (Hm : (1 <= m)%nat) by (unfold m; lia).
  assert (Pm : 0 < INR m) by (apply lt_0_INR; lia).
  set (u := fun a b : R => a ^ m + b ^ m).
  assert (Pu : forall a b, a <> 0 \/ b <> 0 -> 0 < u a b).
  { intros a b N. unfold u, m. rewrite !pow_mult. 
    assert (forall z, 0 <= (z ^ 2) ^ n) by (intros z; apply pow_le, pow2_ge_0).
    assert (forall z, z <> 0 -> 0 < (z ^ 2) ^ n). { intros z Hz. apply pow_lt. apply pow2_gt_0. auto. }
    destruct N as [N|N].
    - apply Rplus_lt_le_0_compat; auto.
    - apply Rplus_le_lt_0_compat; auto. }
  assert (Er : forall a b, a <> 0 \/ b <> 0 -> r a b = Rpower (u a b) (/ INR m)).
  { intros a b N. assert (Pr : 0 < r a b).
    { destruct (P a b) as [L|L]; auto. exfalso. specialize (Q a b). rewrite <- L in Q. rewrite pow_i in Q by lia.
      specialize (Pu a b N). unfold u in Pu. lra. }
    unfold u. rewrite <- Q. rewrite <- Rpower_pow by auto. rewrite Rpower_mult, Rinv_r by lra. rewrite Rpower_1; auto. }
  assert (D : forall a b, differentiable_pt_lim u a b (INR m * a ^ pred m) (INR m * b ^ pred m)).
  { intros a b. unfold u. eapply dl_eq.
    - apply dl_plus.
      + apply (dl_1 (fun z => z ^ m) (INR m * a ^ pred m) (fun a _ => a)); [apply derivable_pt_lim_pow|apply dl_id1].
      + apply (dl_1 (fun z => z ^ m) (INR m * b ^ pred m) (fun _ b => b)); [apply derivable_pt_lim_pow|apply dl_id2].
    - cbv beta; ring.
    - cbv beta; ring. }
  assert (C0 : forall a b, continuity_2d_pt u a b) by (intros; unfold u; c2).
  assert (C1 : forall a b, continuity_2d_pt (fun a b => INR m * a ^ pred m) a b).
  { intros. apply continuity_2d_pt_mult; [apply continuity_2d_pt_const|]. apply c2_pow, continuity_2d_pt_id1. }
  assert (C2 : forall a b, continuity_2d_pt (fun a b => INR m * b ^ pred m) a b).
  { intros. apply continuity_2d_pt_mult; [apply continuity_2d_pt_const|]. apply c2_pow, continuity_2d_pt_id2. }
  set (F' := fun t => / INR m * Rpower t (/ INR m - 1)).
  assert (DF : forall t, 0 < t -> derivable_pt_lim (fun t => Rpower t (/ INR m)) t (F' t)) by (intros; apply derivable_pt_lim_power; auto).
  assert (CF : forall t, 0 < t -> continuity_pt F' t).
  { intros t Ht. apply continuity_pt_mult; [apply continuity_pt_const; intros ? ?; auto|].
    apply derivable_continuous_pt. eexists. apply derivable_pt_lim_power. auto. }
  split; cbn [conj_ disj_].
  - apply (rooted_smooth _ 1 (-1) u (fun a b => INR m * a ^ pred m) (fun a b => INR m * b ^ pred m) (fun t => Rpower t (/ INR m)) F'); auto.
    intros a b N. unfold rp_conj. rewrite E. cbn [bind]. rewrite <- Er by auto. f_equal. ring.
  - apply (rooted_smooth _ 1 1 u (fun a b => INR m * a ^ pred m) (fun a b => INR m * b ^ pred m) (fun t => Rpower t (/ INR m)) F'); auto.
    intros a b N. unfold rp_disj. rewrite E. cbn [bind]. rewrite <- Er by auto. f_equal. ring.
Qed.
