(** The steihaug loop. *)
From Verif Require Import Base BaseFacts S_RFun P_Vec M_Tree M_XR M_Tr S_Tr S_Ode P_Tree P_Tr1 P_Spline1.

(** *** the step to the boundary *)
Lemma boundary_root a b c : 0 < a -> c < 0 ->
  let tau := - b / a + sqrt (b / a * (b / a) - c / a) in 0 < tau /\ a * (tau * tau) + 2 * b * tau + c = 0 /\
  forall t, 0 < t -> 0 <= a * (t * t) + 2 * b * t + c -> tau <= t.
Proof.
  intros Ha Hc tau. assert (Hq : 0 < - c / a) by (apply Rmult_lt_0_compat; [lra|apply Rinv_0_lt_compat; auto]).
  assert (HD : b / a * (b / a) - c / a = (b / a) * (b / a) + - c / a) by (field; lra).
  pose proof (sqrt_sqrt (b / a * (b / a) - c / a)) as SS. rewrite HD in SS. specialize (SS ltac:(nra)).
  assert (E : sqrt (b / a * (b / a) - c / a) = sqrt (b / a * (b / a) + - c / a)) by (rewrite HD; auto).
  unfold tau. rewrite E. clear E tau HD. set (s := sqrt (b / a * (b / a) + - c / a)) in *. assert (Sp : 0 <= s) by apply sqrt_pos.
  assert (Q1 : b = a * (b / a)) by (field; lra). assert (Q2 : c = - (a * (- c / a))) by (field; lra).
  set (q := b / a) in *. set (w := - c / a) in *. replace (- b / a) with (- q) by (unfold q; field; lra).
  assert (Hs : Rabs q < s).
  { destruct (Rlt_dec (Rabs q) s) as [|N]; auto. exfalso.
    assert (s * s <= Rabs q * Rabs q) by (apply Rmult_le_compat; lra). rewrite <- Rabs_mult, Rabs_right in H by nra. lra. }
  assert (- q <= Rabs q) by (rewrite <- Rabs_Ropp; apply Rle_abs). assert (q <= Rabs q) by apply Rle_abs.
  split; [lra|]. split.
  - rewrite Q1, Q2. replace (a * ((- q + s) * (- q + s)) + 2 * (a * q) * (- q + s) + - (a * w)) with (a * (s * s - (q * q + w))) by ring. rewrite SS. ring.
  - intros t Ht. rewrite Q1, Q2. replace (a * (t * t) + 2 * (a * q) * t + - (a * w)) with (a * ((t + q) * (t + q) - (q * q + w))) by ring.
    intros H1. assert (H2 : 0 <= (t + q) * (t + q) - s * s).
    { rewrite SS. apply (Rmult_le_reg_l a); auto. lra. }
    destruct (Rle_dec s (t + q)); [lra|]. exfalso.
    destruct (Rle_dec 0 (t + q)); [nra|]. assert (- (t + q) < s) by lra. nra.
Qed.
Lemma norm_lt_sq z D : 0 < D -> (tnorm z < D <-> tdot z z < D * D).
Proof.
  intros HD. rewrite <- tnorm_sq. pose proof (tnorm_nonneg z). split; intros H1; [apply Rmult_le_0_lt_compat; auto|].
  destruct (Rlt_dec (tnorm z) D); auto. exfalso. assert (D * D <= tnorm z * tnorm z) by (apply Rmult_le_compat; lra). lra.
Qed.
Lemma limit_step_fin D z d : 0 < D -> shape z = shape d -> tnorm z < D -> 0 < tdot d d ->
  exists tau, 0 < tau /\ limit_step D (fin z) (fin d) = fin (taxpy z tau d) /\ tnorm (taxpy z tau d) = D /\
    forall t, 0 < t -> D <= tnorm (taxpy z t d) -> tau <= t.
Proof.
  intros HD Hs Hz Hd. assert (Hz2 : tdot z z - D ^ 2 < 0) by (apply norm_lt_sq in Hz; auto; lra).
  destruct (boundary_root (tdot d d) (tdot z d) (tdot z z - D ^ 2) Hd Hz2) as (T1 & T2 & T3).
  set (tau := - tdot z d / tdot d d + sqrt (tdot z d / tdot d d * (tdot z d / tdot d d) - (tdot z z - D ^ 2) / tdot d d)) in *.
  assert (N : forall t, tdot (taxpy z t d) (taxpy z t d) = tdot d d * (t * t) + 2 * tdot z d * t + (tdot z z - D ^ 2) + D * D).
  { intros t. rewrite tdot_axpy_l, !tdot_axpy_r by auto. rewrite (tdot_comm d z). simpl. ring. }
  exists tau. split; auto. split; [|split].
  - unfold limit_step. rewrite !xt_vdot_fin by auto.
    assert (DV : forall x, xdiv (Fin x) (Fin (tdot d d)) = Fin (x / tdot d d)) by (intros x; simpl; destruct (Req_EM_T (tdot d d) 0); [lra|auto]).
    assert (SB : forall x y, xsub (Fin x) (Fin y) = Fin (x - y)) by reflexivity. change (xneg (Fin (tdot z d))) with (Fin (- tdot z d)).
    rewrite SB, !DV. change (xmul (Fin (tdot z d / tdot d d)) (Fin (tdot z d / tdot d d))) with (Fin (tdot z d / tdot d d * (tdot z d / tdot d d))).
    rewrite SB. set (disc := tdot z d / tdot d d * (tdot z d / tdot d d) - (tdot z z - D ^ 2) / tdot d d) in *.
    assert (Hdisc : 0 <= disc).
    { unfold disc. assert (0 <= - ((tdot z z - D ^ 2) / tdot d d)).
      { replace (- ((tdot z z - D ^ 2) / tdot d d)) with ((D ^ 2 - tdot z z) * / tdot d d) by (field; lra).
        apply Rmult_le_pos; [lra|]. left. apply Rinv_0_lt_compat. auto. }
      nra. }
    assert (LT : xltb (Fin disc) (Fin 0) = false) by (simpl; unfold Rltb; destruct (Rlt_dec disc 0); [lra|auto]). rewrite LT.
    assert (SQ : xsqrt (Fin disc) = Fin (sqrt disc)) by (simpl; destruct (Rlt_dec disc 0); [lra|auto]). rewrite SQ.
    change (xadd (Fin (- tdot z d / tdot d d)) (Fin (sqrt disc))) with (Fin tau).
    assert (MX : xmax (Fin 0) (Fin tau) = Fin tau) by (simpl; unfold Rleb; destruct (Rle_dec 0 tau); [auto|lra]). rewrite MX. apply xt_axpy_fin.
  - unfold tnorm. rewrite N, T2, Rplus_0_l. apply sqrt_square. lra.
  - intros t Ht HN. apply T3; auto. assert (D * D <= tdot (taxpy z t d) (taxpy z t d)).
    { rewrite <- tnorm_sq. apply Rmult_le_compat; lra. }
    rewrite N in H. lra.
Qed.

(** *** one iteration *)
Lemma cg_step_cases hvp D s z d r hd : 0 < D -> s_z s = fin z -> s_d s = fin d -> s_r s = fin r ->
  shape d = shape z -> shape r = shape z -> hvp (fin d) = fin hd -> shape hd = shape z ->
  tdot r d = - tdot r r -> 0 < tdot r r -> tnorm z < D ->
  let kap := tdot d hd in let alpha := tdot r r / kap in let z' := taxpy z alpha d in
  let r' := taxpy r alpha hd in let d' := taxpy (tscal (-1) r') (tdot r' r' / tdot r r) d in
  (0 < kap /\ tnorm z' < D /\
   cg_step hvp D s = mkCgs (s_iter s + 1) (fin z') (fin d') (fin r') (Fin (tnorm z')) (Fin (tnorm r')) (Fin kap)) \/
  ((kap <= 0 \/ 0 < kap /\ D <= tnorm z') /\ exists tau, 0 < tau /\ tnorm (taxpy z tau d) = D /\ (0 < kap -> tau <= alpha) /\
     s_z (cg_step hvp D s) = fin (taxpy z tau d) /\ s_iter (cg_step hvp D s) = (s_iter s + 1)%nat /\ s_curv (cg_step hvp D s) = Fin kap /\
     orb (xleb (s_curv (cg_step hvp D s)) (Fin 0)) (xgeb (s_norm_z (cg_step hvp D s)) (Fin D)) = true /\
     (0 < kap -> s_norm_r (cg_step hvp D s) = Fin (tnorm r'))).
Proof.
  intros HD Ez Ed Er Sd Sr Eh Sh Hrd Hrr Hz kap alpha z' r' d'.
  assert (Hdd : 0 < tdot d d).
  { destruct (Req_dec (tdot d d) 0) as [E0|N]; [|pose proof (tdot_nonneg d); lra]. exfalso.
    pose proof (tdot_cs r d ltac:(congruence)) as CS. rewrite E0, Hrd in CS. nra. }
  destruct (limit_step_fin D z d HD ltac:(congruence) Hz Hdd) as (tau & Ht & El & En & Eu).
  assert (K : xt_vdot (s_d s) (hvp (s_d s)) = Fin kap) by (rewrite Ed, Eh; apply xt_vdot_fin; congruence).
  assert (RR : xt_vdot (s_r s) (s_r s) = Fin (tdot r r)) by (rewrite Er; apply xt_vdot_fin; congruence).
  destruct (Rle_dec kap 0) as [Hk|Hk].
  - right. split; [auto|]. exists tau. split; [auto|]. split; [auto|]. split; [lra|].
    unfold cg_step. cbn [s_z s_iter s_curv s_norm_z s_norm_r]. rewrite K. cbn [xleb]. unfold Rleb at 1 2. destruct (Rle_dec kap 0); [|lra]. cbn [orb].
    rewrite Ez, Ed, El. repeat split; auto. lra.
  - assert (Hk' : 0 < kap) by lra.
    assert (A : xdiv (Fin (tdot r r)) (Fin kap) = Fin alpha) by (simpl; destruct (Req_EM_T kap 0); [lra|auto]).
    assert (Z' : xt_axpy (s_z s) (Fin alpha) (s_d s) = fin z') by (rewrite Ez, Ed; apply xt_axpy_fin).
    assert (R' : xt_axpy (s_r s) (Fin alpha) (hvp (s_d s)) = fin r') by (rewrite Ed, Eh, Er; apply xt_axpy_fin).
    assert (B : xdiv (xt_vdot (fin r') (fin r')) (Fin (tdot r r)) = Fin (tdot r' r' / tdot r r)).
    { rewrite xt_vdot_fin by auto. simpl. destruct (Req_EM_T (tdot r r) 0); [lra|auto]. }
    assert (D' : xt_axpy (xt_neg (fin r')) (Fin (tdot r' r' / tdot r r)) (s_d s) = fin d') by (rewrite Ed, xt_neg_fin; apply xt_axpy_fin).
    assert (ST : cg_step hvp D s = mkCgs (s_iter s + 1) (if orb (xleb (Fin kap) (Fin 0)) (xgeb (Fin (tnorm z')) (Fin D)) then limit_step D (s_z s) (s_d s) else fin z')
       (fin d') (fin r') (Fin (tnorm z')) (Fin (tnorm r')) (Fin kap)).
    { unfold cg_step. rewrite K, RR, A, Z', R', B, D'. rewrite !xt_norm_fin. reflexivity. }
    assert (C1 : xleb (Fin kap) (Fin 0) = false) by (simpl; unfold Rleb; destruct (Rle_dec kap 0); [lra|auto]).
    assert (C2 : xgeb (Fin (tnorm z')) (Fin D) = Rleb D (tnorm z')) by reflexivity.
    rewrite C1, C2 in ST. cbn [orb] in ST. unfold Rleb in ST. destruct (Rle_dec D (tnorm z')) as [L|L].
    + right. split; [right; auto|]. exists tau. split; [auto|]. split; [auto|]. split.
      { intros _. apply Eu; auto. unfold alpha. apply Rmult_lt_0_compat; auto. apply Rinv_0_lt_compat. auto. }
      rewrite ST. cbn [s_z s_iter s_curv s_norm_z s_norm_r]. rewrite C1, C2. rewrite Ez, Ed, El. unfold Rleb. destruct (Rle_dec D (tnorm z')); [|lra]. auto.
    + left. split; [auto|]. split; [lra|]. exact ST.
Qed.
