(** Proofs about solids, part 2: the R-systems are continuous and normalized. *)
From Coquelicot Require Import Coquelicot.
From Verif Require Import Base BaseFacts M_Quat S_Quat P_Quat M_RFun S_RFun P_RFun1 P_Vec P_RFun2 M_Solid S_Solid P_Solid1.

Lemma pow_super_le a b n : (1 <= n)%nat -> 0 <= a -> 0 <= b -> a ^ n + b ^ n <= (a + b) ^ n.
Proof.
  intros Hn Ha Hb. induction Hn as [|n Hn IH].
  - simpl. lra.
  - simpl. assert (0 <= a ^ n) by (apply pow_le; auto). assert (0 <= b ^ n) by (apply pow_le; auto). nra.
Qed.

Lemma root_holder r r0 m : (1 <= m)%nat -> 0 <= r -> 0 <= r0 -> Rabs (r - r0) ^ m <= Rabs (r ^ m - r0 ^ m).
Proof.
  intros Hm H H0.
  assert (K : forall u v, 0 <= u -> 0 <= v -> u <= v -> Rabs (v - u) ^ m <= Rabs (v ^ m - u ^ m)).
  { intros u v Hu Hv L. rewrite Rabs_right by lra.
    pose proof (pow_super_le (v - u) u m Hm ltac:(lra) Hu) as P. replace (v - u + u) with v in P by ring.
    assert (0 <= (v - u) ^ m) by (apply pow_le; lra). rewrite Rabs_right by lra. lra. }
  destruct (Rle_lt_dec r0 r); [apply K; auto|].
  rewrite (Rabs_minus_sym r), (Rabs_minus_sym (r ^ m)). apply K; auto. lra.
Qed.

Lemma root_continuous (r u : R -> R -> R) m a0 b0 : (1 <= m)%nat -> (forall a b, 0 <= r a b) ->
  (forall a b, r a b ^ m = u a b) -> continuity_2d_pt u a0 b0 -> continuity_2d_pt r a0 b0.
Proof.
  intros Hm P E C e.
  assert (He : 0 < e ^ m) by (apply pow_lt, cond_pos).
  destruct (C (mkposreal _ He)) as (d & Hd). exists d. intros a b Ha Hb. specialize (Hd a b Ha Hb). simpl in Hd.
  apply (pow_lt_inv _ _ m); [apply Rabs_pos|left; apply cond_pos|].
  eapply Rle_lt_trans; [apply root_holder; auto|]. rewrite !E. exact Hd.
Qed.

Lemma continuous2_of op (F : R -> R -> R) : (forall a b, op a b = Ok (F a b)) ->
  (forall a b, continuity_2d_pt F a b) -> continuous2 op.
Proof.
  intros E C a0 b0. exists (F a0 b0). split; auto. intros e He. destruct (C a0 b0 (mkposreal e He)) as (d & Hd).
  exists d. split; [apply cond_pos|]. intros a b Ha Hb. exists (F a b). split; [auto|]. exact (Hd a b Ha Hb).
Qed.

Lemma c2_pow (F : R -> R -> R) n a b : continuity_2d_pt F a b -> continuity_2d_pt (fun u v => F u v ^ n) a b.
Proof.
  intros H. induction n; simpl; [apply continuity_2d_pt_const|]. apply continuity_2d_pt_mult; auto.
Qed.
Ltac c2 := repeat first [apply continuity_2d_pt_plus|apply continuity_2d_pt_minus|apply c2_pow|apply continuity_2d_pt_mult
  |apply continuity_2d_pt_opp|apply continuity_2d_pt_id1|apply continuity_2d_pt_id2|apply continuity_2d_pt_const].

(** conjunction and disjunction as sum minus or plus a root *)
Lemma rooted_system s k (r u : R -> R -> R) m : (1 <= m)%nat -> (forall a b, 0 <= r a b) ->
  (forall a b, r a b ^ m = u a b) -> (forall a b, continuity_2d_pt u a b) ->
  (forall a b, conj_ s a b = Ok (k * (a + b - r a b))) -> (forall a b, disj_ s a b = Ok (k * (a + b + r a b))) ->
  continuous2 (conj_ s) /\ continuous2 (disj_ s).
Proof.
  intros Hm P E C Ec Ed.
  assert (Cr : forall a b, continuity_2d_pt r a b) by (intros; eapply root_continuous; eauto).
  split; (eapply continuous2_of; [first [exact Ec|exact Ed]|]); intros; c2; apply Cr.
Qed.

Lemma first_order_of op b0 : 0 < b0 ->
  (forall a b, op a b = op b a) ->
  (forall a b, 0 < b -> Rabs a <= b / 2 -> exists v, op a b = Ok v /\ Rabs (v - a) <= 4 * (a * a) / b) ->
  first_order op b0.
Proof.
  intros Hb Cm B e He.
  set (d := Rmin (b0 / 4) (e * b0 / 8)).
  assert (Hd : 0 < d) by (apply Rmin_pos; [lra|]; nra).
  assert (D1 : d <= b0 / 4) by apply Rmin_l. assert (D2 : d <= e * b0 / 8) by apply Rmin_r.
  exists d. split; auto. intros a b Ha Hbb.
  assert (b0 / 2 < b) by (destruct (Rabs_def2 _ _ Hbb); lra).
  assert (exists v, op a b = Ok v /\ Rabs (v - a) <= e * Rabs a) as H'.
  { destruct (B a b) as (v & E & L); [lra|lra|]. exists v. split; auto. eapply Rle_trans; [exact L|].
    assert (Q : a * a = Rabs a * Rabs a) by (rewrite <- Rabs_mult; symmetry; apply Rabs_right, Rle_ge, Rle_0_sqr).
    rewrite Q. unfold Rdiv.
    apply Rmult_le_reg_r with b; [lra|]. rewrite Rmult_assoc, Rinv_l by lra. rewrite Rmult_1_r.
    pose proof (Rabs_pos a). assert (4 * Rabs a <= e * b) by nra. nra. }
  split; [exact H'|]. rewrite Cm. exact H'.
Qed.

Lemma first_order_dual s b0 : demorgan s -> b0 < 0 -> first_order (conj_ s) (- b0) -> first_order (disj_ s) b0.
Proof.
  intros DM Hb F e He. destruct (F e He) as (d & Hd & H). exists d. split; auto. intros a b Ha Hbb.
  destruct (H (- a) (- b)) as [(v & E & L) (w & E' & L')].
  - rewrite Rabs_Ropp. auto.
  - replace (- b - - b0) with (- (b - b0)) by ring. rewrite Rabs_Ropp. auto.
  - rewrite Rabs_Ropp in L, L'. split.
    + destruct (DM a b) as [-> _]. rewrite E. exists (- v). split; auto.
      replace (- v - a) with (- (v - - a)) by ring. rewrite Rabs_Ropp. auto.
    + destruct (DM b a) as [-> _]. rewrite E'. exists (- w). split; auto.
      replace (- w - a) with (- (w - - a)) by ring. rewrite Rabs_Ropp. auto.
Qed.

Lemma normalized_of s : continuous_system s -> demorgan s -> commutative s ->
  (forall a b, 0 < b -> Rabs a <= b / 2 -> exists v, conj_ s a b = Ok v /\ Rabs (v - a) <= 4 * (a * a) / b) ->
  normalized_system s.
Proof.
  intros C DM Cm B.
  assert (F : forall b, 0 < b -> first_order (conj_ s) b).
  { intros b Hb. apply first_order_of; auto. intros; apply Cm. }
  split; auto. split; auto. intros b Hb. apply first_order_dual; auto. apply F. lra.
Qed.

Lemma RAlpha_continuous alpha s : RAlpha alpha = Ok s -> continuous_system s.
Proof.
  intros H. split; [eapply RAlpha_sign_correct; eauto|]. apply RAlpha_ok in H as [Ha ->].
  apply (rooted_system _ (1 / (1 + alpha)) (fun a b => sqrt (Dalpha alpha a b)) (Dalpha alpha) 2); auto.
  - intros; apply sqrt_pos.
  - intros. rewrite <- (sqrt_sqrt (Dalpha alpha a b)) at 2 by (apply Dalpha_nonneg; auto). ring.
  - intros. unfold Dalpha. c2.
  - intros. apply ralpha_conj_ok; auto.
  - intros. apply ralpha_disj_ok; auto.
Qed.

Lemma RAlpha_normalized alpha s : RAlpha alpha = Ok s -> normalized_system s.
Proof.
  intros H. destruct (RAlpha_demorgan alpha s H) as [DM Cm].
  apply normalized_of; auto; [eapply RAlpha_continuous; eauto|]. apply RAlpha_ok in H as [Ha ->].
  intros a b Hb L. cbn [conj_]. rewrite ralpha_conj_ok by auto. eexists. split; [reflexivity|].
  unfold ralpha_conj_v. pose proof (Dalpha_nonneg alpha a b Ha) as P.
  pose proof (sqrt_pos (Dalpha alpha a b)) as Ps. pose proof (sqrt_sqrt _ P) as Q.
  unfold Dalpha in Q at 3. set (r := sqrt (Dalpha alpha a b)) in *.
  assert (La : - (b / 2) <= a <= b / 2) by (apply Rabs_le_between; auto).
  assert (Lal : b / 2 <= b - alpha * a) by nra.
  assert (Hq : 0 < b - alpha * a + r) by lra.
  assert (E : 1 / (1 + alpha) * (a + b - r) - a = (alpha - 1) * (a * a) / (b - alpha * a + r)).
  { apply Rmult_eq_reg_r with ((1 + alpha) * (b - alpha * a + r)); [|nra]. field_simplify; [|lra|lra]. nra. }
  rewrite E. unfold Rdiv. rewrite Rabs_mult, Rabs_mult, (Rabs_right (a * a)) by (apply Rle_ge, Rle_0_sqr).
  rewrite (Rabs_right (/ _)) by (left; apply Rinv_0_lt_compat; auto).
  assert (I : / (b - alpha * a + r) <= 2 * / b).
  { replace (2 * / b) with (/ (b / 2)) by (field; lra). apply Rinv_le_contravar; lra. }
  assert (A : Rabs (alpha - 1) <= 2) by (apply Rabs_le; lra).
  pose proof (Rle_0_sqr a) as S. unfold Rsqr in S. pose proof (Rabs_pos (alpha - 1)).
  assert (0 < / (b - alpha * a + r)) by (apply Rinv_0_lt_compat; auto).
  replace (4 * (a * a) * / b) with (2 * (a * a) * (2 * / b)) by ring.
  apply Rmult_le_compat; try nra.
Qed.

Lemma rp_value n : (1 <= n)%nat -> exists r : R -> R -> R,
  (forall a b, rp_root (2 * Z.of_nat n) a b = Ok (r a b)) /\ (forall a b, 0 <= r a b) /\
  (forall a b, r a b ^ (2 * n) = a ^ (2 * n) + b ^ (2 * n)).
Proof.
  intros Hn. exists (fun a b => match rp_root (2 * Z.of_nat n) a b with Ok v => v | Err _ => 0 end).
  split; [|split]; intros a b; destruct (rp_root_spec n a b Hn) as (s & E & P & Q); rewrite E; auto.
Qed.

Lemma RP_continuous p s : RP p = Ok s -> (2 <= p)%Z -> continuous_system s.
Proof.
  intros H Hp. split; [eapply RP_sign_correct; eauto|]. apply RP_ok in H as [Ev ->].
  destruct (even_nat p Hp Ev) as (n & Hn & ->). destruct (rp_value n Hn) as (r & E & P & Q).
  apply (rooted_system _ 1 r (fun a b => a ^ (2 * n) + b ^ (2 * n)) (2 * n)); auto; [lia| | |].
  - intros. c2.
  - intros. cbn [conj_]. unfold rp_conj. rewrite E. cbn [bind]. f_equal. ring.
  - intros. cbn [disj_]. unfold rp_disj. rewrite E. cbn [bind]. f_equal. ring.
Qed.

Lemma RP_normalized p s : RP p = Ok s -> (2 <= p)%Z -> normalized_system s.
Proof.
  intros H Hp. destruct (RP_demorgan p s H) as [DM Cm].
  apply normalized_of; auto; [eapply RP_continuous; eauto|].
  intros a b Hb L. destruct (RP_normal_order p s H Hp a b Hb) as (c & Ec & B). exists c. split; auto.
  apply RP_ok in H as [Ev ->]. destruct (even_nat p Hp Ev) as (n & Hn & ->).
  replace (Z.to_nat (2 * Z.of_nat n)) with (2 * n)%nat in B by lia.
  assert (I1 : 1 <= IZR (2 * Z.of_nat n)) by (apply IZR_le; lia).
  rewrite <- (even_pow_abs n a) in B. destruct n as [|k]; [lia|].
  replace (2 * S k)%nat with (S (S (2 * k))) in B by lia.
  replace (S (S (2 * k)) - 1)%nat with (S (2 * k)) in B by lia. cbn [pow] in B.
  pose proof (Rabs_pos a). assert (Pb : 0 < b ^ (2 * k)) by (apply pow_lt; auto).
  assert (Pa : Rabs a ^ (2 * k) <= b ^ (2 * k)) by (apply pow_incr; lra).
  assert (Pa0 : 0 <= Rabs a ^ (2 * k)) by (apply pow_le; auto).
  assert (Q : Rabs a * Rabs a = a * a) by (rewrite <- Rabs_mult; apply Rabs_right, Rle_ge, Rle_0_sqr).
  set (I := IZR (2 * Z.of_nat (S k))) in *. set (u := Rabs a ^ (2 * k)) in *. set (w := b ^ (2 * k)) in *.
  assert (Pw : 0 < I * (b * w)) by (apply Rmult_lt_0_compat; [lra|apply Rmult_lt_0_compat; auto]).
  assert (K : Rabs a * (Rabs a * u) / (I * (b * w)) <= 4 * (a * a) / b).
  { rewrite <- Rmult_assoc, Q. apply Rle_trans with (a * a / b).
    - apply Rmult_le_reg_r with (I * (b * w)); [exact Pw|].
      unfold Rdiv. rewrite Rmult_assoc, Rinv_l by (apply Rgt_not_eq; exact Pw).
      replace (a * a * / b * (I * (b * w))) with (a * a * (I * w)) by (field; lra).
      rewrite Rmult_1_r. pose proof (Rle_0_sqr a) as S. unfold Rsqr in S. apply Rmult_le_compat_l; auto.
      apply Rle_trans with (1 * w); [lra|]. apply Rmult_le_compat_r; lra.
    - unfold Rdiv. apply Rmult_le_compat_r; [left; apply Rinv_0_lt_compat; auto|].
      pose proof (Rle_0_sqr a) as S. unfold Rsqr in S. lra. }
  apply Rabs_le. lra.
Qed.
