(** Proofs: error of integrate_disk and integrate_sphere. *)
From Coquelicot Require Import Coquelicot.
From Verif Require Import Base BaseFacts S_RFun P_Vec M_Integrate S_Integrate S_IntErr P_Integrate1 P_Integrate2 P_Integrate3 P_Integrate4 T_Integrate T_IntErr S_IntPolar.

Lemma mul_lip a b a' b' A B : Rabs a' <= A -> Rabs b <= B -> Rabs (a * b - a' * b') <= Rabs (a - a') * B + A * Rabs (b - b').
Proof.
  intros Ha Hb. replace (a * b - a' * b') with ((a - a') * b + a' * (b - b')) by ring.
  eapply Rle_trans; [apply Rabs_triang|]. rewrite !Rabs_mult.
  pose proof (Rabs_pos (a - a')). pose proof (Rabs_pos (b - b')).
  apply Rplus_le_compat; [apply Rmult_le_compat_l|apply Rmult_le_compat_r]; auto.
Qed.
Lemma sin_lip x y : Rabs (sin x - sin y) <= Rabs (x - y).
Proof.
  destruct (Req_dec x y) as [->|N]; [rewrite !Rminus_diag_eq, Rabs_R0 by auto; lra|].
  destruct (MVT_gen sin x y cos) as (z & _ & Ez).
  - intros t _. auto_derive; auto. ring.
  - intros t _. apply continuity_sin.
  - rewrite <- (Rabs_Ropp (sin x - sin y)), <- (Rabs_Ropp (x - y)).
    replace (- (sin x - sin y)) with (cos z * (y - x)) by lra. replace (- (x - y)) with (y - x) by ring.
    rewrite Rabs_mult. rewrite <- (Rmult_1_l (Rabs (y - x))) at 2. apply Rmult_le_compat_r; [apply Rabs_pos|].
    apply Rabs_le. apply COS_bound.
Qed.
Lemma cos_lip x y : Rabs (cos x - cos y) <= Rabs (x - y).
Proof.
  rewrite !cos_sin. eapply Rle_trans; [apply sin_lip|]. right. f_equal. ring.
Qed.
Lemma sin_abs x : Rabs (sin x) <= 1. Proof. apply Rabs_le. apply SIN_bound. Qed.
Lemma cos_abs x : Rabs (cos x) <= 1. Proof. apply Rabs_le. apply COS_bound. Qed.

Lemma steps_weaken h h' d : h <= h' -> steps_at_most h d -> steps_at_most h' d.
Proof.
  intros H. induction d as [|a [|b t] IH]; [auto|auto|]. intros [H1 H2]. split; [lra|]. apply IH. exact H2.
Qed.
Lemma linspace_grid a b n h : a <= b -> (2 <= n)%nat -> (b - a) / INR (n - 1) <= h ->
  (2 <= length (linspace a b n))%nat /\ nondecreasing (linspace a b n) /\ steps_at_most h (linspace a b n).
Proof.
  intros H Hn Hh. rewrite linspace_length. split; auto. split; [apply linspace_nondecreasing; auto|].
  eapply steps_weaken; [exact Hh|]. apply linspace_steps; auto.
Qed.

(** *** disk *)
Lemma disk_point_norm o1 o2 rho phi : 0 <= rho -> normR (map2 Rminus (disk_point o1 o2 rho phi) [o1; o2]) = rho.
Proof.
  intros H. unfold disk_point. cbn [map2]. rewrite normR_sumsq. unfold sumsq. cbn [map sumR fold_right].
  replace (_ + _) with (rho ^ 2 * (sin phi ^ 2 + cos phi ^ 2)) by ring.
  rewrite <- !Rsqr_pow2, sin2_cos2, Rmult_1_r. apply sqrt_Rsqr; auto.
Qed.
Lemma disk_lip F o1 o2 rin r L B rho phi rho' phi' : 0 <= rin -> 0 <= L -> tame F [o1; o2] rin r L B ->
  rin <= rho <= r -> rin <= rho' <= r ->
  Rabs (F (disk_point o1 o2 rho phi) * rho - F (disk_point o1 o2 rho' phi') * rho') <=
  (2 * L * r * (1 + r) + B) * (Rabs (rho - rho') + Rabs (phi - phi')).
Proof.
  intros H0 HL [HB HF] H1 H2.
  assert (N1 : length (disk_point o1 o2 rho phi) = length [o1; o2] /\ rin <= normR (map2 Rminus (disk_point o1 o2 rho phi) [o1; o2]) <= r)
    by (split; [reflexivity|]; rewrite disk_point_norm; lra).
  assert (N2 : length (disk_point o1 o2 rho' phi') = length [o1; o2] /\ rin <= normR (map2 Rminus (disk_point o1 o2 rho' phi') [o1; o2]) <= r)
    by (split; [reflexivity|]; rewrite disk_point_norm; lra).
  specialize (HF _ _ N1 N2). pose proof (HB _ N2) as HB2.
  assert (B0 : 0 <= B) by (eapply Rle_trans; [apply Rabs_pos|apply HB2]).
  assert (D : sumR (map2 (fun x y => Rabs (x - y)) (disk_point o1 o2 rho phi) (disk_point o1 o2 rho' phi')) <=
    2 * Rabs (rho - rho') + 2 * r * Rabs (phi - phi')).
  { unfold disk_point. cbn [map2 sumR fold_right].
    pose proof (mul_lip rho (cos phi) rho' (cos phi') r 1 ltac:(rewrite Rabs_right; lra) (cos_abs _)) as Q1.
    pose proof (mul_lip rho (sin phi) rho' (sin phi') r 1 ltac:(rewrite Rabs_right; lra) (sin_abs _)) as Q2.
    pose proof (Rmult_le_compat_l r _ _ ltac:(lra) (cos_lip phi phi')) as Q3.
    pose proof (Rmult_le_compat_l r _ _ ltac:(lra) (sin_lip phi phi')) as Q4.
    replace (rho * cos phi + o1 - (rho' * cos phi' + o1)) with (rho * cos phi - rho' * cos phi') by ring.
    replace (rho * sin phi + o2 - (rho' * sin phi' + o2)) with (rho * sin phi - rho' * sin phi') by ring. lra. }
  eapply Rle_trans; [apply (mul_lip _ _ _ _ B r); [auto|rewrite Rabs_right; lra]|].
  pose proof (Rmult_le_compat_l L _ _ HL D) as Q5. set (a := Rabs (rho - rho')) in *. set (b := Rabs (phi - phi')) in *.
  assert (a0 : 0 <= a) by apply Rabs_pos. assert (b0 : 0 <= b) by apply Rabs_pos.
  pose proof (Rmult_le_compat_r r _ _ ltac:(lra) (Rle_trans _ _ _ HF Q5)) as Q6.
  assert (R0 : 0 <= r) by lra.
  assert (P1 : 0 <= L * r * b) by (repeat apply Rmult_le_pos; auto).
  assert (P2 : 0 <= L * r * r * a) by (repeat apply Rmult_le_pos; auto).
  assert (P3 : 0 <= B * b) by (apply Rmult_le_pos; auto).
  eapply Rle_trans; [apply Rplus_le_compat_r, Q6|]. nra.
Qed.

Lemma disk_error rule K f F r o1 o2 n1 n2 rin p1 p2 h L B : library_rule rule K -> (2 <= n1)%nat -> (2 <= n2)%nat ->
  0 <= rin <= r -> p1 <= p2 -> 0 <= L -> tame F [o1; o2] rin r L B ->
  (forall p, length p = 2%nat -> f p = Ok (A0 (F p))) ->
  (r - rin) / INR (n1 - 1) <= h -> (p2 - p1) / INR (n2 - 1) <= h ->
  exists v, integrate_disk f r [o1; o2] (NTup [n1; n2]) rin p1 p2 rule = Ok (A0 v) /\
    Rabs (v - disk_integral F o1 o2 rin r p1 p2) <= 2 * ((2 * L * r * (1 + r) + B) * h * ((r - rin) * (p2 - p1))).
Proof.
  intros HR H1 H2 Hr Hp HL HT Hf Hh1 Hh2.
  set (G := fun u : list R => F (disk_point o1 o2 (nth 0 u 0) (nth 1 u 0)) * nth 0 u 0).
  assert (B0 : 0 <= B).
  { destruct HT as [HB _]. eapply Rle_trans; [apply Rabs_pos|apply (HB (disk_point o1 o2 r 0))].
    split; [reflexivity|]. rewrite disk_point_norm; lra. }
  assert (L0 : 0 <= 2 * L * r * (1 + r) + B).
  { assert (0 <= 2 * L * r * (1 + r)); [|lra]. repeat apply Rmult_le_pos; lra. }
  destruct (quadrature_error_nd rule K [linspace rin r n1; linspace p1 p2 n2] (disk_integrand f [o1; o2]) G h (2 * L * r * (1 + r) + B)) as (v & E & Bv); auto.
  - constructor; [|constructor; [|constructor]]; apply linspace_grid; auto; lra.
  - intros p Hlen. destruct p as [|rho [|phi [|? ?]]]; try discriminate Hlen. unfold disk_integrand. cbn [bcast1 length Nat.eqb bind map2].
    rewrite Hf by reflexivity. reflexivity.
  - unfold covered. cbn [map]. rewrite !linspace_first, !linspace_final by auto. intros p q Hp' Hq'.
    inversion Hp' as [|? rho ? ? Q1 Hp1]; subst. inversion Hp1 as [|? phi ? ? Q2 Hp2]; subst. inversion Hp2; subst.
    inversion Hq' as [|? rho' ? ? Q3 Hq1]; subst. inversion Hq1 as [|? phi' ? ? Q4 Hq2]; subst. inversion Hq2; subst.
    unfold G. cbn [nth map2 sumR fold_right fst snd] in *. rewrite Rplus_0_r.
    apply (disk_lip F o1 o2 rin r L B); auto; lra.
  - exists v. split; [exact E|]. unfold covered in Bv. cbn [map] in Bv. rewrite !linspace_first, !linspace_final in Bv by auto.
    replace (INR (length [linspace rin r n1; linspace p1 p2 n2])) with 2 in Bv by reflexivity.
    unfold volume in Bv. cbn [map prodR fold_right fst snd] in Bv. rewrite Rmult_1_r in Bv. exact Bv.
Qed.

(** *** sphere *)
Lemma ball_point_norm o1 o2 o3 rho phi theta : 0 <= rho -> normR (map2 Rminus (ball_point o1 o2 o3 rho phi theta) [o1; o2; o3]) = rho.
Proof.
  intros H. unfold ball_point. cbn [map2]. rewrite normR_sumsq. unfold sumsq. cbn [map sumR fold_right].
  replace (_ + _) with (rho ^ 2 * (sin phi ^ 2 * (sin theta ^ 2 + cos theta ^ 2) + cos phi ^ 2)) by ring.
  rewrite <- !Rsqr_pow2, sin2_cos2, Rmult_1_r, sin2_cos2, Rmult_1_r. apply sqrt_Rsqr; auto.
Qed.
Lemma ball_lip F o1 o2 o3 rin r L B rho phi theta rho' phi' theta' : 0 <= rin -> 0 <= L -> tame F [o1; o2; o3] rin r L B ->
  rin <= rho <= r -> rin <= rho' <= r ->
  Rabs (F (ball_point o1 o2 o3 rho phi theta) * (rho ^ 2 * sin phi) - F (ball_point o1 o2 o3 rho' phi' theta') * (rho' ^ 2 * sin phi')) <=
  (3 * L * r ^ 2 * (1 + r) + B * (2 * r + r ^ 2)) * (Rabs (rho - rho') + (Rabs (phi - phi') + Rabs (theta - theta'))).
Proof.
  intros H0 HL [HB HF] H1 H2.
  assert (N1 : length (ball_point o1 o2 o3 rho phi theta) = length [o1; o2; o3] /\ rin <= normR (map2 Rminus (ball_point o1 o2 o3 rho phi theta) [o1; o2; o3]) <= r)
    by (split; [reflexivity|]; rewrite ball_point_norm; lra).
  assert (N2 : length (ball_point o1 o2 o3 rho' phi' theta') = length [o1; o2; o3] /\ rin <= normR (map2 Rminus (ball_point o1 o2 o3 rho' phi' theta') [o1; o2; o3]) <= r)
    by (split; [reflexivity|]; rewrite ball_point_norm; lra).
  specialize (HF _ _ N1 N2). pose proof (HB _ N2) as HB2.
  assert (B0 : 0 <= B) by (eapply Rle_trans; [apply Rabs_pos|apply HB2]).
  assert (R0 : 0 <= r) by lra.
  assert (Rr : Rabs rho' <= r) by (rewrite Rabs_right; lra).
  set (a := Rabs (rho - rho')) in *. set (b := Rabs (phi - phi')) in *. set (c := Rabs (theta - theta')) in *.
  assert (a0 : 0 <= a) by apply Rabs_pos. assert (b0 : 0 <= b) by apply Rabs_pos. assert (c0 : 0 <= c) by apply Rabs_pos.
  assert (S1 : Rabs (rho * sin phi - rho' * sin phi') <= a + r * b).
  { eapply Rle_trans; [apply (mul_lip _ _ _ _ r 1); [auto|apply sin_abs]|]. fold a.
    pose proof (Rmult_le_compat_l r _ _ R0 (sin_lip phi phi')) as Q. fold b in Q. lra. }
  assert (S2 : Rabs (rho * cos phi - rho' * cos phi') <= a + r * b).
  { eapply Rle_trans; [apply (mul_lip _ _ _ _ r 1); [auto|apply cos_abs]|]. fold a.
    pose proof (Rmult_le_compat_l r _ _ R0 (cos_lip phi phi')) as Q. fold b in Q. lra. }
  assert (S3 : Rabs (rho' * sin phi') <= r).
  { rewrite Rabs_mult. rewrite <- (Rmult_1_r r). apply Rmult_le_compat; try apply Rabs_pos; auto. apply sin_abs. }
  assert (D : sumR (map2 (fun x y => Rabs (x - y)) (ball_point o1 o2 o3 rho phi theta) (ball_point o1 o2 o3 rho' phi' theta')) <=
    3 * a + 3 * r * b + 2 * r * c).
  { unfold ball_point. cbn [map2 sumR fold_right].
    pose proof (mul_lip (rho * sin phi) (cos theta) (rho' * sin phi') (cos theta') r 1 S3 (cos_abs _)) as Q1.
    pose proof (mul_lip (rho * sin phi) (sin theta) (rho' * sin phi') (sin theta') r 1 S3 (sin_abs _)) as Q2.
    pose proof (Rmult_le_compat_l r _ _ R0 (cos_lip theta theta')) as Q3.
    pose proof (Rmult_le_compat_l r _ _ R0 (sin_lip theta theta')) as Q4. fold c in Q3, Q4.
    match goal with |- Rabs ?x + (Rabs ?y + (Rabs ?z + 0)) <= _ =>
      replace x with (rho * sin phi * cos theta - rho' * sin phi' * cos theta') by ring;
      replace y with (rho * sin phi * sin theta - rho' * sin phi' * sin theta') by ring;
      replace z with (rho * cos phi - rho' * cos phi') by ring end. lra. }
  assert (W : Rabs (rho ^ 2 * sin phi - rho' ^ 2 * sin phi') <= 2 * r * a + r ^ 2 * b).
  { replace (rho ^ 2 * sin phi - rho' ^ 2 * sin phi') with (rho * (rho * sin phi) - rho' * (rho' * sin phi')) by ring.
    eapply Rle_trans; [apply (mul_lip _ _ _ _ r r); [auto|]|].
    - rewrite Rabs_mult. rewrite <- (Rmult_1_r r). apply Rmult_le_compat; try apply Rabs_pos; [rewrite Rabs_right; lra|apply sin_abs].
    - fold a. pose proof (Rmult_le_compat_l r _ _ R0 S1) as Q. lra. }
  assert (W0 : Rabs (rho ^ 2 * sin phi) <= r ^ 2).
  { rewrite Rabs_mult. rewrite <- (Rmult_1_r (r ^ 2)). apply Rmult_le_compat; try apply Rabs_pos; [|apply sin_abs].
    rewrite Rabs_right by nra. apply pow_incr; lra. }
  eapply Rle_trans; [apply (mul_lip _ _ _ _ B (r ^ 2)); [exact HB2|exact W0]|].
  pose proof (Rmult_le_compat_r (r ^ 2) _ _ (pow_le r 2 R0) (Rle_trans _ _ _ HF (Rmult_le_compat_l L _ _ HL D))) as Q6.
  pose proof (Rmult_le_compat_l B _ _ B0 W) as Q7.
  eapply Rle_trans; [apply Rplus_le_compat; [exact Q6|exact Q7]|].
  assert (E2 : 0 <= r ^ 2) by (apply pow_le; auto).
  assert (U : 0 <= L * r ^ 2) by (apply Rmult_le_pos; auto).
  assert (Ua : 0 <= L * r ^ 2 * a) by (apply Rmult_le_pos; auto). assert (Ub : 0 <= L * r ^ 2 * b) by (apply Rmult_le_pos; auto).
  assert (Uc : 0 <= L * r ^ 2 * c) by (apply Rmult_le_pos; auto).
  assert (Va : 0 <= L * r ^ 2 * a * r) by (apply Rmult_le_pos; auto). assert (Vc : 0 <= L * r ^ 2 * c * r) by (apply Rmult_le_pos; auto).
  assert (Wa : 0 <= B * r ^ 2 * a) by (repeat apply Rmult_le_pos; auto; lra). assert (Wb : 0 <= B * r * b) by (repeat apply Rmult_le_pos; auto; lra).
  assert (Wc : 0 <= B * r * c) by (repeat apply Rmult_le_pos; auto; lra). assert (Wd : 0 <= B * r ^ 2 * c) by (repeat apply Rmult_le_pos; auto; lra).
  lra.
Qed.

Lemma ball_error rule K f F r o1 o2 o3 n1 n2 n3 rin p1 p2 t1 t2 h L B : library_rule rule K -> (2 <= n1)%nat -> (2 <= n2)%nat -> (2 <= n3)%nat ->
  0 <= rin <= r -> p1 <= p2 -> t1 <= t2 -> 0 <= L -> tame F [o1; o2; o3] rin r L B ->
  (forall p, length p = 3%nat -> f p = Ok (A0 (F p))) ->
  (r - rin) / INR (n1 - 1) <= h -> (p2 - p1) / INR (n2 - 1) <= h -> (t2 - t1) / INR (n3 - 1) <= h ->
  exists v, integrate_sphere f r [o1; o2; o3] (NTup [n1; n2; n3]) rin p1 p2 t1 t2 rule = Ok (A0 v) /\
    Rabs (v - ball_integral F o1 o2 o3 rin r p1 p2 t1 t2) <=
    3 * ((3 * L * r ^ 2 * (1 + r) + B * (2 * r + r ^ 2)) * h * ((r - rin) * ((p2 - p1) * (t2 - t1)))).
Proof.
  intros HR H1 H2 H3 Hr Hp Ht HL HT Hf Hh1 Hh2 Hh3.
  set (G := fun u : list R => F (ball_point o1 o2 o3 (nth 0 u 0) (nth 1 u 0) (nth 2 u 0)) * (nth 0 u 0 ^ 2 * sin (nth 1 u 0))).
  assert (B0 : 0 <= B).
  { destruct HT as [HB _]. eapply Rle_trans; [apply Rabs_pos|apply (HB (ball_point o1 o2 o3 r 0 0))].
    split; [reflexivity|]. rewrite ball_point_norm; lra. }
  assert (L0 : 0 <= 3 * L * r ^ 2 * (1 + r) + B * (2 * r + r ^ 2)).
  { assert (0 <= r ^ 2) by (apply pow_le; lra).
    apply Rplus_le_le_0_compat; repeat apply Rmult_le_pos; lra. }
  destruct (quadrature_error_nd rule K [linspace rin r n1; linspace p1 p2 n2; linspace t1 t2 n3] (sphere_integrand f [o1; o2; o3]) G h (3 * L * r ^ 2 * (1 + r) + B * (2 * r + r ^ 2))) as (v & E & Bv); auto.
  - simpl; lia.
  - constructor; [|constructor; [|constructor; [|constructor]]]; apply linspace_grid; auto; lra.
  - intros p Hlen. destruct p as [|rho [|phi [|theta [|? ?]]]]; try discriminate Hlen. unfold sphere_integrand. cbn [bcast1 length Nat.eqb bind map2].
    rewrite Hf by reflexivity. unfold G, ball_point. cbn [bind amap nth]. rewrite Rmult_assoc. reflexivity.
  - unfold covered. cbn [map]. rewrite !linspace_first, !linspace_final by auto. intros p q Hp' Hq'.
    inversion Hp' as [|? rho ? ? Q1 Hp1]; subst. inversion Hp1 as [|? phi ? ? Q2 Hp2]; subst. inversion Hp2 as [|? theta ? ? Q2' Hp3]; subst. inversion Hp3; subst.
    inversion Hq' as [|? rho' ? ? Q3 Hq1]; subst. inversion Hq1 as [|? phi' ? ? Q4 Hq2]; subst. inversion Hq2 as [|? theta' ? ? Q4' Hq3]; subst. inversion Hq3; subst.
    unfold G. cbn [nth map2 sumR fold_right fst snd] in *. rewrite Rplus_0_r.
    apply (ball_lip F o1 o2 o3 rin r L B); auto; lra.
  - exists v. split; [exact E|]. unfold covered in Bv. cbn [map] in Bv. rewrite !linspace_first, !linspace_final in Bv by auto.
    replace (INR (length [linspace rin r n1; linspace p1 p2 n2; linspace t1 t2 n3])) with 3 in Bv by (simpl; lra).
    unfold volume in Bv. cbn [map prodR fold_right fst snd] in Bv. rewrite Rmult_1_r in Bv. exact Bv.
Qed.

(** *** convergence *)
Lemma steps_vanish D C eps : 0 <= C -> 0 < eps -> exists N, (2 <= N)%nat /\ forall n, (N <= n)%nat ->
  C * (Rabs D / INR (n - 1)) < eps.
Proof.
  intros HC He. destruct (nfloor_ex (C * Rabs D / eps)) as [N [_ HN]].
  { apply Rmult_le_pos; [apply Rmult_le_pos; [auto|apply Rabs_pos]|left; apply Rinv_0_lt_compat; auto]. }
  exists (N + 2)%nat. split; [lia|]. intros n Hn.
  assert (Q : INR N + 1 <= INR (n - 1)) by (rewrite <- S_INR; apply le_INR; lia).
  assert (P : 0 < INR (n - 1)) by (apply lt_0_INR; lia).
  apply (Rmult_lt_reg_r (INR (n - 1))); auto. replace (C * (Rabs D / INR (n - 1)) * INR (n - 1)) with (C * Rabs D / eps * eps) by (field; split; lra).
  rewrite (Rmult_comm eps). apply Rmult_lt_compat_r; lra.
Qed.
Lemma step_mono a D m : a <= D -> 0 < m -> a / m <= D / m.
Proof. intros H Hm. apply Rmult_le_compat_r; [left; apply Rinv_0_lt_compat; auto|auto]. Qed.

Lemma disk_converges rule K f F r o1 o2 rin p1 p2 L B eps :
  library_rule rule K -> 0 <= rin <= r -> p1 <= p2 -> 0 <= L -> tame F [o1; o2] rin r L B ->
  (forall p, length p = 2%nat -> f p = Ok (A0 (F p))) -> 0 < eps ->
  exists N, forall n, (N <= n)%nat ->
  exists v, integrate_disk f r [o1; o2] (NInt n) rin p1 p2 rule = Ok (A0 v) /\
    Rabs (v - disk_integral F o1 o2 rin r p1 p2) < eps.
Proof.
  intros HR Hr Hp HL HT Hf He.
  set (C := 2 * ((2 * L * r * (1 + r) + B) * ((r - rin) * (p2 - p1)))). set (D := (r - rin) + (p2 - p1)).
  destruct (steps_vanish D (Rabs C) eps) as (N & N2 & HN); [apply Rabs_pos|auto|].
  exists N. intros n Hn. specialize (HN n Hn). rewrite (Rabs_right D) in HN by (unfold D; lra).
  assert (P : 0 < INR (n - 1)) by (apply lt_0_INR; lia).
  destruct (disk_error rule K f F r o1 o2 n n rin p1 p2 (D / INR (n - 1)) L B) as (v & E & Ev); auto; try lia;
    try (apply step_mono; [unfold D; lra|auto]).
  exists v. split; [exact E|]. eapply Rle_lt_trans; [exact Ev|]. eapply Rle_lt_trans; [|exact HN].
  apply Rle_trans with (C * (D / INR (n - 1))); [right; unfold C; ring|].
  apply Rmult_le_compat_r; [|apply Rle_abs]. apply Rmult_le_pos; [unfold D; lra|left; apply Rinv_0_lt_compat; auto].
Qed.
Lemma ball_converges rule K f F r o1 o2 o3 rin p1 p2 t1 t2 L B eps :
  library_rule rule K -> 0 <= rin <= r -> p1 <= p2 -> t1 <= t2 -> 0 <= L -> tame F [o1; o2; o3] rin r L B ->
  (forall p, length p = 3%nat -> f p = Ok (A0 (F p))) -> 0 < eps ->
  exists N, forall n, (N <= n)%nat ->
  exists v, integrate_sphere f r [o1; o2; o3] (NInt n) rin p1 p2 t1 t2 rule = Ok (A0 v) /\
    Rabs (v - ball_integral F o1 o2 o3 rin r p1 p2 t1 t2) < eps.
Proof.
  intros HR Hr Hp Ht HL HT Hf He.
  set (C := 3 * ((3 * L * r ^ 2 * (1 + r) + B * (2 * r + r ^ 2)) * ((r - rin) * ((p2 - p1) * (t2 - t1))))). set (D := (r - rin) + (p2 - p1) + (t2 - t1)).
  destruct (steps_vanish D (Rabs C) eps) as (N & N2 & HN); [apply Rabs_pos|auto|].
  exists N. intros n Hn. specialize (HN n Hn). rewrite (Rabs_right D) in HN by (unfold D; lra).
  assert (P : 0 < INR (n - 1)) by (apply lt_0_INR; lia).
  destruct (ball_error rule K f F r o1 o2 o3 n n n rin p1 p2 t1 t2 (D / INR (n - 1)) L B) as (v & E & Ev); auto; try lia;
    try (apply step_mono; [unfold D; lra|auto]).
  exists v. split; [exact E|]. eapply Rle_lt_trans; [exact Ev|]. eapply Rle_lt_trans; [|exact HN].
  apply Rle_trans with (C * (D / INR (n - 1))); [right; unfold C; ring|].
  apply Rmult_le_compat_r; [|apply Rle_abs]. apply Rmult_le_pos; [unfold D; lra|left; apply Rinv_0_lt_compat; auto].
Qed.

Lemma entry_le_norm v x : In x v -> Rabs x <= normR v.
Proof.
  intros H. rewrite normR_sumsq. rewrite <- sqrt_Rsqr_abs. apply sqrt_le_1_alt. unfold Rsqr.
  induction v as [|y v IH]; [destruct H|].
  rewrite sumsq_cons. pose proof (sumsq_nonneg v). pose proof (Rle_0_sqr y) as Q. unfold Rsqr in Q.
  destruct H as [->|H]; [lra|]. specialize (IH H). lra.
Qed.
Lemma disk_kink : tame (fun p => Rabs (nth 0 p 0 - 1)) [1; 3] 1 2 1 2.
Proof.
  split.
  - intros [|x [|y [|? ?]]] [Hl H]; try discriminate Hl. cbn [map2 nth] in *. rewrite Rabs_Rabsolu.
    eapply Rle_trans; [apply (entry_le_norm [x - 1; y - 3]); left; reflexivity|]. lra.
  - intros [|x [|y [|? ?]]] [|x' [|y' [|? ?]]] [Hl _] [Hl' _]; try discriminate Hl; try discriminate Hl'.
    cbn [map2 nth sumR fold_right]. pose proof (Rabs_pos (y - y')). pose proof (Rabs_triang_inv2 (x - 1) (x' - 1)) as Q.
    replace (x - 1 - (x' - 1)) with (x - x') in Q by ring. lra.
Qed.
Lemma ball_kink : tame (fun p => Rabs (nth 2 p 0 - 1)) [0; 0; 1] 0 3 1 3.
Proof.
  split.
  - intros [|x [|y [|z [|? ?]]]] [Hl H]; try discriminate Hl. cbn [map2 nth] in *. rewrite Rabs_Rabsolu.
    eapply Rle_trans; [apply (entry_le_norm [x - 0; y - 0; z - 1]); right; right; left; reflexivity|]. lra.
  - intros [|x [|y [|z [|? ?]]]] [|x' [|y' [|z' [|? ?]]]] [Hl _] [Hl' _]; try discriminate Hl; try discriminate Hl'.
    cbn [map2 nth sumR fold_right]. pose proof (Rabs_pos (x - x')). pose proof (Rabs_pos (y - y')). pose proof (Rabs_triang_inv2 (z - 1) (z' - 1)) as Q.
    replace (z - 1 - (z' - 1)) with (z - z') in Q by ring. lra.
Qed.
