(** Proofs about the quaternion model. *)
From Verif Require Import Base BaseFacts M_Quat S_Quat.

Lemma vec3_eq u v : v1 u = v1 v -> v2 u = v2 v -> v3 u = v3 v -> u = v.
Proof. destruct u, v; simpl; intros; subst; reflexivity. Qed.

Lemma quat_eq p q : real p = real q -> v1 (imag p) = v1 (imag q) ->
  v2 (imag p) = v2 (imag q) -> v3 (imag p) = v3 (imag q) -> p = q.
Proof. destruct p as [a [x y z]], q as [a' [x' y' z']]; simpl; intros; subst; reflexivity. Qed.

Ltac vunf := unfold vadd3, vsub3, vneg3, vscal3, vadds3, vsubs3, dot3, cross3, zero3 in *; simpl in *.
Ltac qring := apply quat_eq; simpl; vunf; ring.
Ltac qfield := apply quat_eq; simpl; vunf; field; auto.

Lemma q_mul_hamilton p q : coords (q_mul p (OQ q)) = hamilton (coords p) (coords q).
Proof.
  unfold coords, hamilton. simpl. vunf. f_equal; [f_equal; [f_equal|]|]; ring.
Qed.

Lemma q_mul_assoc p q r :
  q_mul (q_mul p (OQ q)) (OQ r) = q_mul p (OQ (q_mul q (OQ r))).
Proof. qring. Qed.

Lemma q_mul_add_r p q r :
  q_mul p (OQ (q_add q (OQ r))) = q_add (q_mul p (OQ q)) (OQ (q_mul p (OQ r))).
Proof. qring. Qed.
Lemma q_mul_add_l p q r :
  q_mul (q_add p (OQ q)) (OQ r) = q_add (q_mul p (OQ r)) (OQ (q_mul q (OQ r))).
Proof. qring. Qed.
Lemma q_mul_sub_r p q r :
  q_mul p (OQ (q_sub q (OQ r))) = q_sub (q_mul p (OQ q)) (OQ (q_mul p (OQ r))).
Proof. qring. Qed.
Lemma q_mul_sub_l p q r :
  q_mul (q_sub p (OQ q)) (OQ r) = q_sub (q_mul p (OQ r)) (OQ (q_mul q (OQ r))).
Proof. qring. Qed.
Lemma q_mul_1_l q : q_mul q_one (OQ q) = q.
Proof. qring. Qed.
Lemma q_mul_1_r q : q_mul q (OQ q_one) = q.
Proof. qring. Qed.
Lemma q_conj_mul p q : q_conj (q_mul p (OQ q)) = q_mul (q_conj q) (OQ (q_conj p)).
Proof. qring. Qed.

Definition nsq (q : quat) : R := real q * real q + dot3 (imag q) (imag q).

Lemma dot3_nonneg v : 0 <= dot3 v v.
Proof. vunf. nra. Qed.
Lemma nsq_nonneg q : 0 <= nsq q.
Proof. unfold nsq. pose proof (dot3_nonneg (imag q)). nra. Qed.
Lemma q_abs_nsq q : q_abs q = sqrt (nsq q).
Proof. unfold q_abs, nsq. f_equal. simpl. ring. Qed.
Lemma q_abs_sq q : q_abs q ^ 2 = nsq q.
Proof. rewrite q_abs_nsq. simpl. rewrite Rmult_1_r. apply sqrt_sqrt, nsq_nonneg. Qed.
Lemma q_abs_nonneg q : 0 <= q_abs q.
Proof. rewrite q_abs_nsq. apply sqrt_pos. Qed.

Lemma nsq_mul p q : nsq (q_mul p (OQ q)) = nsq p * nsq q.
Proof. unfold nsq; simpl; vunf; ring. Qed.

Lemma q_abs_mul p q : q_abs (q_mul p (OQ q)) = q_abs p * q_abs q.
Proof. rewrite !q_abs_nsq, nsq_mul. apply sqrt_mult; apply nsq_nonneg. Qed.

Lemma nsq_0 q : nsq q = 0 <-> q = zero_quaternion.
Proof.
  split.
  - intros H. unfold nsq in H. destruct q as [a [x y z]]. vunf.
    assert (a = 0) by nra. assert (x = 0) by nra. assert (y = 0) by nra. assert (z = 0) by nra.
    subst; reflexivity.
  - intros ->. unfold nsq; simpl; vunf; ring.
Qed.

Lemma nsq_neq_0 q : q <> zero_quaternion -> nsq q <> 0.
Proof. rewrite <- nsq_0; auto. Qed.

Lemma q_reciprocal_ok q : nsq q <> 0 ->
  q_reciprocal q = Ok (q_mul (q_conj q) (OS (1 / nsq q))).
Proof.
  intros H. unfold q_reciprocal, fdiv. rewrite q_abs_sq.
  destruct (Req_EM_T (nsq q) 0); [contradiction|reflexivity].
Qed.

Lemma q_recip_r q : nsq q <> 0 -> q_mul q (OQ (q_mul (q_conj q) (OS (1 / nsq q)))) = q_one.
Proof. intros H. unfold nsq in *. qfield. Qed.
Lemma q_recip_l q : nsq q <> 0 -> q_mul (q_mul (q_conj q) (OS (1 / nsq q))) (OQ q) = q_one.
Proof. intros H. unfold nsq in *. qfield. Qed.

Lemma reciprocal_spec q : q <> zero_quaternion ->
  exists i, q_reciprocal q = Ok i /\ q_mul q (OQ i) = q_one /\ q_mul i (OQ q) = q_one.
Proof.
  intros H. apply nsq_neq_0 in H. eexists; split; [apply q_reciprocal_ok; auto|].
  split; [apply q_recip_r|apply q_recip_l]; auto.
Qed.

Lemma reciprocal_zero : q_reciprocal zero_quaternion = Err NonFinite.
Proof.
  unfold q_reciprocal, fdiv. rewrite q_abs_sq.
  destruct (Req_EM_T (nsq zero_quaternion) 0) as [|n]; [reflexivity|].
  exfalso; apply n. apply nsq_0; reflexivity.
Qed.

Lemma right_div_spec p q : q <> zero_quaternion ->
  exists d, quaternion_right_div p q = Ok d /\ q_mul d (OQ q) = p /\ q_truediv p (OQ q) = Ok d.
Proof.
  intros H. destruct (reciprocal_spec q H) as (i & Hi & Hr & Hl).
  unfold quaternion_right_div. exists (q_mul p (OQ i)).
  cbn [q_truediv]. unfold quaternion_right_div. rewrite Hi. cbn [bind].
  repeat split. rewrite q_mul_assoc, Hl. apply q_mul_1_r.
Qed.
Lemma left_div_spec p q : q <> zero_quaternion ->
  exists d, quaternion_left_div p q = Ok d /\ q_mul q (OQ d) = p.
Proof.
  intros H. destruct (reciprocal_spec q H) as (i & Hi & Hr & Hl).
  unfold quaternion_left_div. rewrite Hi. cbn [bind]. eexists; split; [reflexivity|].
  rewrite <- q_mul_assoc, Hr. apply q_mul_1_l.
Qed.

(** Mixed scalar operations *)
Lemma q_rsub_wrong : exists q s, q_rsub q s <> q_neg (q_sub q (OS s)).
Proof.
  exists (mkQ 0 (mk3 0 0 0)), 1. unfold q_rsub. simpl. intros H. inversion H. lra.
Qed.
Lemma q_rsub_eq q s : q_rsub q s = q_neg (q_sub q (OS s)) <-> q = mkQ s (mk3 s s s).
Proof.
  unfold q_rsub. destruct q as [a [x y z]]. cbn. unfold vneg3, vsubs3. cbn. split.
  - intros H. injection H as H1 H2 H3 H4. f_equal; [|f_equal]; lra.
  - intros H. injection H as -> -> -> ->. apply quat_eq; cbn; ring.
Qed.

(** Rotation *)
Lemma rotation_formula x q : nsq q <> 0 ->
  quaternion_rotation x q =
  Ok (vscal3 (1 / nsq q)
       (vadd3 (vadd3 (vscal3 (real q * real q - dot3 (imag q) (imag q)) x)
                     (vscal3 (2 * dot3 (imag q) x) (imag q)))
              (vscal3 (- 2 * real q) (cross3 (imag q) x)))).
Proof.
  intros H. unfold quaternion_rotation. rewrite q_reciprocal_ok; auto. cbn [bind]. f_equal.
  unfold nsq in *. apply vec3_eq; simpl; vunf; field; auto.
Qed.

Definition rotf (x : vec3) (q : quat) : vec3 :=
  vscal3 (1 / nsq q)
       (vadd3 (vadd3 (vscal3 (real q * real q - dot3 (imag q) (imag q)) x)
                     (vscal3 (2 * dot3 (imag q) x) (imag q)))
              (vscal3 (- 2 * real q) (cross3 (imag q) x))).

Lemma rotation_ok x q : nsq q <> 0 -> quaternion_rotation x q = Ok (rotf x q).
Proof. apply rotation_formula. Qed.

Lemma rotf_linear a b x y q : nsq q <> 0 ->
  rotf (vadd3 (vscal3 a x) (vscal3 b y)) q = vadd3 (vscal3 a (rotf x q)) (vscal3 b (rotf y q)).
Proof. intros H. unfold rotf, nsq in *. apply vec3_eq; simpl; vunf; field; auto. Qed.

Lemma rotf_dot x y q : nsq q <> 0 -> dot3 (rotf x q) (rotf y q) = dot3 x y.
Proof. intros H. unfold rotf, nsq in *. vunf. field; auto. Qed.

Lemma rotf_cross x y q : nsq q <> 0 -> cross3 (rotf x q) (rotf y q) = rotf (cross3 x y) q.
Proof. intros H. unfold rotf, nsq in *. apply vec3_eq; simpl; vunf; field; auto. Qed.

Lemma nsq_scal q s : nsq (q_mul q (OS s)) = s * s * nsq q.
Proof. unfold nsq; simpl; vunf; ring. Qed.

Lemma rotf_scal x q s : s <> 0 -> nsq q <> 0 -> rotf x (q_mul q (OS s)) = rotf x q.
Proof.
  intros Hs H. unfold rotf. rewrite nsq_scal. unfold nsq in *.
  apply vec3_eq; simpl; vunf; field; auto.
Qed.

Lemma rotf_compose x q1 q2 : nsq q1 <> 0 -> nsq q2 <> 0 ->
  rotf (rotf x q1) q2 = rotf x (q_mul q1 (OQ q2)).
Proof.
  intros H1 H2. unfold rotf. rewrite nsq_mul. unfold nsq in *.
  apply vec3_eq; simpl; vunf; field; auto.
Qed.

Lemma rotf_one x : rotf x q_one = x.
Proof. unfold rotf, nsq. apply vec3_eq; simpl; vunf; field. Qed.

Lemma rotf_inverse x q i : nsq q <> 0 -> q_reciprocal q = Ok i ->
  nsq i <> 0 /\ rotf (rotf x q) i = x.
Proof.
  intros H Hi. rewrite q_reciprocal_ok in Hi by auto. injection Hi as <-.
  assert (Hn : nsq (q_mul (q_conj q) (OS (1 / nsq q))) <> 0).
  { rewrite nsq_scal. replace (nsq (q_conj q)) with (nsq q) by (unfold nsq; simpl; vunf; ring).
    replace (1 / nsq q * (1 / nsq q) * nsq q) with (/ nsq q) by (field; auto).
    apply Rinv_neq_0_compat; auto. }
  split; [auto|]. rewrite rotf_compose by auto. rewrite q_recip_r by auto. apply rotf_one.
Qed.

(** Constructors *)
Lemma sin2_cos2' x : sin x * sin x + cos x * cos x = 1.
Proof. pose proof (sin2_cos2 x). unfold Rsqr in *. lra. Qed.

Lemma nsq_axis_angle t n : nsq (from_axis_angle t n) = 1 + sin (t / 2) * sin (t / 2) * (dot3 n n - 1).
Proof.
  unfold from_axis_angle, nsq. simpl. vunf. pose proof (sin2_cos2' (t / 2)). nra.
Qed.

Lemma nsq_axis_angle_unit t n : is_unit n -> nsq (from_axis_angle t n) = 1.
Proof. intros H. rewrite nsq_axis_angle, H. ring. Qed.

Lemma cos_half t : cos t = cos (t / 2) * cos (t / 2) - sin (t / 2) * sin (t / 2).
Proof. replace t with (t / 2 + t / 2) at 1 by field. apply cos_plus. Qed.
Lemma sin_half t : sin t = 2 * sin (t / 2) * cos (t / 2).
Proof. replace t with (2 * (t / 2)) at 1 by field. apply sin_2a. Qed.

Lemma axis_angle_rodrigues t n x : is_unit n ->
  quaternion_rotation x (from_axis_angle t n) = Ok (rodrigues (- t) n x).
Proof.
  intros Hn. rewrite rotation_ok by (rewrite nsq_axis_angle_unit; auto; lra).
  f_equal. unfold rotf. rewrite nsq_axis_angle_unit by auto.
  unfold rodrigues. rewrite cos_neg, sin_neg, (cos_half t), (sin_half t).
  unfold is_unit in Hn. pose proof (sin2_cos2' (t / 2)) as Hsc.
  unfold from_axis_angle. cbv zeta.
  set (c := cos (t / 2)) in *. set (s := sin (t / 2)) in *. clearbody c s.
  destruct n as [n1 n2 n3], x as [x1 x2 x3]. vunf.
  assert (Hd : n1 * s * (n1 * s) + n2 * s * (n2 * s) + n3 * s * (n3 * s) = s * s).
  { transitivity ((n1 * n1 + n2 * n2 + n3 * n3) * (s * s)); [ring|rewrite Hn; ring]. }
  assert (Hc : 1 - (c * c - s * s) = 2 * (s * s)) by lra.
  apply vec3_eq; cbn [v1 v2 v3]; rewrite Hd, Hc; field.
Qed.

Definition qx (t : R) := from_axis_angle t (mk3 1 0 0).
Definition qy (t : R) := from_axis_angle t (mk3 0 1 0).
Definition qz (t : R) := from_axis_angle t (mk3 0 0 1).

Lemma euler_product a :
  from_euler_angles a =
  q_mul (q_mul (from_axis_angle (v3 a) (mk3 0 0 1)) (OQ (from_axis_angle (v2 a) (mk3 0 1 0))))
        (OQ (from_axis_angle (v1 a) (mk3 1 0 0))).
Proof. unfold from_euler_angles, from_axis_angle. qring. Qed.

Lemma euler_unit a : q_abs (from_euler_angles a) = 1.
Proof.
  rewrite euler_product, !q_abs_mul, !q_abs_nsq, !nsq_axis_angle_unit;
    try (unfold is_unit; vunf; ring). rewrite sqrt_1. ring.
Qed.

Lemma rodrigues_x t x : rodrigues t (mk3 1 0 0) x = rot_x t x.
Proof. unfold rodrigues, rot_x. apply vec3_eq; vunf; ring. Qed.
Lemma rodrigues_y t x : rodrigues t (mk3 0 1 0) x = rot_y t x.
Proof. unfold rodrigues, rot_y. apply vec3_eq; vunf; ring. Qed.
Lemma rodrigues_z t x : rodrigues t (mk3 0 0 1) x = rot_z t x.
Proof. unfold rodrigues, rot_z. apply vec3_eq; vunf; ring. Qed.


Lemma rotf_axis t n x : is_unit n -> rotf x (from_axis_angle t n) = rodrigues (- t) n x.
Proof.
  intros H. apply ok_inj. rewrite <- rotation_ok by (rewrite nsq_axis_angle_unit; auto; lra).
  apply axis_angle_rodrigues; auto.
Qed.

Lemma unit_e1 : is_unit (mk3 1 0 0). Proof. unfold is_unit; vunf; ring. Qed.
Lemma unit_e2 : is_unit (mk3 0 1 0). Proof. unfold is_unit; vunf; ring. Qed.
Lemma unit_e3 : is_unit (mk3 0 0 1). Proof. unfold is_unit; vunf; ring. Qed.

Lemma euler_rotation a x :
  quaternion_rotation x (from_euler_angles a) =
  Ok (rot_x (- v1 a) (rot_y (- v2 a) (rot_z (- v3 a) x))).
Proof.
  assert (Hz : nsq (from_axis_angle (v3 a) (mk3 0 0 1)) <> 0)
    by (rewrite nsq_axis_angle_unit by apply unit_e3; lra).
  assert (Hy : nsq (from_axis_angle (v2 a) (mk3 0 1 0)) <> 0)
    by (rewrite nsq_axis_angle_unit by apply unit_e2; lra).
  assert (Hx : nsq (from_axis_angle (v1 a) (mk3 1 0 0)) <> 0)
    by (rewrite nsq_axis_angle_unit by apply unit_e1; lra).
  rewrite euler_product, rotation_ok.
  - rewrite <- !rotf_compose; auto.
    + rewrite !rotf_axis, rodrigues_x, rodrigues_y, rodrigues_z; auto using unit_e1, unit_e2, unit_e3.
    + rewrite nsq_mul. apply Rmult_integral_contrapositive_currified; auto.
  - rewrite !nsq_mul. repeat apply Rmult_integral_contrapositive_currified; auto.
Qed.

(** Reflection *)
Lemma reflection_mirror x n : dot3 n n <> 0 -> quaternion_reflection x n = Ok (mirror n x).
Proof.
  intros H. unfold quaternion_reflection. cbv zeta.
  assert (Hp : 0 < dot3 n n) by (pose proof (dot3_nonneg n); lra).
  assert (Hm : 0 < norm3 n) by (unfold norm3; apply sqrt_lt_R0; auto).
  assert (Hs : norm3 n * norm3 n = dot3 n n) by (unfold norm3; apply sqrt_sqrt; lra).
  unfold fdiv. destruct (Req_EM_T (norm3 n) 0); [lra|]. cbn [bind]. f_equal.
  unfold mirror. rewrite <- Hs.
  set (m := norm3 n) in *. clearbody m. destruct n as [a b c], x as [x y z].
  apply vec3_eq; cbn [v1 v2 v3 imag real q_mul]; vunf.
  all: apply (Rmult_eq_reg_r (m * m)); [|nra].
  all: field_simplify; try lra.
  all: replace (m ^ 2) with (a * a + b * b + c * c) by (rewrite <- Hs; ring); field; try lra.
Qed.

(** exp, log, powers *)
Lemma sgn_big eps v : eps < norm3 v ->
  sgn eps v = mk3 (v1 v / norm3 v) (v2 v / norm3 v) (v3 v / norm3 v).
Proof. intros H. unfold sgn. destruct (Rle_dec (norm3 v) eps); [lra|reflexivity]. Qed.
Lemma norm3_sq v : norm3 v * norm3 v = dot3 v v.
Proof. unfold norm3. apply sqrt_sqrt, dot3_nonneg. Qed.
Lemma norm3_nonneg v : 0 <= norm3 v.
Proof. apply sqrt_pos. Qed.

Lemma dot3_unit v : norm3 v <> 0 ->
  dot3 (mk3 (v1 v / norm3 v) (v2 v / norm3 v) (v3 v / norm3 v))
       (mk3 (v1 v / norm3 v) (v2 v / norm3 v) (v3 v / norm3 v)) = 1.
Proof.
  intros H. pose proof (norm3_sq v) as Hs. set (m := norm3 v) in *. clearbody m. vunf.
  transitivity ((v1 v * v1 v + v2 v * v2 v + v3 v * v3 v) / (m * m)); [field; auto|].
  rewrite <- Hs. field; auto.
Qed.

Lemma norm3_scal c v : norm3 (vscal3 c v) = Rabs c * norm3 v.
Proof.
  unfold norm3. replace (dot3 (vscal3 c v) (vscal3 c v)) with (Rsqr c * dot3 v v)
    by (unfold Rsqr; vunf; ring).
  rewrite sqrt_mult; [|apply Rle_0_sqr|apply dot3_nonneg]. rewrite sqrt_Rsqr_abs. reflexivity.
Qed.

Lemma nsq_norm q : nsq q = real q * real q + norm3 (imag q) * norm3 (imag q).
Proof. rewrite norm3_sq. reflexivity. Qed.

Lemma q_abs_exp eps q : 0 <= eps -> eps < norm3 (imag q) -> q_abs (quat_exp eps q) = exp (real q).
Proof.
  intros He H. rewrite q_abs_nsq. unfold quat_exp. rewrite sgn_big by auto. cbv zeta.
  pose proof (dot3_unit (imag q)) as Hu.
  assert (Hn : norm3 (imag q) <> 0) by lra. specialize (Hu Hn).
  set (u := mk3 _ _ _) in *. clearbody u.
  assert (E : nsq (mkQ (exp (real q) * cos (norm3 (imag q)))
        (vscal3 (sin (norm3 (imag q))) (vscal3 (exp (real q)) u))) = Rsqr (exp (real q))).
  { unfold nsq. cbn [real imag].
    transitivity (exp (real q) * exp (real q) * (cos (norm3 (imag q)) * cos (norm3 (imag q))
       + sin (norm3 (imag q)) * sin (norm3 (imag q)) * dot3 u u)); [vunf; ring|].
    rewrite Hu. unfold Rsqr. pose proof (sin2_cos2' (norm3 (imag q))). nra. }
  rewrite E. apply sqrt_Rsqr. left; apply exp_pos.
Qed.

(** |exp q| = e^real also when the imaginary part is exactly 0. *)
Lemma q_abs_exp_0 eps q : 0 <= eps -> imag q = zero3 -> q_abs (quat_exp eps q) = exp (real q).
Proof.
  intros He H. rewrite q_abs_nsq. unfold quat_exp. rewrite H. cbv zeta.
  assert (N0 : norm3 zero3 = 0).
  { unfold norm3. replace (dot3 zero3 zero3) with 0 by (vunf; ring). apply sqrt_0. }
  rewrite N0. unfold sgn. rewrite N0. destruct (Rle_dec 0 eps); [|lra].
  rewrite cos_0, sin_0.
  match goal with |- sqrt ?a = _ => replace a with (Rsqr (exp (real q))) end.
  - apply sqrt_Rsqr. left; apply exp_pos.
  - unfold nsq, Rsqr. cbn [real imag]. vunf. ring.
Qed.

Lemma acos_ratio q : norm3 (imag q) <> 0 ->
  cos (acos (real q * (1 / q_abs q))) = real q / q_abs q /\
  sin (acos (real q * (1 / q_abs q))) = norm3 (imag q) / q_abs q /\ 0 < q_abs q.
Proof.
  intros H.
  assert (Hm : 0 < norm3 (imag q)) by (pose proof (norm3_nonneg (imag q)); lra).
  assert (Ha : 0 < q_abs q).
  { rewrite q_abs_nsq. apply sqrt_lt_R0. rewrite nsq_norm. nra. }
  assert (Hq : q_abs q * q_abs q = real q * real q + norm3 (imag q) * norm3 (imag q)).
  { pose proof (q_abs_sq q) as E. rewrite nsq_norm in E. simpl in E. lra. }
  set (a := q_abs q) in *. set (m := norm3 (imag q)) in *. set (r := real q) in *.
  clearbody a m r.
  assert (Hb : -1 <= r * (1 / a) <= 1).
  { assert (-a <= r <= a) by nra. replace (r * (1 / a)) with (r / a) by (field; lra).
    split; [apply Rmult_le_reg_r with a|apply Rmult_le_reg_r with a]; auto;
      unfold Rdiv; rewrite ?Rmult_assoc, Rinv_l by lra; lra. }
  rewrite cos_acos, sin_acos by auto. repeat split; [field; lra| |auto].
  replace (1 - (r * (1 / a))²) with (Rsqr (m / a)).
  - apply sqrt_Rsqr. apply Rlt_le, Rdiv_lt_0_compat; auto.
  - unfold Rsqr. apply (Rmult_eq_reg_r (a * a)); [|nra]. field_simplify; [|lra|lra]. nra.
Qed.

Lemma exp_log eps q : 0 <= eps -> eps < norm3 (imag q) ->
  eps < acos (real q * (1 / q_abs q)) ->
  exists l, quat_log eps q = Ok l /\ quat_exp eps l = q.
Proof.
  intros He H Ht.
  assert (Hn : norm3 (imag q) <> 0) by lra.
  destruct (acos_ratio q Hn) as (Hc & Hs & Ha).
  unfold quat_log, flog, arg, fdiv. cbv zeta.
  destruct (Rlt_dec 0 (q_abs q)); [|lra]. destruct (Req_EM_T (q_abs q) 0); [lra|].
  cbn [bind]. eexists; split; [reflexivity|].
  rewrite sgn_big by auto. pose proof (dot3_unit (imag q) Hn) as Hu.
  set (t := acos (real q * (1 / q_abs q))) in *.
  set (u := mk3 _ _ _) in *.
  assert (Nu : norm3 u = 1) by (unfold norm3; rewrite Hu; apply sqrt_1).
  assert (Nt : norm3 (vscal3 t u) = t).
  { rewrite norm3_scal, Nu. rewrite Rabs_right by lra. ring. }
  unfold quat_exp. cbn [real imag]. cbv zeta. rewrite sgn_big by (rewrite Nt; auto).
  rewrite Nt, exp_ln by auto. rewrite Hc, Hs.
  assert (t <> 0) by lra.
  apply quat_eq; cbn [real imag v1 v2 v3 vscal3]; unfold u; cbn [v1 v2 v3]; field; auto.
Qed.

Lemma log_exp eps q : 0 <= eps -> eps < norm3 (imag q) -> norm3 (imag q) < PI ->
  eps < exp (real q) * sin (norm3 (imag q)) ->
  quat_log eps (quat_exp eps q) = Ok q.
Proof.
  intros He H Hpi Hs.
  assert (Hn : norm3 (imag q) <> 0) by lra.
  pose proof (q_abs_exp eps q He H) as Hab.
  pose proof (dot3_unit (imag q) Hn) as Hu.
  assert (Himag : norm3 (imag (quat_exp eps q)) = exp (real q) * sin (norm3 (imag q))).
  { unfold quat_exp. cbn [imag]. rewrite !norm3_scal, sgn_big by auto.
    assert (norm3 (mk3 (v1 (imag q) / norm3 (imag q)) (v2 (imag q) / norm3 (imag q)) (v3 (imag q) / norm3 (imag q))) = 1) as ->.
    { unfold norm3 at 1. rewrite Hu. apply sqrt_1. }
    pose proof (exp_pos (real q)). assert (0 < sin (norm3 (imag q))) by (apply sin_gt_0; lra).
    rewrite !Rabs_right by lra. ring. }
  unfold quat_log, flog, arg, fdiv. cbv zeta. rewrite Hab.
  pose proof (exp_pos (real q)) as Hep.
  destruct (Rlt_dec 0 (exp (real q))); [|lra]. destruct (Req_EM_T (exp (real q)) 0); [lra|].
  cbn [bind]. f_equal. rewrite ln_exp, sgn_big by (rewrite Himag; auto). rewrite Himag.
  unfold quat_exp. cbn [real imag]. cbv zeta. rewrite sgn_big by auto.
  replace (exp (real q) * cos (norm3 (imag q)) * (1 / exp (real q))) with (cos (norm3 (imag q)))
    by (field; lra).
  rewrite acos_cos by lra.
  assert (sin (norm3 (imag q)) <> 0) by (assert (0 < sin (norm3 (imag q))) by (apply sin_gt_0; lra); lra).
  apply quat_eq; cbn [real imag v1 v2 v3 vscal3]; try reflexivity; field; auto.
Qed.

(** De Moivre: with q = a(cos t + u sin t), |u| = 1. *)
Definition polar (a t : R) (u : vec3) : quat := mkQ (a * cos t) (vscal3 (a * sin t) u).

Lemma polar_mul a b s t u : is_unit u ->
  q_mul (polar a s u) (OQ (polar b t u)) = polar (a * b) (s + t) u.
Proof.
  intros Hu. unfold polar. rewrite cos_plus, sin_plus.
  set (cs := cos s). set (ss := sin s). set (ct := cos t). set (st := sin t).
  apply quat_eq; simpl; vunf.
  - transitivity (a * b * (cs * ct - ss * st * (v1 u * v1 u + v2 u * v2 u + v3 u * v3 u))); [ring|].
    unfold is_unit in Hu. vunf. rewrite Hu. ring.
  - ring.
  - ring.
  - ring.
Qed.

Lemma q_power_polar a t u n : is_unit u ->
  q_power (polar a t u) n = polar (a ^ n) (INR n * t) u.
Proof.
  intros Hu. induction n as [|n IH].
  - unfold polar. simpl. rewrite Rmult_0_l, cos_0, sin_0. apply quat_eq; simpl; vunf; ring.
  - cbn [q_power]. rewrite IH, polar_mul by auto. rewrite S_INR. f_equal; ring.
Qed.

(** quat_exp on an element with imaginary part s*u, |u|=1 and any real s, |s|>eps or s=0. *)
Lemma exp_polar eps r s u : 0 <= eps -> is_unit u -> eps < Rabs s ->
  quat_exp eps (mkQ r (vscal3 s u)) = polar (exp r) s u.
Proof.
  intros He Hu Hs.
  assert (Nu : norm3 u = 1) by (unfold norm3; rewrite Hu; apply sqrt_1).
  assert (N : norm3 (vscal3 s u) = Rabs s) by (rewrite norm3_scal, Nu; ring).
  unfold quat_exp. cbn [real imag]. cbv zeta. rewrite sgn_big by (rewrite N; auto).
  rewrite N. unfold polar.
  destruct (Rcase_abs s) as [Hneg|Hpos].
  - rewrite Rabs_left in * by auto. rewrite cos_neg, sin_neg.
    apply quat_eq; simpl; vunf; try reflexivity; field; lra.
  - rewrite Rabs_right in * by auto. assert (s <> 0) by lra.
    apply quat_eq; simpl; vunf; try reflexivity; field; lra.
Qed.

Lemma exp_polar_0 eps r u : 0 <= eps -> quat_exp eps (mkQ r (vscal3 0 u)) = polar (exp r) 0 u.
Proof.
  intros He. unfold quat_exp. cbn [real imag]. cbv zeta.
  assert (N : norm3 (vscal3 0 u) = 0) by (rewrite norm3_scal, Rabs_R0; ring).
  unfold sgn. rewrite N. destruct (Rle_dec 0 eps); [|lra].
  unfold polar. rewrite cos_0, sin_0. apply quat_eq; simpl; vunf; ring.
Qed.

Lemma pow_nat eps q n : 0 <= eps -> eps < norm3 (imag q) ->
  eps < acos (real q * (1 / q_abs q)) ->
  q_pow eps q (INR n) = Ok (q_power q n).
Proof.
  intros He H Ht.
  assert (Hn : norm3 (imag q) <> 0) by lra.
  destruct (acos_ratio q Hn) as (Hc & Hs & Ha).
  unfold q_pow, quat_log, flog, arg, fdiv. cbv zeta.
  destruct (Rlt_dec 0 (q_abs q)); [|lra]. destruct (Req_EM_T (q_abs q) 0); [lra|].
  cbn [bind]. f_equal. rewrite sgn_big by auto. pose proof (dot3_unit (imag q) Hn) as Hu.
  set (t := acos (real q * (1 / q_abs q))) in *.
  set (u := mk3 _ _ _) in *.
  assert (Hq : q = polar (q_abs q) t u).
  { unfold polar. rewrite Hc, Hs. apply quat_eq; unfold u; simpl; field; auto. }
  rewrite Hq at 2. rewrite q_power_polar by auto.
  cbn [q_mul real imag].
  replace (vscal3 (INR n) (vscal3 t u)) with (vscal3 (INR n * t) u) by (apply vec3_eq; vunf; ring).
  assert (E : exp (ln (q_abs q) * INR n) = q_abs q ^ n).
  { rewrite <- Rpower_pow by auto. unfold Rpower. f_equal. ring. }
  destruct n as [|n].
  - replace (INR 0 * t) with 0 by (simpl; ring). rewrite exp_polar_0 by auto. rewrite E. reflexivity.
  - rewrite exp_polar; [rewrite E; reflexivity|auto|auto|].
    rewrite Rabs_right.
    + rewrite S_INR. pose proof (pos_INR n). nra.
    + rewrite S_INR. pose proof (pos_INR n). assert (0 < t) by lra. nra.
Qed.

(** Negative reals: log drops the angle pi. *)
Lemma exp_log_neg_real eps a : 0 <= eps -> 0 < a ->
  exists l, quat_log eps (mkQ (- a) zero3) = Ok l /\ quat_exp eps l = mkQ a zero3.
Proof.
  intros He Ha.
  assert (Hab : q_abs (mkQ (- a) zero3) = a).
  { rewrite q_abs_nsq. replace (nsq (mkQ (-a) zero3)) with (Rsqr a)
      by (unfold nsq, Rsqr; simpl; vunf; ring). apply sqrt_Rsqr; lra. }
  unfold quat_log, flog, arg, fdiv. cbv zeta. rewrite Hab.
  destruct (Rlt_dec 0 a); [|lra]. destruct (Req_EM_T a 0); [lra|]. cbn [bind imag real].
  eexists; split; [reflexivity|].
  assert (N0 : norm3 zero3 = 0).
  { unfold norm3. replace (dot3 zero3 zero3) with 0 by (vunf; ring). apply sqrt_0. }
  unfold sgn. rewrite N0. destruct (Rle_dec 0 eps); [|lra].
  match goal with |- quat_exp _ (mkQ _ (vscal3 ?t zero3)) = _ =>
    replace (vscal3 t zero3) with (vscal3 0 zero3) by (apply vec3_eq; vunf; ring) end.
  rewrite exp_polar_0 by auto. rewrite exp_ln by auto. unfold polar.
  rewrite cos_0, sin_0. apply quat_eq; simpl; vunf; ring.
Qed.

(** Quaternions whose imaginary part is at most eps: log forgets it, and the sign. *)
Lemma norm3_zero : norm3 zero3 = 0.
Proof. unfold norm3. replace (dot3 zero3 zero3) with 0 by (vunf; ring). apply sqrt_0. Qed.
Lemma q_abs_pos q : q <> zero_quaternion -> 0 < q_abs q.
Proof. intros H. rewrite q_abs_nsq. apply sqrt_lt_R0. pose proof (nsq_nonneg q). apply nsq_neq_0 in H. lra. Qed.
Lemma log_collapses eps q : q <> zero_quaternion -> norm3 (imag q) <= eps -> quat_log eps q = Ok (mkQ (ln (q_abs q)) zero3).
Proof.
  intros Hq Hn. pose proof (q_abs_pos q Hq) as Ha. unfold quat_log, flog, arg, fdiv. cbv zeta.
  destruct (Rlt_dec 0 (q_abs q)); [|lra]. destruct (Req_EM_T (q_abs q) 0); [lra|]. cbn [bind].
  unfold sgn. destruct (Rle_dec (norm3 (imag q)) eps); [|lra]. f_equal. apply quat_eq; simpl; vunf; ring.
Qed.
Lemma exp_of_real eps r : 0 <= eps -> quat_exp eps (mkQ r zero3) = mkQ (exp r) zero3.
Proof.
  intros He. replace zero3 with (vscal3 0 zero3) at 1 by (apply vec3_eq; vunf; ring). rewrite exp_polar_0 by auto.
  unfold polar. rewrite cos_0, sin_0. apply quat_eq; simpl; vunf; ring.
Qed.
Lemma exp_log_collapses eps q : q <> zero_quaternion -> norm3 (imag q) <= eps ->
  (exists l, quat_log eps q = Ok l /\ quat_exp eps l = mkQ (q_abs q) zero3) /\
  forall x, q_pow eps q x = Ok (mkQ (Rpower (q_abs q) x) zero3).
Proof.
  intros Hq Hn. assert (He : 0 <= eps) by (pose proof (norm3_nonneg (imag q)); lra). pose proof (q_abs_pos q Hq) as Ha. split.
  - eexists. split; [apply log_collapses; auto|]. rewrite exp_of_real by auto. rewrite exp_ln by auto. reflexivity.
  - intros x. unfold q_pow. rewrite log_collapses by auto. cbn [bind].
    replace (q_mul (mkQ (ln (q_abs q)) zero3) (OS x)) with (mkQ (x * ln (q_abs q)) zero3) by (apply quat_eq; simpl; vunf; ring).
    rewrite exp_of_real by auto. reflexivity.
Qed.
Lemma norm3_zero_iff v : norm3 v = 0 -> v = zero3.
Proof.
  intros H. unfold norm3 in H. apply sqrt_eq_0 in H; [|vunf; nra]. vunf. apply vec3_eq; simpl; nra.
Qed.
Lemma exp_log_iff q : q <> zero_quaternion ->
  (exists l, quat_log 0 q = Ok l /\ quat_exp 0 l = q) <-> ~ (imag q = zero3 /\ real q < 0).
Proof.
  intros Hq. split.
  - intros (l & El & Ex) (Hi & Hr). destruct (exp_log_collapses 0 q Hq) as ((l' & El' & Ex') & _); [rewrite Hi, norm3_zero; lra|].
    rewrite El in El'. injection El' as ->. rewrite Ex in Ex'. pose proof (q_abs_pos q Hq).
    assert (real q = q_abs q) by (rewrite Ex' at 1; reflexivity). lra.
  - intros H. destruct (Req_EM_T (norm3 (imag q)) 0) as [E|E].
    + apply norm3_zero_iff in E. assert (0 < real q).
      { destruct (Rtotal_order (real q) 0) as [G|[G|G]]; [exfalso; auto| |exact G].
        exfalso. apply Hq. apply quat_eq; rewrite ?E, ?G; reflexivity. }
      destruct (exp_log_collapses 0 q Hq) as ((l & El & Ex) & _); [rewrite E, norm3_zero; lra|].
      exists l. split; [exact El|]. rewrite Ex. apply quat_eq; rewrite ?E; try reflexivity. cbn [real].
      rewrite q_abs_nsq, nsq_norm, E, norm3_zero. replace (real q * real q + 0 * 0) with (Rsqr (real q)) by (unfold Rsqr; ring).
      apply sqrt_Rsqr. lra.
    + pose proof (norm3_nonneg (imag q)) as Hn. pose proof (q_abs_pos q Hq) as Ha. apply exp_log; try lra.
      assert (HB : -1 <= real q * (1 / q_abs q) < 1).
      { assert (Sq : q_abs q * q_abs q = real q * real q + norm3 (imag q) * norm3 (imag q)).
        { rewrite <- nsq_norm, <- q_abs_sq. ring. }
        assert (P : 0 < norm3 (imag q) * norm3 (imag q)) by (apply Rmult_lt_0_compat; lra).
        assert (- q_abs q < real q < q_abs q) by (split; nra).
        split.
        - apply (Rmult_le_reg_r (q_abs q)); auto. replace (real q * (1 / q_abs q) * q_abs q) with (real q) by (field; lra). lra.
        - apply (Rmult_lt_reg_r (q_abs q)); auto. replace (real q * (1 / q_abs q) * q_abs q) with (real q) by (field; lra). lra. }
      destruct (acos_bound (real q * (1 / q_abs q))) as ([P|P] & _); [exact P|].
      exfalso. assert (C : cos (acos (real q * (1 / q_abs q))) = 1) by (rewrite <- P; apply cos_0).
      rewrite cos_acos in C by lra. lra.
Qed.

Lemma neg_one_pow_one eps : 0 <= eps ->
  q_pow eps (mkQ (-1) zero3) 1 = Ok q_one.
Proof.
  intros He. unfold q_pow.
  assert (Ha : 0 < 1) by lra.
  destruct (exp_log_neg_real eps 1 He Ha) as (l & Hl & Hx).
  replace (- (1)) with (-1) in Hl by lra. rewrite Hl. cbn [bind].
  replace (q_mul l (OS 1)) with l by (apply quat_eq; simpl; vunf; ring).
  rewrite Hx. reflexivity.
Qed.

Lemma q_eqb_spec p q : q_eqb p q = true <-> p = q.
Proof.
  unfold q_eqb, Reqb. split.
  - destruct (Req_EM_T (real p) (real q)), (Req_EM_T (v1 (imag p)) (v1 (imag q))),
      (Req_EM_T (v2 (imag p)) (v2 (imag q))), (Req_EM_T (v3 (imag p)) (v3 (imag q)));
      simpl; try discriminate. intros _. apply quat_eq; auto.
  - intros ->. repeat destruct Req_EM_T; simpl; auto; contradiction.
Qed.

Lemma rotation_linear q : q <> zero_quaternion -> forall a b x y,
  exists rx ry, quaternion_rotation x q = Ok rx /\ quaternion_rotation y q = Ok ry /\
  quaternion_rotation (vadd3 (vscal3 a x) (vscal3 b y)) q =
    Ok (vadd3 (vscal3 a rx) (vscal3 b ry)) /\
  dot3 rx ry = dot3 x y /\
  quaternion_rotation (cross3 x y) q = Ok (cross3 rx ry).
Proof.
  intros Hq a b x y. apply nsq_neq_0 in Hq.
  exists (rotf x q), (rotf y q). rewrite !rotation_ok by auto.
  rewrite rotf_linear, rotf_dot, rotf_cross by auto. repeat split.
Qed.

Lemma rotation_scal q : q <> zero_quaternion -> forall s x, s <> 0 ->
  quaternion_rotation x (q_mul q (OS s)) = quaternion_rotation x q.
Proof.
  intros Hq s x Hs. apply nsq_neq_0 in Hq. rewrite !rotation_ok; auto.
  - rewrite rotf_scal; auto.
  - rewrite nsq_scal. repeat apply Rmult_integral_contrapositive_currified; auto.
Qed.

Lemma rotation_inverse q : q <> zero_quaternion -> forall x,
  exists i r, q_reciprocal q = Ok i /\ quaternion_rotation x q = Ok r /\
              quaternion_rotation r i = Ok x.
Proof.
  intros Hq x. apply nsq_neq_0 in Hq. eexists; eexists.
  split; [apply q_reciprocal_ok; auto|]. split; [apply rotation_ok; auto|].
  destruct (rotf_inverse x q _ Hq (q_reciprocal_ok q Hq)) as [Hi Hr].
  rewrite rotation_ok by auto. f_equal. exact Hr.
Qed.

Lemma rotation_compose q1 q2 : q1 <> zero_quaternion -> q2 <> zero_quaternion -> forall x,
  bind (quaternion_rotation x q1) (fun y => quaternion_rotation y q2) =
  quaternion_rotation x (q_mul q1 (OQ q2)).
Proof.
  intros H1 H2 x. apply nsq_neq_0 in H1. apply nsq_neq_0 in H2.
  rewrite rotation_ok by auto. cbn [bind].
  rewrite rotation_ok by auto. rewrite rotf_compose, rotation_ok; auto.
  rewrite nsq_mul. apply Rmult_integral_contrapositive_currified; auto.
Qed.

Lemma axis_angle_abs t n : is_unit n -> q_abs (from_axis_angle t n) = 1.
Proof. intros H. rewrite q_abs_nsq, nsq_axis_angle_unit by auto. apply sqrt_1. Qed.

Lemma axis_angle_abs_iff n : (forall t, q_abs (from_axis_angle t n) = 1) <-> is_unit n.
Proof.
  split; [|intros; apply axis_angle_abs; auto].
  intros H. specialize (H PI). pose proof (q_abs_sq (from_axis_angle PI n)) as E.
  rewrite H, nsq_axis_angle, sin_PI2 in E. unfold is_unit. lra.
Qed.

(** base ** q *)
Lemma rpow_abs eps q base : 0 <= eps -> 0 < base ->
  imag q = zero3 \/ eps < norm3 (vscal3 (ln base) (imag q)) ->
  exists r, q_rpow eps q base = Ok r /\ q_abs r = Rpower base (real q).
Proof.
  intros He Hb H. unfold q_rpow, flog. destruct (Rlt_dec 0 base); [|lra]. cbn [bind].
  eexists; split; [reflexivity|]. unfold Rpower.
  replace (real q * ln base) with (real (q_mul q (OS (ln base)))) by reflexivity.
  destruct H as [H|H].
  - apply q_abs_exp_0; auto. cbn. rewrite H. apply vec3_eq; vunf; ring.
  - apply q_abs_exp; auto.
Qed.

(** ** pytree *)
Lemma unflatten_flatten q : tree_unflatten (tree_flatten q) = Ok q.
Proof. destruct q as [r [x y z]]. reflexivity. Qed.
Lemma flatten_unflatten a q cs r : tree_unflatten (a :: q :: cs) = Ok r -> tree_flatten r = [a; q].
Proof.
  destruct a as [[|? ?] [|b [|? ?]]], q as [[|[|[|[|[|?]]]] [|? ?]] [|x [|y [|z [|? ?]]]]]; cbn; intros H; try discriminate H.
  inversion H. reflexivity.
Qed.
Lemma tree_map_elementwise (f : R -> R) q :
  exists r, quat_tree_map (fun l => mkLeaf (lshape l) (map f (ldata l))) q = Ok r /\
    real r = f (real q) /\ v1 (imag r) = f (v1 (imag q)) /\ v2 (imag r) = f (v2 (imag q)) /\
    v3 (imag r) = f (v3 (imag q)).
Proof. eexists. split; [reflexivity|]. auto. Qed.
Lemma vmap_raises {A} (f : A -> quat) (xs : list A) : vmap_quat f xs = Err AssertionError.
Proof. reflexivity. Qed.

Lemma mk_quat_spec a q : (forall r, mk_quat a q = Ok r <-> q = A1 (list3 (imag r)) /\ real r = a) /\
  ((forall v, q <> A1 (list3 v)) -> mk_quat a q = Err AssertionError).
Proof.
  unfold mk_quat, as_vec3. split.
  - intros [b [x y z]]. unfold list3; simpl. destruct q as [r|[|x' [|y' [|z' [|w l]]]]]; simpl; split; intros H; try discriminate;
      try (destruct H as [H _]; discriminate).
    + injection H as -> -> -> ->. auto.
    + destruct H as [H ->]. injection H as -> -> ->. reflexivity.
  - intros H. destruct q as [r|[|x' [|y' [|z' [|w l]]]]]; simpl; auto. exfalso. exact (H (mk3 x' y' z') eq_refl).
Qed.
Lemma zero_neutral p : q_add p (OQ zero_quaternion) = p /\ q_add zero_quaternion (OQ p) = p /\ q_sub p (OQ zero_quaternion) = p /\
  q_mul p (OQ zero_quaternion) = zero_quaternion /\ q_mul zero_quaternion (OQ p) = zero_quaternion.
Proof.
  destruct p as [a [x y z]]. unfold zero_quaternion, zero3. cbn. unfold vadd3, vsub3, vscal3, cross3, dot3; cbn.
  repeat split; f_equal; try ring; f_equal; ring.
Qed.
