(** Property theorems about magpi/quaternions.py: C16 - C22, C77. *)
From Verif Require Import Base BaseFacts M_Quat S_Quat P_Quat.

(** C16 *)
Theorem quaternion_algebra :
  (forall p q, coords (q_mul p (OQ q)) = hamilton (coords p) (coords q)) /\
  (forall p q r, q_mul (q_mul p (OQ q)) (OQ r) = q_mul p (OQ (q_mul q (OQ r)))) /\
  (forall p q r, q_mul p (OQ (q_add q (OQ r))) = q_add (q_mul p (OQ q)) (OQ (q_mul p (OQ r)))) /\
  (forall p q r, q_mul (q_add p (OQ q)) (OQ r) = q_add (q_mul p (OQ r)) (OQ (q_mul q (OQ r)))) /\
  (forall p q r, q_mul p (OQ (q_sub q (OQ r))) = q_sub (q_mul p (OQ q)) (OQ (q_mul p (OQ r)))) /\
  (forall p q r, q_mul (q_sub p (OQ q)) (OQ r) = q_sub (q_mul p (OQ r)) (OQ (q_mul q (OQ r)))) /\
  (forall p q, q_conj (q_mul p (OQ q)) = q_mul (q_conj q) (OQ (q_conj p))) /\
  (forall p q, q_abs (q_mul p (OQ q)) = q_abs p * q_abs q).
Proof.
  exact (conj q_mul_hamilton (conj q_mul_assoc (conj q_mul_add_r (conj q_mul_add_l
    (conj q_mul_sub_r (conj q_mul_sub_l (conj q_conj_mul q_abs_mul))))))).
Qed.
Print Assumptions quaternion_algebra.

Lemma quaternion_hamilton_table_l :
  q_mul q_i (OQ q_i) = q_neg q_one /\ q_mul q_j (OQ q_j) = q_neg q_one /\
  q_mul q_k (OQ q_k) = q_neg q_one /\ q_mul (q_mul q_i (OQ q_j)) (OQ q_k) = q_neg q_one.
Proof. repeat split; qring. Qed.

Theorem quaternion_hamilton_table :
  q_mul q_i (OQ q_i) = q_neg q_one /\ q_mul q_j (OQ q_j) = q_neg q_one /\
  q_mul q_k (OQ q_k) = q_neg q_one /\ q_mul (q_mul q_i (OQ q_j)) (OQ q_k) = q_neg q_one.
Proof. exact quaternion_hamilton_table_l. Qed.
Print Assumptions quaternion_hamilton_table.

Theorem quaternion_inverse : forall q, q <> zero_quaternion ->
  exists i, q_reciprocal q = Ok i /\ q_mul q (OQ i) = q_one /\ q_mul i (OQ q) = q_one.
Proof. exact reciprocal_spec. Qed.
Print Assumptions quaternion_inverse.

Theorem quaternion_inverse_of_zero : q_reciprocal zero_quaternion = Err NonFinite.
Proof. exact reciprocal_zero. Qed.
Print Assumptions quaternion_inverse_of_zero.

Theorem quaternion_right_division : forall p q, q <> zero_quaternion ->
  exists d, quaternion_right_div p q = Ok d /\ q_mul d (OQ q) = p /\ q_truediv p (OQ q) = Ok d.
Proof. exact right_div_spec. Qed.
Print Assumptions quaternion_right_division.

Theorem quaternion_left_division : forall p q, q <> zero_quaternion ->
  exists d, quaternion_left_div p q = Ok d /\ q_mul q (OQ d) = p.
Proof. exact left_div_spec. Qed.
Print Assumptions quaternion_left_division.

Theorem quaternion_constructor : forall a q,
  (forall r, mk_quat a q = Ok r <-> q = A1 (list3 (imag r)) /\ real r = a) /\
  ((forall v, q <> A1 (list3 v)) -> mk_quat a q = Err AssertionError).
Proof. exact mk_quat_spec. Qed.
Print Assumptions quaternion_constructor.
Theorem zero_quaternion_neutral : forall p,
  q_add p (OQ zero_quaternion) = p /\ q_add zero_quaternion (OQ p) = p /\ q_sub p (OQ zero_quaternion) = p /\
  q_mul p (OQ zero_quaternion) = zero_quaternion /\ q_mul zero_quaternion (OQ p) = zero_quaternion.
Proof. exact zero_neutral. Qed.
Print Assumptions zero_quaternion_neutral.
Theorem quaternion_equality : forall p q, q_eqb p q = true <-> p = q.
Proof. exact q_eqb_spec. Qed.
Print Assumptions quaternion_equality.

(** The hypothesis of the division theorems is met, and the two divisions differ. *)
Example division_nonvacuous :
  q_i <> zero_quaternion /\ quaternion_right_div q_j q_i = Ok q_k /\
  quaternion_left_div q_j q_i = Ok (q_neg q_k).
Proof.
  assert (H : nsq q_i = 1) by (unfold nsq; simpl; vunf; ring).
  split; [|split].
  - intros E. injection E. lra.
  - unfold quaternion_right_div. rewrite q_reciprocal_ok by lra. rewrite H. cbn [bind]. f_equal. qfield.
  - unfold quaternion_left_div. rewrite q_reciprocal_ok by lra. rewrite H. cbn [bind]. f_equal. qfield.
Qed.

(** Sum, difference, negative and product of quaternions in components. *)
Theorem componentwise_operations : forall a b c d e f g h,
  q_add (mkQ a (mk3 b c d)) (OQ (mkQ e (mk3 f g h))) = mkQ (a + e) (mk3 (b + f) (c + g) (d + h)) /\
  q_sub (mkQ a (mk3 b c d)) (OQ (mkQ e (mk3 f g h))) = mkQ (a - e) (mk3 (b - f) (c - g) (d - h)) /\
  q_neg (mkQ a (mk3 b c d)) = mkQ (- a) (mk3 (- b) (- c) (- d)) /\
  q_mul (mkQ a (mk3 b c d)) (OQ (mkQ e (mk3 f g h))) =
    mkQ (a * e - b * f - c * g - d * h)
      (mk3 (a * f + b * e + c * h - d * g) (a * g - b * h + c * e + d * f) (a * h + b * g - c * f + d * e)).
Proof. intros. repeat split; qring. Qed.
Print Assumptions componentwise_operations.
Example componentwise_nonvacuous :
  q_sub (mkQ 1 (mk3 2 3 4)) (OQ (mkQ 5 (mk3 7 9 11))) = mkQ (- 4) (mk3 (- 5) (- 6) (- 7)).
Proof. destruct (componentwise_operations 1 2 3 4 5 7 9 11) as (_ & -> & _). apply quat_eq; simpl; lra. Qed.

(** A scalar acts on all four components; only multiplication and division agree with
    the real quaternion (s, 0). *)
Theorem scalar_right_operand : forall a b c d s,
  q_add (mkQ a (mk3 b c d)) (OS s) = mkQ (a + s) (mk3 (b + s) (c + s) (d + s)) /\
  q_sub (mkQ a (mk3 b c d)) (OS s) = mkQ (a - s) (mk3 (b - s) (c - s) (d - s)) /\
  q_mul (mkQ a (mk3 b c d)) (OS s) = mkQ (a * s) (mk3 (b * s) (c * s) (d * s)) /\
  q_mul (mkQ a (mk3 b c d)) (OS s) = q_mul (mkQ a (mk3 b c d)) (OQ (mkQ s (mk3 0 0 0))) /\
  (s <> 0 -> q_truediv (mkQ a (mk3 b c d)) (OS s) = Ok (mkQ (a / s) (mk3 (b / s) (c / s) (d / s)))) /\
  (s = 0 -> q_truediv (mkQ a (mk3 b c d)) (OS s) = Err NonFinite) /\
  (q_add (mkQ a (mk3 b c d)) (OS s) = q_add (mkQ a (mk3 b c d)) (OQ (mkQ s (mk3 0 0 0))) <-> s = 0).
Proof.
  intros a b c d s. split; [reflexivity|]. split; [reflexivity|]. split; [qring|]. split; [qring|].
  split; [|split].
  - intros H. unfold q_truediv, fdiv. destruct (Req_EM_T s 0) as [E|E]; [tauto|]. cbn [bind]. f_equal. qfield.
  - intros ->. unfold q_truediv, fdiv. destruct (Req_EM_T 0 0) as [E|E]; [reflexivity|tauto].
  - split.
    + intros E. cbn in E. injection E as E1 _ _. lra.
    + intros ->. qring.
Qed.
Print Assumptions scalar_right_operand.
Example scalar_right_nonvacuous : q_add (mkQ 1 (mk3 0 0 0)) (OS 1) = mkQ 2 (mk3 1 1 1).
Proof. destruct (scalar_right_operand 1 0 0 0 1) as (-> & _). apply quat_eq; simpl; lra. Qed.

(** C17: addition and multiplication agree on both sides, subtraction does not. *)
Theorem scalar_left_operand_partial :
  (forall q s, q_radd q s = q_add q (OS s)) /\ (forall q s, q_rmul q s = q_mul q (OS s)) /\
  (forall q s, q_rsub q s = q_neg (q_sub q (OS s)) <-> q = mkQ s (mk3 s s s)).
Proof. exact (conj (fun _ _ => eq_refl) (conj (fun _ _ => eq_refl) q_rsub_eq)). Qed.
Print Assumptions scalar_left_operand_partial.

Theorem scalar_minus_quaternion_refuted :
  ~ (forall q s, q_rsub q s = q_neg (q_sub q (OS s))).
Proof.
  exact (fun H => match q_rsub_wrong with ex_intro _ q (ex_intro _ s n) => n (H q s) end).
Qed.
Print Assumptions scalar_minus_quaternion_refuted.

(** C18 *)
Theorem rotation_is_linear_isometry : forall q, q <> zero_quaternion -> forall a b x y,
  exists rx ry, quaternion_rotation x q = Ok rx /\ quaternion_rotation y q = Ok ry /\
  quaternion_rotation (vadd3 (vscal3 a x) (vscal3 b y)) q =
    Ok (vadd3 (vscal3 a rx) (vscal3 b ry)) /\
  dot3 rx ry = dot3 x y /\
  quaternion_rotation (cross3 x y) q = Ok (cross3 rx ry).
Proof. exact rotation_linear. Qed.
Print Assumptions rotation_is_linear_isometry.

Theorem rotation_ignores_scaling : forall q, q <> zero_quaternion -> forall s x, s <> 0 ->
  quaternion_rotation x (q_mul q (OS s)) = quaternion_rotation x q.
Proof. exact rotation_scal. Qed.
Print Assumptions rotation_ignores_scaling.

Theorem rotation_undone_by_reciprocal : forall q, q <> zero_quaternion -> forall x,
  exists i r, q_reciprocal q = Ok i /\ quaternion_rotation x q = Ok r /\
              quaternion_rotation r i = Ok x.
Proof. exact rotation_inverse. Qed.
Print Assumptions rotation_undone_by_reciprocal.

Theorem rotation_composition : forall q1 q2,
  q1 <> zero_quaternion -> q2 <> zero_quaternion -> forall x,
  bind (quaternion_rotation x q1) (fun y => quaternion_rotation y q2) =
  quaternion_rotation x (q_mul q1 (OQ q2)).
Proof. exact rotation_compose. Qed.
Print Assumptions rotation_composition.

(** A non-unit quaternion turning e1 by -90 degrees about e3. *)
Example rotation_nonvacuous :
  mkQ 2 (mk3 0 0 2) <> zero_quaternion /\
  quaternion_rotation (mk3 1 0 0) (mkQ 2 (mk3 0 0 2)) = Ok (mk3 0 (-1) 0).
Proof.
  split; [intros E; injection E; lra|].
  assert (H : nsq (mkQ 2 (mk3 0 0 2)) = 8) by (unfold nsq; simpl; vunf; ring).
  rewrite rotation_ok by lra. unfold rotf. rewrite H. f_equal.
  apply vec3_eq; simpl; vunf; field.
Qed.

(** C19 *)
Theorem axis_angle_unit : forall n, (forall t, q_abs (from_axis_angle t n) = 1) <-> is_unit n.
Proof. exact axis_angle_abs_iff. Qed.
Print Assumptions axis_angle_unit.

Theorem axis_angle_rotation : forall t n x, is_unit n ->
  quaternion_rotation x (from_axis_angle t n) = Ok (rodrigues (- t) n x).
Proof. exact axis_angle_rodrigues. Qed.
Print Assumptions axis_angle_rotation.

Theorem euler_angles_unit : forall a, q_abs (from_euler_angles a) = 1.
Proof. exact euler_unit. Qed.
Print Assumptions euler_angles_unit.

Theorem euler_angles_product : forall a,
  from_euler_angles a =
  q_mul (q_mul (from_axis_angle (v3 a) (mk3 0 0 1)) (OQ (from_axis_angle (v2 a) (mk3 0 1 0))))
        (OQ (from_axis_angle (v1 a) (mk3 1 0 0))).
Proof. exact euler_product. Qed.
Print Assumptions euler_angles_product.

Theorem euler_angles_rotation : forall a x,
  quaternion_rotation x (from_euler_angles a) =
  Ok (rot_x (- v1 a) (rot_y (- v2 a) (rot_z (- v3 a) x))).
Proof. exact euler_rotation. Qed.
Print Assumptions euler_angles_rotation.

(** The unit-axis hypothesis is met; Rodrigues' formula about e3 is the plane rotation. *)
Example axis_angle_nonvacuous :
  is_unit (mk3 0 0 1) /\
  (forall t x, rodrigues t (mk3 0 0 1) x = rot_z t x) /\
  quaternion_rotation (mk3 1 0 0) (from_axis_angle (PI / 2) (mk3 0 0 1)) = Ok (mk3 0 (-1) 0).
Proof.
  split; [exact unit_e3|split; [exact (fun t x => rodrigues_z t x)|]].
  rewrite axis_angle_rodrigues by exact unit_e3. rewrite rodrigues_z. unfold rot_z.
  rewrite cos_neg, sin_neg, cos_PI2, sin_PI2. cbn. f_equal. apply vec3_eq; cbn; ring.
Qed.

(** C20 *)
Theorem reflection_is_mirror : forall x n, dot3 n n <> 0 ->
  quaternion_reflection x n = Ok (mirror n x).
Proof. exact reflection_mirror. Qed.
Print Assumptions reflection_is_mirror.

Example reflection_nonvacuous :
  dot3 (mk3 0 0 5) (mk3 0 0 5) <> 0 /\ mirror (mk3 0 0 5) (mk3 1 2 3) = mk3 1 2 (-3).
Proof. split; [vunf; lra|]. apply vec3_eq; unfold mirror; vunf; field. Qed.

(** C21 *)
Theorem exp_of_log : forall eps q, 0 <= eps -> eps < norm3 (imag q) ->
  eps < acos (real q * (1 / q_abs q)) ->
  exists l, quat_log eps q = Ok l /\ quat_exp eps l = q.
Proof. exact exp_log. Qed.
Print Assumptions exp_of_log.

Theorem log_of_exp : forall eps q, 0 <= eps -> eps < norm3 (imag q) -> norm3 (imag q) < PI ->
  eps < exp (real q) * sin (norm3 (imag q)) ->
  quat_log eps (quat_exp eps q) = Ok q.
Proof. exact log_exp. Qed.
Print Assumptions log_of_exp.

Theorem abs_of_exp : forall eps q, 0 <= eps ->
  (imag q = zero3 -> q_abs (quat_exp eps q) = exp (real q)) /\
  (eps < norm3 (imag q) -> q_abs (quat_exp eps q) = exp (real q)).
Proof. exact (fun eps q He => conj (q_abs_exp_0 eps q He) (q_abs_exp eps q He)). Qed.
Print Assumptions abs_of_exp.

Theorem power_is_iterated_product : forall eps q n, 0 <= eps -> eps < norm3 (imag q) ->
  eps < acos (real q * (1 / q_abs q)) ->
  q_pow eps q (INR n) = Ok (q_power q n).
Proof. exact pow_nat. Qed.
Print Assumptions power_is_iterated_product.

(** q = i meets the hypotheses with eps = 1/10 (jnp.finfo(float32).eps is smaller);
    so does every q with real q = 0 whose imaginary part is above eps. *)
Example exp_log_nonvacuous :
  1 / 10 < norm3 (imag q_i) /\ 1 / 10 < acos (real q_i * (1 / q_abs q_i)) /\
  norm3 (imag q_i) < PI /\ 1 / 10 < exp (real q_i) * sin (norm3 (imag q_i)).
Proof.
  assert (N : norm3 (imag q_i) = 1).
  { unfold norm3. replace (dot3 (imag q_i) (imag q_i)) with 1 by (simpl; vunf; ring). apply sqrt_1. }
  assert (P : 3 < PI) by (pose proof PI2_3_2; lra).
  rewrite N. simpl real. rewrite Rmult_0_l, acos_0, exp_0. repeat split; try lra.
  assert (H : sin (PI / 6) <= sin 1).
  { apply sin_incr_1; pose proof PI_4; lra. }
  rewrite sin_PI6 in H. lra.
Qed.

(** C22: on the negative reals exp(log q) is -q. *)
Theorem exp_log_negative_reals_partial : forall eps a, 0 <= eps -> 0 < a ->
  exists l, quat_log eps (mkQ (- a) zero3) = Ok l /\ quat_exp eps l = mkQ a zero3.
Proof. exact exp_log_neg_real. Qed.
Print Assumptions exp_log_negative_reals_partial.

(** the exact domain, for a sgn without threshold *)
Theorem exp_log_where_partial : forall q, q <> zero_quaternion ->
  (exists l, quat_log 0 q = Ok l /\ quat_exp 0 l = q) <-> ~ (imag q = zero3 /\ real q < 0).
Proof. exact exp_log_iff. Qed.
Print Assumptions exp_log_where_partial.

(** quaternions whose imaginary part is at most eps are replaced by their absolute value;
    real quaternions among them *)
Theorem powers_of_nearly_real_partial : forall eps q, q <> zero_quaternion -> norm3 (imag q) <= eps ->
  (exists l, quat_log eps q = Ok l /\ quat_exp eps l = mkQ (q_abs q) zero3) /\
  forall x, q_pow eps q x = Ok (mkQ (Rpower (q_abs q) x) zero3).
Proof. exact exp_log_collapses. Qed.
Print Assumptions powers_of_nearly_real_partial.
Example nearly_real_meets : mkQ (-2) zero3 <> zero_quaternion /\ norm3 (imag (mkQ (-2) zero3)) <= 0 /\ q_abs (mkQ (-2) zero3) = 2.
Proof.
  split; [intros E; injection E; lra|]. split; [simpl; rewrite norm3_zero; lra|].
  rewrite q_abs_nsq. replace (nsq (mkQ (-2) zero3)) with (Rsqr 2) by (unfold nsq, Rsqr; simpl; unfold dot3; simpl; ring). apply sqrt_Rsqr; lra.
Qed.

Lemma minus_one_ne : Ok q_one <> Ok (mkQ (-1) zero3).
Proof. intros E. injection E. lra. Qed.

Theorem power_of_minus_one_refuted : forall eps, 0 <= eps ->
  q_pow eps (mkQ (-1) zero3) 1 <> Ok (mkQ (-1) zero3).
Proof.
  exact (fun eps He E => minus_one_ne (eq_trans (eq_sym (neg_one_pow_one eps He)) E)).
Qed.
Print Assumptions power_of_minus_one_refuted.

(** C77 *)
Theorem scalar_to_quaternion_power : forall eps q base, 0 <= eps -> 0 < base ->
  imag q = zero3 \/ eps < norm3 (vscal3 (ln base) (imag q)) ->
  exists r, q_rpow eps q base = Ok r /\ q_abs r = Rpower base (real q).
Proof. exact rpow_abs. Qed.
Print Assumptions scalar_to_quaternion_power.

(** C99 *)
Theorem pytree_roundtrip q : tree_unflatten (tree_flatten q) = Ok q.
Proof. exact (unflatten_flatten q). Qed.
Print Assumptions pytree_roundtrip.

(** only arrays of the right shapes are accepted *)
Theorem pytree_children a q cs r : tree_unflatten (a :: q :: cs) = Ok r ->
  tree_flatten r = [a; q].
Proof. exact (flatten_unflatten a q cs r). Qed.
Print Assumptions pytree_children.

(** an elementwise function is applied to the four components *)
Theorem pytree_map_elementwise (f : R -> R) q :
  exists r, quat_tree_map (fun l => mkLeaf (lshape l) (map f (ldata l))) q = Ok r /\
    real r = f (real q) /\ v1 (imag r) = f (v1 (imag q)) /\ v2 (imag r) = f (v2 (imag q)) /\
    v3 (imag r) = f (v3 (imag q)).
Proof. exact (tree_map_elementwise f q). Qed.
Print Assumptions pytree_map_elementwise.
Example pytree_case : quat_tree_map (fun l => mkLeaf (lshape l) (map (Rmult 2) (ldata l))) (mkQ 1 (mk3 2 3 4))
  = Ok (mkQ (2 * 1) (mk3 (2 * 2) (2 * 3) (2 * 4))).
Proof. reflexivity. Qed.

(** vmap of a function that returns quaternions: the constructor rejects the stacked
    leaves, for every batch *)
Theorem vmap_of_quaternions_raises {A} (f : A -> quat) (xs : list A) : vmap_quat f xs = Err AssertionError.
Proof. exact (vmap_raises f xs). Qed.
Print Assumptions vmap_of_quaternions_raises.
