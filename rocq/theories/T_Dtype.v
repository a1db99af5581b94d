(** Property C106: integer arguments. *)
From Coquelicot Require Import Coquelicot.
From Verif Require Import Base BaseFacts S_RFun M_RFun M_Quat M_Integrate S_Integrate M_Spline M_Tree M_Ode M_Dtype S_Dtype P_Dtype.

(** ** C106 *)
(** The constructor accepts two arrays of the same dtype only. *)
Theorem quaternion_dtypes : forall da a dq q, 
  (da = dq -> exists r, t_init da a dq q = Ok r /\ qval r = mkQ a q /\ qtype r = da) /\
  (da <> dq -> t_init da a dq q = Err AssertionError).
Proof. exact init_dtypes. Qed.
Print Assumptions quaternion_dtypes.

(** Arithmetic, division, rotation and the constructors from angles give the same value
    for integers as for the equal floats. *)
Theorem integer_quaternions_partial : forall p q o x dx t d ax,
  (exists r, t_add p o = Ok r /\ qval r = q_add (qval p) (untype o)) /\
  (exists r, t_sub p o = Ok r /\ qval r = q_sub (qval p) (untype o)) /\
  (exists r, t_mul p o = Ok r /\ qval r = q_mul (qval p) (untype o)) /\
  (exists r, t_neg p = Ok r /\ qval r = q_neg (qval p)) /\
  (exists r, t_conj p = Ok r /\ qval r = q_conj (qval p)) /\
  same_value (t_reciprocal p) (q_reciprocal (qval p)) /\
  same_value (t_truediv p o) (q_truediv (qval p) (untype o)) /\
  same_value (t_left_div p q) (quaternion_left_div (qval p) (qval q)) /\
  t_rotation dx x q = quaternion_rotation x (qval q) /\
  (exists r, t_from_euler_angles x = Ok r /\ qval r = from_euler_angles x) /\
  (exists r, t_from_axis_angle t d ax = Ok r /\ qval r = from_axis_angle t ax).
Proof. exact integer_values. Qed.
Print Assumptions integer_quaternions_partial.

(** exp, log and powers raise ValueError for integer quaternions, reflection raises
    AssertionError for integer points; floats are unaffected. *)
Theorem integer_quaternions_refuted : forall eps q x n d t,
  t_exp eps (mkTQ Int q) = Err ValueError /\ t_log eps (mkTQ Int q) = Err ValueError /\
  t_pow eps (mkTQ Int q) d t = Err ValueError /\ t_reflection Int x n = Err AssertionError.
Proof. exact integer_errors. Qed.
Print Assumptions integer_quaternions_refuted.

Theorem float_quaternions : forall eps q x n d t b,
  (exists r, t_exp eps (mkTQ Float q) = Ok r /\ qval r = quat_exp eps q) /\
  same_value (t_log eps (mkTQ Float q)) (quat_log eps q) /\
  same_value (t_pow eps (mkTQ Float q) d t) (q_pow eps q t) /\
  (forall s, same_value (t_rpow eps (mkTQ s q) b) (q_rpow eps q b)) /\
  t_reflection Float x n = quaternion_reflection x n.
Proof. exact float_values. Qed.
Print Assumptions float_quaternions.

(** dtypes of results *)
Theorem quaternion_result_dtypes : forall eps p q o r d t b x ax,
  (t_add p o = Ok r -> qtype r = promote (qtype p) (toperand_type o)) /\
  (t_sub p o = Ok r -> qtype r = promote (qtype p) (toperand_type o)) /\
  (t_mul p o = Ok r -> qtype r = promote (qtype p) (toperand_type o)) /\
  (t_neg p = Ok r -> qtype r = qtype p) /\ (t_conj p = Ok r -> qtype r = qtype p) /\
  (t_reciprocal p = Ok r -> qtype r = Float) /\ (t_truediv p o = Ok r -> qtype r = Float) /\ (t_left_div p q = Ok r -> qtype r = Float) /\
  (t_exp eps p = Ok r -> qtype r = Float) /\ (t_log eps p = Ok r -> qtype r = Float) /\
  (t_pow eps p d t = Ok r -> qtype r = Float) /\ (t_rpow eps p b = Ok r -> qtype r = Float) /\
  (t_from_euler_angles x = Ok r -> qtype r = Float) /\ (t_from_axis_angle t d ax = Ok r -> qtype r = Float).
Proof. exact result_dtypes. Qed.
Print Assumptions quaternion_result_dtypes.
Example result_dtypes_case : exists r, t_mul (mkTQ Int (mkQ 1 (mk3 1 0 0))) (TQ (mkTQ Int (mkQ 0 (mk3 0 1 0)))) = Ok r /\ qtype r = Int.
Proof. eexists. split; reflexivity. Qed.

(** rotate2d with a non-zero integer angle: the entries of the rotation matrix are truncated.
    All of them vanish, since neither sine nor cosine of such an angle is 0, 1 or -1.  The
    result is the value of the ADF at the centre, whatever the point. *)
Theorem rotate2d_integer_angle_refuted : forall f n o1 o2 x1 x2, n <> 0%Z ->
  rotate2d_typed f Int (IZR n) (A1 [o1; o2]) (A1 [x1; x2]) = f (A1 [o1; o2]).
Proof. exact rotate2d_collapses_all. Qed.
Print Assumptions rotate2d_integer_angle_refuted.

(** Float angles, and the integer 0, rotate as specified (C08). *)
Theorem rotate2d_integer_angle_partial : forall f t o x,
  rotate2d_typed f Float t o x = rotate2d f t o x /\ rotate2d_typed f Int 0 o x = rotate2d f 0 o x.
Proof. exact rotate2d_float. Qed.
Print Assumptions rotate2d_integer_angle_partial.

(** A trainable spline grid inside (-1, 1) initialised on integer inputs collapses to zeros. *)
Theorem spline_grid_integer_input_refuted : forall c channels, -1 < node_min c -> node_min c <= node_max c -> node_max c < 1 ->
  0 < grid_power c -> (2 <= nodes c)%nat ->
  grid_init_typed Int c channels = Ok (repeat (repeat 0 (nodes c)) channels).
Proof. exact grid_collapses. Qed.
Print Assumptions spline_grid_integer_input_refuted.
Theorem spline_grid_input_partial : forall c channels, grid_init_typed Float c channels = grid_init c channels.
Proof. exact grid_float. Qed.
Print Assumptions spline_grid_input_partial.

(** simpson on an integer grid uses truncated midpoints.  On unit steps from a natural
    number it misses the integral of the identity by a third per panel. *)
Theorem simpson_integer_grid_refuted : forall a n, (1 <= n)%nat ->
  integrate (pointwise (fun x => x)) [map INR (seq a (S n))] (simpson_typed Int) =
  Ok (A0 (RInt (V := R_CompleteNormedModule) (fun x => x) (INR a) (INR (a + n)) - INR n / 3)).
Proof. exact simpson_unit_grid. Qed.
Print Assumptions simpson_integer_grid_refuted.

(** Float grids, and integer grids whose midpoints are integers, are integrated as in C34. *)
Theorem simpson_integer_grid_partial : forall d zs,
  simpson_typed Float d = simpson d /\
  ((forall i, (S i < length zs)%nat -> Z.even (nth i zs 0 + nth (S i) zs 0)%Z = true) ->
   simpson_typed Int (map IZR zs) = simpson (map IZR zs)).
Proof. intros d zs. exact (conj (simpson_float d) (simpson_even zs)). Qed.
Print Assumptions simpson_integer_grid_partial.
Example even_grid_case : forall i, (S i < length [0; 2; 4; 8]%Z)%nat ->
  Z.even (nth i [0; 2; 4; 8] 0 + nth (S i) [0; 2; 4; 8] 0)%Z = true.
Proof. intros i H. simpl in H. destruct i as [|[|[|i]]]; try reflexivity; lia. Qed.

(** odeint with rk4 raises TypeError for every integer initial value; with
    explicit_euler unless times and derivatives are integers too. *)
Theorem odeint_integer_state_refuted : forall dft tt df y t ts,
  odeint_typed rk4_type dft Int tt df y (t :: ts) rk4 = Err TypeError /\
  (tt = Float \/ dft Int tt = Float -> odeint_typed euler_type dft Int tt df y (t :: ts) explicit_euler = Err TypeError).
Proof.
  intros dft tt df y t ts. split; [apply odeint_integer_state|]. intros H. rewrite odeint_euler_state.
  destruct H as [->| ->]; [reflexivity|]. destruct tt; reflexivity.
Qed.
Print Assumptions odeint_integer_state_refuted.
Theorem odeint_state_partial : forall dft tt df y ts,
  odeint_typed rk4_type dft Float tt df y ts rk4 = odeint df y ts rk4 /\
  odeint_typed euler_type dft Float tt df y ts explicit_euler = odeint df y ts explicit_euler.
Proof. exact odeint_float_state. Qed.
Print Assumptions odeint_state_partial.

Example spline_grid_case : let c := mkSpline 5 (-1 / 2) (1 / 2) 2 1 true in
  -1 < node_min c /\ node_min c <= node_max c /\ node_max c < 1 /\ 0 < grid_power c /\ (2 <= nodes c)%nat.
Proof. simpl. repeat split; try lra; lia. Qed.
(** the unit disk around (2, 0) is not rotated into the one around the origin's other side *)
Example rotate2d_integer_example : let f := translate (sphere 1) (A1 [2; 0]) in
  rotate2d_typed f Int 1 (A1 [0; 0]) (A1 [2; 0]) = rotate2d_typed f Int 1 (A1 [0; 0]) (A1 [5; 7]).
Proof. intros f. rewrite !(rotate2d_collapses_all f 1) by lia. reflexivity. Qed.
