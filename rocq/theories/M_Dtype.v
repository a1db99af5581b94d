(** Integer and float arguments: dtypes in quaternions.py, r_fun.rotate2d,
    SplineActivation, simpson and odeint (definitions only).  Two dtypes are distinguished, one integer and one float type; integer
    arithmetic does not overflow.  Elementwise results of +, -, *, @ and cross have the
    promoted dtype, those of /, sqrt, cos, sin, exp, log, norm are floats. *)
From Verif Require Import Base M_RFun M_Quat M_Integrate M_Spline M_Tree M_Ode.

Inductive dtype := Int | Float.
Definition promote (s t : dtype) : dtype := match s, t with Int, Int => Int | _, _ => Float end.
Definition dtype_eqb (s t : dtype) : bool := match s, t with Int, Int | Float, Float => true | _, _ => false end.

(** Conversion to a dtype (XLA ConvertElementType: towards zero for integers). *)
Definition truncate (x : R) : R := if Rle_dec 0 x then IZR (Int_part x) else - IZR (Int_part (- x)).
Definition cast (d : dtype) (x : R) : R := match d with Int => truncate x | Float => x end.

(** r_fun.py:384-411 rotate2d with the dtype of the angle: the rotation matrix is built
    with dtype=_angle.dtype (r_fun.py:402-404) *)
Definition rotate2d_typed (f : adf) (d : dtype) (angle : R) (o : arr) : adf :=
  let f' := translate f (amap Ropp o) in
  let m11 := cast d (cos angle) in let m12 := cast d (sin angle) in
  let m21 := cast d (- sin angle) in let m22 := cast d (cos angle) in
  let rot_op := fun x =>
    match x with
    | A1 [x1; x2] => f' (A1 [m11 * x1 + m12 * x2; m21 * x1 + m22 * x2])
    | _ => Err AssertionError
    end in
  translate rot_op o.

(** A quaternion with the dtype of its two arrays. *)
Record tquat := mkTQ { qtype : dtype; qval : quat }.
(** quaternions.py:20-25 __init__, the dtype assertion *)
Definition t_init (da : dtype) (a : R) (dq : dtype) (q : vec3) : res tquat :=
  if dtype_eqb da dq then Ok (mkTQ da (mkQ a q)) else Err AssertionError.

(** Right operands with their dtype. *)
Inductive toperand := TQ (q : tquat) | TS (d : dtype) (s : R).
Definition toperand_type (o : toperand) : dtype := match o with TQ q => qtype q | TS d _ => d end.
Definition untype (o : toperand) : operand := match o with TQ q => OQ (qval q) | TS _ s => OS s end.

(** quaternions.py:39-40 __neg__, 102-103 conj *)
Definition t_neg (q : tquat) : res tquat := t_init (qtype q) (- real (qval q)) (qtype q) (vneg3 (imag (qval q))).
Definition t_conj (q : tquat) : res tquat := t_init (qtype q) (real (qval q)) (qtype q) (vneg3 (imag (qval q))).
(** quaternions.py:42-49, 54-61 __add__, __sub__: the dtypes of a and q *)
Definition t_add (self : tquat) (other : toperand) : res tquat :=
  let r := q_add (qval self) (untype other) in
  let da := promote (qtype self) (toperand_type other) in
  let dq := promote (qtype self) (toperand_type other) in
  t_init da (real r) dq (imag r).
Definition t_sub (self : tquat) (other : toperand) : res tquat :=
  let r := q_sub (qval self) (untype other) in
  let da := promote (qtype self) (toperand_type other) in
  let dq := promote (qtype self) (toperand_type other) in
  t_init da (real r) dq (imag r).
(** quaternions.py:66-77 __mul__: a = r1*r2 - q1@q2, q = r1*q2 + r2*q1 + cross(q1, q2) *)
Definition t_mul (self : tquat) (other : toperand) : res tquat :=
  let r := q_mul (qval self) (untype other) in
  match other with
  | TQ o =>
      let d := promote (qtype self) (qtype o) in
      t_init (promote d d) (real r) (promote (promote d (promote (qtype o) (qtype self))) d) (imag r)
  | TS d _ => t_init (promote (qtype self) d) (real r) (promote (qtype self) d) (imag r)
  end.
(** quaternions.py:99-100 reciprocal: conj * (1 / abs**2), a float *)
Definition t_reciprocal (q : tquat) : res tquat :=
  c <- fdiv 1 (q_abs (qval q) ^ 2) ;; i <- t_conj q ;; t_mul i (TS Float c).
(** quaternions.py:93-97, 114-119 divisions *)
Definition t_right_div (q1 q2 : tquat) : res tquat := i <- t_reciprocal q2 ;; t_mul q1 (TQ i).
Definition t_left_div (q1 q2 : tquat) : res tquat := i <- t_reciprocal q2 ;; t_mul i (TQ q1).
Definition t_truediv (self : tquat) (other : toperand) : res tquat :=
  match other with
  | TQ o => t_right_div self o
  | TS _ s => c <- fdiv 1 s ;; t_mul self (TS Float c)
  end.
(** quaternions.py:162-169 sgn: jnp.finfo rejects integer dtypes *)
Definition t_sgn (eps : R) (d : dtype) (v : vec3) : res vec3 :=
  match d with Int => Err ValueError | Float => Ok (sgn eps v) end.
(** quaternions.py:122-138 quanternion_exp *)
Definition t_exp (eps : R) (q : tquat) : res tquat :=
  _s <- t_sgn eps (qtype q) (imag (qval q)) ;;
  let r := quat_exp eps (qval q) in t_init Float (real r) Float (imag r).
(** quaternions.py:141-155 quanternion_log; a nan does not raise, the dtype does *)
Definition t_log (eps : R) (q : tquat) : res tquat :=
  _s <- t_sgn eps (qtype q) (imag (qval q)) ;;
  r <- quat_log eps (qval q) ;; t_init Float (real r) Float (imag r).
(** quaternions.py:85-87 __pow__, 89-91 __rpow__ *)
Definition t_pow (eps : R) (q : tquat) (d : dtype) (pow : R) : res tquat :=
  l <- t_log eps q ;; e <- t_mul l (TS d pow) ;; t_exp eps e.
Definition t_rpow (eps : R) (q : tquat) (base : R) : res tquat :=
  b <- flog base ;; e <- t_mul q (TS Float b) ;; t_exp eps e.
(** quaternions.py:172-188 quaternion_rotation *)
Definition t_rotation (dx : dtype) (x : vec3) (q : tquat) : res vec3 :=
  qinv <- t_reciprocal q ;;
  p <- t_init dx 0 dx x ;;
  u <- t_mul qinv (TQ p) ;; w <- t_mul u (TQ q) ;; Ok (imag (qval w)).
(** quaternions.py:191-209 quaternion_reflection: n = normal_vec / norm(normal_vec) is a
    float, the zero has the dtype of x; the constructors check dtypes, not values *)
Definition t_reflection (dx : dtype) (x : vec3) (normal_vec : vec3) : res vec3 :=
  let z := dx in
  _p <- t_init z 0 dx x ;;
  _q <- t_init z 0 Float normal_vec ;;
  quaternion_reflection x normal_vec.
(** quaternions.py:212-252 from_euler_angles, from_axis_angle: halving gives floats *)
Definition t_from_euler_angles (angles : vec3) : res tquat :=
  let r := from_euler_angles angles in t_init Float (real r) Float (imag r).
Definition t_from_axis_angle (angle : R) (daxis : dtype) (axis : vec3) : res tquat :=
  let r := from_axis_angle angle axis in t_init Float (real r) (promote daxis Float) (imag r).

(** spline.py:66-71, 117-125: the variable "grids" is created with dtype=x.dtype, d is the
    dtype of the first input *)
Definition grid_init_typed (d : dtype) (c : spline_cfg) (channels : nat) : res (list (list R)) :=
  g <- grid_init c channels ;; Ok (map (map (cast d)) g).

(** integrate.py:35-50 simpson with the dtype of the grid: jnp.insert (integrate.py:49)
    converts the inserted midpoints to the dtype of the grid.  The weights are floats, and
    the other rules divide before they store, so they do not depend on the dtype. *)
Definition simpson_typed (d : dtype) : quadrule := fun domain =>
  wn <- simpson domain ;;
  let m := adjacent (fun a b => (a + b) / 2) domain in
  let i := seq 1 (length domain - 1) in
  Ok (fst wn, np_insert 0 domain (combine i (map (cast d) m))).

(** The dtype of a step, given those of the state, of the times and of the dynamics
    (all leaves of the state have one dtype): ode.py:16 multiplies with the float 1 / 6,
    ode.py:22 with dt only. *)
Definition method_type := (dtype -> dtype -> dtype) -> dtype -> dtype -> dtype.
Definition rk4_type : method_type := fun dft ty tt => promote ty (promote Float (promote tt (dft ty tt))).
Definition euler_type : method_type := fun dft ty tt => promote ty (promote tt (dft ty tt)).
(** ode.py:52-60: lax.scan rejects a step that changes the dtype of the state. *)
Definition odeint_typed (mt : method_type) (dft : dtype -> dtype -> dtype) (ty tt : dtype)
    (df : dynamics) (y : tree) (ts : list R) (method : stepper) : res (list tree) :=
  match ts with
  | [] => Err IndexError
  | _ => if dtype_eqb (mt dft ty tt) ty then odeint df y ts method else Err TypeError
  end.
