(** Model of magpi/quaternions.py (definitions only). *)
From Verif Require Import Base.

(** quaternions.py:12-25 class Quaternion: fields _a (shape ()) and _q (shape (3,)).
    The shape assertions of __init__ are in [mk_quat]; the dtype assertion is not
    modelled (single scalar type). *)
Record quat := mkQ { real : R; imag : vec3 }.

(** quaternions.py:20-25 __init__ with a 0-d real part and an array-like imaginary part *)
Definition mk_quat (a : R) (q : arr) : res quat := v <- as_vec3 q ;; Ok (mkQ a v).

(** quaternions.py:27-29 *)
Definition zero_quaternion : quat := mkQ 0 zero3.

(** Right operands: Quaternion or scalar (isinstance dispatch). *)
Inductive operand := OQ (q : quat) | OS (s : R).

(** quaternions.py:31-37 __eq__ on quaternions: all components equal *)
Definition q_eqb (p q : quat) : bool :=
  Reqb (real p) (real q) &&
  (Reqb (v1 (imag p)) (v1 (imag q)) && Reqb (v2 (imag p)) (v2 (imag q))
   && Reqb (v3 (imag p)) (v3 (imag q))).

(** quaternions.py:39-40 __neg__ *)
Definition q_neg (p : quat) : quat := mkQ (- real p) (vneg3 (imag p)).

(** quaternions.py:42-49 __add__ (a scalar is added to all four components) *)
Definition q_add (self : quat) (other : operand) : quat :=
  match other with
  | OQ o => mkQ (real self + real o) (vadd3 (imag self) (imag o))
  | OS s => mkQ (real self + s) (vadds3 (imag self) s)
  end.

(** quaternions.py:51-52 __radd__ *)
Definition q_radd (self : quat) (s : R) : quat := q_add self (OS s).

(** quaternions.py:54-61 __sub__ *)
Definition q_sub (self : quat) (other : operand) : quat :=
  match other with
  | OQ o => mkQ (real self - real o) (vsub3 (imag self) (imag o))
  | OS s => mkQ (real self - s) (vsubs3 (imag self) s)
  end.

(** quaternions.py:63-64 __rsub__: [s - q] evaluates [q - s] *)
Definition q_rsub (self : quat) (s : R) : quat := q_sub self (OS s).

(** quaternions.py:66-77 __mul__ *)
Definition q_mul (self : quat) (other : operand) : quat :=
  match other with
  | OQ o =>
      mkQ (real self * real o - dot3 (imag self) (imag o))
          (vadd3 (vadd3 (vscal3 (real self) (imag o)) (vscal3 (real o) (imag self)))
                 (cross3 (imag self) (imag o)))
  | OS s => mkQ (real self * s) (vscal3 s (imag self))
  end.

(** quaternions.py:79-80 __rmul__ *)
Definition q_rmul (self : quat) (s : R) : quat := q_mul self (OS s).

(** quaternions.py:82-83 __abs__ *)
Definition q_abs (q : quat) : R := sqrt (real q ^ 2 + dot3 (imag q) (imag q)).

(** quaternions.py:102-103 conj *)
Definition q_conj (q : quat) : quat := mkQ (real q) (vneg3 (imag q)).

(** quaternions.py:99-100 reciprocal: conj * (1 / abs**2); nan/inf for q = 0 *)
Definition q_reciprocal (q : quat) : res quat :=
  c <- fdiv 1 (q_abs q ^ 2) ;; Ok (q_mul (q_conj q) (OS c)).

(** quaternions.py:114-115 *)
Definition quaternion_right_div (q1 q2 : quat) : res quat :=
  i <- q_reciprocal q2 ;; Ok (q_mul q1 (OQ i)).

(** quaternions.py:118-119 *)
Definition quaternion_left_div (q1 q2 : quat) : res quat :=
  i <- q_reciprocal q2 ;; Ok (q_mul i (OQ q1)).

(** quaternions.py:93-97 __truediv__ *)
Definition q_truediv (self : quat) (other : operand) : res quat :=
  match other with
  | OQ o => quaternion_right_div self o
  | OS s => c <- fdiv 1 s ;; Ok (q_mul self (OS c))
  end.

(** quaternions.py:162-169 sgn; [eps] is jnp.finfo(v.dtype).eps *)
Definition sgn (eps : R) (v : vec3) : vec3 :=
  let r := norm3 v in
  if Rle_dec r eps then zero3 else mk3 (v1 v / r) (v2 v / r) (v3 v / r).

(** quaternions.py:158-159 arg; undefined (nan) for q = 0 *)
Definition arg (q : quat) : res R := c <- fdiv 1 (q_abs q) ;; Ok (acos (real q * c)).

(** quaternions.py:122-138 quanternion_exp *)
Definition quat_exp (eps : R) (q : quat) : quat :=
  let z := exp (real q) in
  let r := norm3 (imag q) in
  mkQ (z * cos r) (vscal3 (sin r) (vscal3 z (sgn eps (imag q)))).

(** quaternions.py:141-155 quanternion_log *)
Definition quat_log (eps : R) (q : quat) : res quat :=
  let r := q_abs q in
  a <- flog r ;;
  t <- arg q ;;
  Ok (mkQ a (vscal3 t (sgn eps (imag q)))).

(** quaternions.py:85-87 __pow__ *)
Definition q_pow (eps : R) (q : quat) (pow : R) : res quat :=
  l <- quat_log eps q ;; Ok (quat_exp eps (q_mul l (OS pow))).

(** quaternions.py:89-91 __rpow__ *)
Definition q_rpow (eps : R) (q : quat) (base : R) : res quat :=
  b <- flog base ;; Ok (quat_exp eps (q_mul q (OS b))).

(** quaternions.py:172-188 quaternion_rotation: imag (q^-1 p q) *)
Definition quaternion_rotation (x : vec3) (q : quat) : res vec3 :=
  qinv <- q_reciprocal q ;;
  let p := mkQ 0 x in
  Ok (imag (q_mul (q_mul qinv (OQ p)) (OQ q))).

(** quaternions.py:191-209 quaternion_reflection *)
Definition quaternion_reflection (x normal_vec : vec3) : res vec3 :=
  let m := norm3 normal_vec in
  n1 <- fdiv (v1 normal_vec) m ;;
  n2 <- fdiv (v2 normal_vec) m ;;
  n3 <- fdiv (v3 normal_vec) m ;;
  let p := mkQ 0 x in
  let q := mkQ 0 (mk3 n1 n2 n3) in
  Ok (imag (q_mul (q_mul q (OQ p)) (OQ q))).

(** quaternions.py:212-234 from_euler_angles *)
Definition from_euler_angles (angles : vec3) : quat :=
  let a0 := v1 angles / 2 in
  let a1 := v2 angles / 2 in
  let a2 := v3 angles / 2 in
  let s0 := sin a0 in let s1 := sin a1 in let s2 := sin a2 in
  let c0 := cos a0 in let c1 := cos a1 in let c2 := cos a2 in
  mkQ (c0 * c1 * c2 + s0 * s1 * s2)
      (mk3 (s0 * c1 * c2 - c0 * s1 * s2)
           (c0 * s1 * c2 + s0 * c1 * s2)
           (c0 * c1 * s2 - s0 * s1 * c2)).

(** quaternions.py:237-252 from_axis_angle (the axis is not normalized) *)
Definition from_axis_angle (angle : R) (axis : vec3) : quat :=
  let a := angle / 2 in
  mkQ (cos a) (mk3 (v1 axis * sin a) (v2 axis * sin a) (v3 axis * sin a)).

(** ** quaternions.py:105-111 the pytree *)
(** Leaves: arrays of any shape, given by the shape and the list of entries. *)
Record leaf := mkLeaf { lshape : list nat; ldata : list R }.
(** quaternions.py:105-107 tree_flatten *)
Definition tree_flatten (q : quat) : list leaf :=
  [mkLeaf [] [real q]; mkLeaf [3%nat] [v1 (imag q); v2 (imag q); v3 (imag q)]].
(** quaternions.py:109-111 tree_unflatten: the constructor with its assertions
    (quaternions.py:20-25) *)
Definition tree_unflatten (children : list leaf) : res quat :=
  match children with
  | a :: q :: _ =>
      match lshape a, ldata a, lshape q, ldata q with
      | [], [r], [3%nat], [x; y; z] => Ok (mkQ r (mk3 x y z))
      | _, _, _, _ => Err AssertionError
      end
  | _ => Err IndexError
  end.
(** jax.tree_util.tree_map of a function of arrays *)
Definition quat_tree_map (f : leaf -> leaf) (q : quat) : res quat := tree_unflatten (map f (tree_flatten q)).
(** jax.vmap of a function that returns quaternions: the leaves of the results are
    stacked along a new first axis and the class is rebuilt from them *)
Definition stack_leaf (k : nat) (ls : list leaf) : leaf :=
  mkLeaf (k :: match ls with l :: _ => lshape l | [] => [] end) (flat_map ldata ls).
Definition vmap_quat {A} (f : A -> quat) (xs : list A) : res quat :=
  let outs := map (fun x => tree_flatten (f x)) xs in
  tree_unflatten (map (fun i => stack_leaf (length xs) (map (fun o => nth i o (mkLeaf [] [])) outs)) [0%nat; 1%nat]).
