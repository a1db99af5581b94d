(** Specification vocabulary for quaternions.py: textbook notions only. *)
From Verif Require Import Base M_Quat.

(** Hamilton's product on coordinates (w,x,y,z), written out. *)
Definition hamilton (p q : R * R * R * R) : R * R * R * R :=
  let '(a1, b1, c1, d1) := p in
  let '(a2, b2, c2, d2) := q in
  (a1 * a2 - b1 * b2 - c1 * c2 - d1 * d2,
   a1 * b2 + b1 * a2 + c1 * d2 - d1 * c2,
   a1 * c2 - b1 * d2 + c1 * a2 + d1 * b2,
   a1 * d2 + b1 * c2 - c1 * b2 + d1 * a2).

(** Coordinates of a model quaternion. *)
Definition coords (q : quat) : R * R * R * R :=
  (real q, v1 (imag q), v2 (imag q), v3 (imag q)).

Definition q_one := mkQ 1 (mk3 0 0 0).
Definition q_i := mkQ 0 (mk3 1 0 0).
Definition q_j := mkQ 0 (mk3 0 1 0).
Definition q_k := mkQ 0 (mk3 0 0 1).

(** Rodrigues: x turned by the angle t about the unit axis n, right-hand rule. *)
Definition rodrigues (t : R) (n x : vec3) : vec3 :=
  vadd3 (vadd3 (vscal3 (cos t) x) (vscal3 (sin t) (cross3 n x)))
        (vscal3 ((1 - cos t) * dot3 n x) n).

(** Elementary right-handed rotations about the coordinate axes. *)
Definition rot_x (t : R) (x : vec3) :=
  mk3 (v1 x) (cos t * v2 x - sin t * v3 x) (sin t * v2 x + cos t * v3 x).
Definition rot_y (t : R) (x : vec3) :=
  mk3 (cos t * v1 x + sin t * v3 x) (v2 x) (- sin t * v1 x + cos t * v3 x).
Definition rot_z (t : R) (x : vec3) :=
  mk3 (cos t * v1 x - sin t * v2 x) (sin t * v1 x + cos t * v2 x) (v3 x).

(** Mirror image of x in the plane through 0 with normal n. *)
Definition mirror (n x : vec3) : vec3 := vsub3 x (vscal3 (2 * dot3 x n / dot3 n n) n).

(** n-fold product. *)
Fixpoint q_power (q : quat) (n : nat) : quat :=
  match n with O => q_one | S k => q_mul q (OQ (q_power q k)) end.

Definition is_unit (v : vec3) : Prop := dot3 v v = 1.
