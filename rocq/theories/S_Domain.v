(** Specification vocabulary for domain.py. *)
From Coquelicot Require Import Coquelicot.
From Verif Require Import Base M_RFun S_RFun M_Domain.

(** edge i of the box *)
Definition edge (l u : list R) (i : nat) : R := nth i u 0 - nth i l 0.
(** all edges have positive length *)
Definition proper_box (l u : list R) : Prop :=
  length l = length u /\ forall i, (i < length l)%nat -> nth i l 0 < nth i u 0.
Definition weak_box (l u : list R) : Prop :=
  length l = length u /\ forall i, (i < length l)%nat -> nth i l 0 <= nth i u 0.

(** Faces are numbered 0 .. 2d-1: face k < d is the lower one of coordinate k, face
    d + k the upper one.  Its area is the volume divided by the edge. *)
Definition face_axis (d k : nat) : nat := Nat.modulo k d.
Definition face_area (l u : list R) (k : nat) : R :=
  prodR (map2 Rminus u l) / edge l u (face_axis (length l) k).
Definition on_face (l u : list R) (k : nat) (y : list R) : Prop :=
  inside_closed l u y /\
  nth (face_axis (length l) k) y 0 =
    nth (face_axis (length l) k) (if Nat.ltb k (length l) then l else u) 0.
Definition on_boundary (l u y : list R) : Prop :=
  inside_closed l u y /\
  exists i, (i < length l)%nat /\ (nth i y 0 = nth i l 0 \/ nth i y 0 = nth i u 0).

(** the unit vector with the entry v at position i *)
Definition axis_vec (d i : nat) (v : R) : list R := upd (repeat 0 d) i v.

(** The tolerances separate the coordinates of x from the bounds: each coordinate is
    exactly on a bound or further away from it than the tolerance. *)
Definition resolved (l u : list R) (rtol atol : R) (x : list R) : Prop :=
  forall i, (i < length l)%nat ->
    (nth i x 0 = nth i l 0 \/ atol + rtol * Rabs (nth i l 0) < Rabs (nth i x 0 - nth i l 0)) /\
    (nth i x 0 = nth i u 0 \/ atol + rtol * Rabs (nth i u 0) < Rabs (nth i x 0 - nth i u 0)).

(** Distance of points in R^n. *)
Definition dist (x y : list R) : R := normR (vsub x y).

(** The point at arc length t along the polyline starting at p. *)
Fixpoint walk (p : list R) (rest : list (list R)) (t : R) : list R :=
  match rest with
  | [] => p
  | q :: rest' =>
      if Rle_dec t (dist q p) then vadd p (vscal (t / dist q p) (vsub q p))
      else walk q rest' (t - dist q p)
  end.
Fixpoint polyline_length (p : list R) (rest : list (list R)) : R :=
  match rest with
  | [] => 0
  | q :: rest' => dist q p + polyline_length q rest'
  end.

(** y lies on the segment from p to q; in the triangle a b c; on the edges of the
    parallelogram with corners a, b, b+c-a, c *)
Definition on_segment (p q y : list R) : Prop :=
  exists t, 0 <= t <= 1 /\ y = vadd p (vscal t (vsub q p)).
Definition in_triangle (a b c y : list R) : Prop :=
  exists s t, 0 <= s /\ 0 <= t /\ s + t <= 1 /\
    y = vadd a (vadd (vscal s (vsub b a)) (vscal t (vsub c a))).
Definition on_parallelogram_boundary (a b c y : list R) : Prop :=
  let d := vadd b (vsub c a) in
  on_segment a b y \/ on_segment b d y \/ on_segment d c y \/ on_segment c a y.

(** n is a unit vector and the box lies on the negative side of the plane through x
    with normal n *)
Definition outward_unit_normal (l u x n : list R) : Prop :=
  length n = length l /\ normR n = 1 /\ forall y, inside_closed l u y -> dotR n (vsub y x) <= 0.
Definition touches (b x : list R) (i : nat) : Prop := (i < length b)%nat /\ nth i x 0 = nth i b 0.
(** i is the first coordinate in which x has the value of the bound b *)
Definition first_touch (b x : list R) (i : nat) : Prop :=
  touches b x i /\ forall j, (j < i)%nat -> ~ touches b x j.

(** coordinate i of a computed point (0 if the computation failed) *)
Definition coord (i : nat) (r : res (list R)) : R := match r with Ok y => nth i y 0 | Err _ => 0 end.
(** J is the Jacobian matrix at x of the map F given by its coordinates: J i j is the
    derivative of coordinate i with respect to x_j *)
Definition jacobian (F : list R -> res (list R)) (x : list R) (J : nat -> nat -> R) (n : nat) : Prop :=
  forall i j, (i < n)%nat -> (j < length x)%nat ->
    is_derive (fun t => coord i (F (upd x j t))) (nth j x 0) (J i j).
Definition det22 (J : nat -> nat -> R) : R :=
  J 0%nat 0%nat * J 1%nat 1%nat - J 0%nat 1%nat * J 1%nat 0%nat.
Definition det33 (J : nat -> nat -> R) : R :=
  J 0%nat 0%nat * (J 1%nat 1%nat * J 2%nat 2%nat - J 1%nat 2%nat * J 2%nat 1%nat)
  - J 0%nat 1%nat * (J 1%nat 0%nat * J 2%nat 2%nat - J 1%nat 2%nat * J 2%nat 0%nat)
  + J 0%nat 2%nat * (J 1%nat 0%nat * J 2%nat 1%nat - J 1%nat 1%nat * J 2%nat 0%nat).
(** Gram determinant of the two columns of a Jacobian with n rows: the square of the
    area scaling of a parametrized surface *)
Definition gram (n : nat) (J : nat -> nat -> R) : R :=
  let c j := map (fun i => J i j) (seq 0 n) in
  dotR (c 0%nat) (c 0%nat) * dotR (c 1%nat) (c 1%nat) - dotR (c 0%nat) (c 1%nat) ^ 2.

(** y lies on the polyline through the points p, rest *)
Fixpoint on_polyline (p : list R) (rest : list (list R)) (y : list R) : Prop :=
  match rest with
  | [] => False
  | q :: rest' => on_segment p q y \/ on_polyline q rest' y
  end.
(** the affine map (s,t) -> B (s,t) + o *)
Definition affine_at (B : list (R * R)) (o : list R) (s t : R) : list R :=
  map2 (fun row e => fst row * s + snd row * t + e) B o.
