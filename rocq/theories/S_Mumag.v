(** Specification vocabulary for examples/mumag3.py. *)
From Coquelicot Require Import Coquelicot.
From Verif Require Import Base M_Tensor M_Integrate S_Calc S_Integrate S_Surface.

(** vector product, multiples and sums of 3-vectors given as lists *)
Definition vec_prod (a b : list R) : list R :=
  [nth 1 a 0 * nth 2 b 0 - nth 2 a 0 * nth 1 b 0; nth 2 a 0 * nth 0 b 0 - nth 0 a 0 * nth 2 b 0;
   nth 0 a 0 * nth 1 b 0 - nth 1 a 0 * nth 0 b 0].
Definition times (t : R) (a : list R) : list R := map (fun e => t * e) a.
Definition plus (a b : list R) : list R := map2 Rplus a b.

(** grids accepted for one axis *)
Definition good_grid (g : list R) : Prop := (2 <= length g)%nat /\ nondecreasing g.
(** the grids of the three axes *)
Definition axis_grid (xs ys zs : list R) (k : nat) : list R :=
  match k with O => xs | S O => ys | _ => zs end.

(** a side of the box: the axis with constant value and whether it is the upper one;
    the two other axes in ascending order *)
Definition first_axis (k : nat) : nat := match k with O => 1%nat | _ => 0%nat end.
Definition second_axis (k : nat) : nat := match k with S (S O) => 1%nat | _ => 2%nat end.
Definition side_value (xs ys zs : list R) (k : nat) (upper : bool) : R :=
  if upper then final (axis_grid xs ys zs k) else first (axis_grid xs ys zs k).
(** the point of the plane [x_k = v] with coordinates [q] in the other axes *)
Definition place (k : nat) (v : R) (q : list R) : list R :=
  match k with
  | O => [v; nth 0 q 0; nth 1 q 0]
  | S O => [nth 0 q 0; v; nth 1 q 0]
  | _ => [nth 0 q 0; nth 1 q 0; v]
  end.
(** the closed surface of the box *)
Definition on_side (xs ys zs : list R) (k : nat) (upper : bool) (y : list R) : Prop :=
  exists q, rect (axis_grid xs ys zs (first_axis k)) (axis_grid xs ys zs (second_axis k)) q /\
    y = place k (side_value xs ys zs k upper) q.
Definition on_boundary (xs ys zs : list R) (y : list R) : Prop :=
  exists k upper, (k < 3)%nat /\ on_side xs ys zs k upper y.

(** Taylor polynomial of degree two in the directions [i], [j] *)
Definition plane_taylor (i j : nat) (g : list R -> R) (c y : list R) : R :=
  let a := nth i y 0 - nth i c 0 in
  let b := nth j y 0 - nth j c 0 in
  g c + pd i g c * a + pd j g c * b + pd i (pd i g) c * a ^ 2 / 2 + pd j (pd i g) c * (a * b)
  + pd j (pd j g) c * b ^ 2 / 2.
(** a cell divided into [n] equal parts *)
Definition divided (g : list R) (i n : nat) : list R :=
  map (fun m => nth i g 0 + INR m * ((nth (S i) g 0 - nth i g 0) / INR n)) (seq 0 (S n)).
(** sum over the six sides *)
Definition six (F : nat -> bool -> R) : R :=
  F 0%nat false + F 0%nat true + F 1%nat false + F 1%nat true + F 2%nat false + F 2%nat true.
(** coordinate [k] is at a bound, the others are strictly between theirs *)
Definition side_interior (xs ys zs : list R) (k : nat) (upper : bool) (y : list R) : Prop :=
  length y = 3%nat /\ (k < 3)%nat /\ nth k y 0 = side_value xs ys zs k upper /\
  first (axis_grid xs ys zs k) < final (axis_grid xs ys zs k) /\
  forall i, (i < 3)%nat -> i <> k ->
    first (axis_grid xs ys zs i) < nth i y 0 < final (axis_grid xs ys zs i).
(** outward unit normal of a side *)
Definition side_normal (k : nat) (upper : bool) (i : nat) : R :=
  if Nat.eqb i k then if upper then 1 else -1 else 0.
(** the network of hidden units [tanh (W z + b)], [z] being the point scaled to [-1, 1],
    with output weights [p]; [k] is the number of units *)
Definition scaled (xs ys zs : list R) (X : list R) (i : nat) : R :=
  2 * (nth i X 0 - first (axis_grid xs ys zs i)) / (final (axis_grid xs ys zs i) - first (axis_grid xs ys zs i)) - 1.
Definition network (xs ys zs : list R) (k : nat) (W : nat -> nat -> R) (b p : nat -> R) (X : list R) : R :=
  total k (fun j => tanh (total 3 (fun i => W j i * scaled xs ys zs X i) + b j) * p j).
(** derivative in outward normal direction of a side *)
Definition normal_derivative (k : nat) (upper : bool) (f : list R -> R) (X : list R) : R :=
  total 3 (fun i => pd i f X * side_normal k upper i).
(** [r] is the quadrature over the surface of [h y / |X - y|]; every cell of a side is
    divided [n] times in both directions; [h] may depend on the side and the cell *)
Definition box_rule (method : quadrule) (n : nat) (xs ys zs : list R) (h : nat -> bool -> nat -> nat -> list R -> R)
  (X : list R) (r : R) : Prop :=
  exists q : nat -> bool -> nat -> nat -> R,
    (forall k b i j, (k < 3)%nat -> (S i < length (axis_grid xs ys zs (first_axis k)))%nat ->
       (S j < length (axis_grid xs ys zs (second_axis k)))%nat ->
       quad2 method (divided (axis_grid xs ys zs (first_axis k)) i n) (divided (axis_grid xs ys zs (second_axis k)) j n)
         (fun s => let y := place k (side_value xs ys zs k b) s in h k b i j y / dist X y) (q k b i j)) /\
    r = six (fun k b => total (length (axis_grid xs ys zs (first_axis k)) - 1) (fun i =>
          total (length (axis_grid xs ys zs (second_axis k)) - 1) (fun j => q k b i j))).
(** middle of a cell of a side *)
Definition cell_middle (xs ys zs : list R) (k : nat) (b : bool) (i j : nat) : list R :=
  place k (side_value xs ys zs k b)
    [middle (axis_grid xs ys zs (first_axis k)) i; middle (axis_grid xs ys zs (second_axis k)) j].
(** the charge replaced by its expansion at the middle of each cell *)
Definition expanded (xs ys zs : list R) (g : list R -> R) (k : nat) (b : bool) (i j : nat) (y : list R) : R :=
  plane_taylor (first_axis k) (second_axis k) g (cell_middle xs ys zs k b i j) y.
