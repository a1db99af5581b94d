(** Errors of surface integrals and potentials: vocabulary. *)
From Coquelicot Require Import Coquelicot.
From Verif Require Import Base M_Tensor M_Integrate S_Calc S_Model S_Integrate S_IntErr S_IntOrder S_Surface S_Mumag.

(** [D] contains the segment between any two of its points *)
Definition convex (D : list R -> Prop) : Prop :=
  forall a b t, D a -> D b -> 0 <= t <= 1 -> D (axpy t a (map2 Rminus b a)).
(** derivatives of order [k] bounded by [M] in all directions *)
Definition derivatives_below (k : nat) (D : list R -> Prop) (f : list R -> R) (M : R) : Prop :=
  forall z d, D z -> length d = 3%nat -> Rabs (dirder k f z d) <= M * normR d ^ k.
(** the parametrization stretches lengths at most by [L] *)
Definition stretches (pf : nat -> list R -> R) (u v : list R) (L : R) : Prop :=
  forall a b a' b', rect u v [a; b] -> rect u v [a'; b'] ->
    dist (point pf [a; b]) (point pf [a'; b']) <= L * (Rabs (a - a') + Rabs (b - b')).
(** the integral of [h] over the parameter rectangle *)
Definition rect_integral (u v : list R) (h : list R -> R) : R := iterated_RInt (covered [u; v]) h.
(** the integral of [g y / |X - y|] over the surface and the area of the surface of a
    box given by the grids of the axes *)
Definition box_potential (xs ys zs : list R) (g : list R -> R) (X : list R) : R :=
  six (fun k b => rect_integral (axis_grid xs ys zs (first_axis k)) (axis_grid xs ys zs (second_axis k))
                    (fun q => let y := place k (side_value xs ys zs k b) q in g y / dist X y)).
Definition extent (g : list R) : R := final g - first g.
Definition box_area (xs ys zs : list R) : R :=
  2 * (extent xs * extent ys + extent xs * extent zs + extent ys * extent zs).
