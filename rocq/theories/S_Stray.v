(** Specification of the stray field fit of examples/mumag3.py. *)
From Coquelicot Require Import Coquelicot.
From Verif Require Import Base M_Tensor M_Integrate S_Calc S_Integrate S_Surface S_Mumag.

(** Contract of the reduced singular value decomposition of an [N x K] matrix *)
Definition is_svd (N K : nat) (Q U s VT : tensor) : Prop :=
  let r := Nat.min N K in
  shape U = [N; r] /\ shape s = [r] /\ shape VT = [r; K] /\
  (forall a b, (a < r)%nat -> (b < r)%nat -> total N (fun i => entry U [i; a] * entry U [i; b]) = if Nat.eqb a b then 1 else 0) /\
  (forall a b, (a < r)%nat -> (b < r)%nat -> total K (fun j => entry VT [a; j] * entry VT [b; j]) = if Nat.eqb a b then 1 else 0) /\
  (forall a, (a < r)%nat -> 0 <= entry s [a]) /\
  (forall i j, (i < N)%nat -> (j < K)%nat -> entry Q [i; j] = total r (fun a => entry U [i; a] * entry s [a] * entry VT [a; j])).

(** the point is strictly inside the box *)
Definition inside_box (xs ys zs : list R) (x : list R) : Prop :=
  length x = 3%nat /\ forall i, (i < 3)%nat -> first (axis_grid xs ys zs i) < nth i x 0 < final (axis_grid xs ys zs i).

(** squared residual of the Poisson equation [laplace phi = div m] at the points *)
Definition misfit (X : list tensor) (phi : list R -> R) (M : nat -> list R -> R) : R :=
  sumR (map (fun x => (lap_ 3 phi (tlist x) - div_ 3 M (tlist x)) ^ 2) X).
Definition square (k : nat) (p : tensor) : R := total k (fun j => entry p [j] ^ 2).
