(** Specification vocabulary for surface_integral.py. *)
From Coquelicot Require Import Coquelicot.
From Verif Require Import Base M_Tensor S_Calc S_Model S_Integrate M_Integrate.

(** [repT] on the points where [D] holds *)
Definition repD (n : nat) (D : list R -> Prop) (s : list nat) (F : tensor -> res tensor)
  (f : list nat -> list R -> R) : Prop :=
  forall t, shape t = [n] -> D (tlist t) -> exists y, F t = Ok y /\ shape y = s /\
    forall p, inside s p -> entry y p = f p (tlist t).

(** the parameter rectangle of two grids *)
Definition rect (u v : list R) (q : list R) : Prop :=
  exists a b, q = [a; b] /\ first u <= a <= final u /\ first v <= b <= final v.

(** the point of the surface with components [pf 0, pf 1, pf 2] *)
Definition point (pf : nat -> list R -> R) (q : list R) : list R := [pf 0%nat q; pf 1%nat q; pf 2%nat q].
Definition on_surface (pf : nat -> list R -> R) (u v : list R) (y : list R) : Prop :=
  exists q, rect u v q /\ y = point pf q.
(** length of the vector product of the two tangent vectors *)
Definition area (pf : nat -> list R -> R) (q : list R) : R :=
  let a k := pd 0 (pf k) q in
  let b k := pd 1 (pf k) q in
  sqrt ((a 1%nat * b 2%nat - a 2%nat * b 1%nat) ^ 2 + (a 2%nat * b 0%nat - a 0%nat * b 2%nat) ^ 2
        + (a 0%nat * b 1%nat - a 1%nat * b 0%nat) ^ 2).

(** A parametrization of a patch of surface over the grids [u], [v]: it can be
    evaluated on an open set that contains the rectangle. *)
Definition parametrizes (P : tensor -> res tensor) (pf : nat -> list R -> R) (u v : list R) : Prop :=
  exists D, openset 2 D /\ (forall q, rect u v q -> D q) /\
    repD 2 D [3%nat] P (fun p => pf (hd 0%nat p)).

(** A product quadrature of [h] over the rectangle. *)
Definition quad2 (method : quadrule) (u v : list R) (h : list R -> R) (r : R) : Prop :=
  exists ru rv, method u = Ok ru /\ method v = Ok rv /\ r = iterated [ru; rv] h.

Definition dist (x y : list R) : R := normR (map2 Rminus x y).

(** Polynomials of degree at most [n] on vectors with three components. *)
Inductive poly : nat -> (list R -> R) -> Prop :=
| poly_const n c : poly n (fun _ => c)
| poly_mul n i f : (i < 3)%nat -> poly n f -> poly (S n) (fun x => nth i x 0 * f x)
| poly_add n f g : poly n f -> poly n g -> poly n (fun x => f x + g x)
| poly_same n f g : poly n f -> (forall x, length x = 3%nat -> f x = g x) -> poly n g.

(** k-th directional derivative of [f] at [c] along [d]: the sum over all
    multi-indices of the derivative times the product of components *)
Fixpoint dirder (k : nat) (f : list R -> R) (c d : list R) : R :=
  match k with
  | O => f c
  | S k' => total 3 (fun i => nth i d 0 * dirder k' (pd i f) c d)
  end.
(** Taylor polynomial of degree [n] at [c] *)
Definition taylor (n : nat) (f : list R -> R) (c y : list R) : R :=
  total (S n) (fun k => dirder k f c (map2 Rminus y c) / INR (fact k)).

(** the i-th cell of a grid and its middle *)
Definition cell (u : list R) (i : nat) : list R := [nth i u 0; nth (S i) u 0].
Definition middle (u : list R) (i : nat) : R := (nth i u 0 + nth (S i) u 0) / 2.
(** the first axis of an index moved to the end *)
Definition rot {A} (p : list A) : list A := match p with [] => [] | a :: t => t ++ [a] end.

(** all partial derivatives exist *)
Definition partials (n : nat) (f : list R -> R) (X : list R) : Prop :=
  forall i, (i < n)%nat -> ex_derive (fun t => f (upd X i t)) (nth i X 0).
Definition grad (n : nat) (w : list R -> R) (X : list R) : list R := map (fun i => pd i w X) (seq 0 n).
(** outward unit normal of [{w > 0}] *)
Definition outward (n : nat) (w : list R -> R) (X : list R) (k : nat) : R := - pd k w X / normR (grad n w X).
Definition vprod (a b : nat -> R) (i : nat) : R :=
  a ((i + 1) mod 3)%nat * b ((i + 2) mod 3)%nat - a ((i + 2) mod 3)%nat * b ((i + 1) mod 3)%nat.
