(** Smooth integrands in several dimensions. *)
From Coquelicot Require Import Coquelicot.
From Verif Require Import Base M_Integrate S_Integrate S_IntErr.

(** [F] along coordinate [i] through the point [p] *)
Definition slice (F : list R -> R) (i : nat) (p : list R) : R -> R := fun t => F (upd p i t).
(** k-th derivative of [F] with respect to coordinate [i] *)
Definition partial_n (F : list R -> R) (i k : nat) (p : list R) : R := Derive_n (slice F i p) k (nth i p 0).
(** [F] has K + 1 derivatives in each coordinate, the last ones are bounded by [M], the
    others are Lipschitz *)
Definition smooth_box (box : list (R * R)) (K : nat) (M : R) (F : list R -> R) : Prop :=
  (exists L, 0 <= L /\ lipschitz_box box L F) /\
  forall i, (i < length box)%nat -> exists lo hi, lo < fst (nth i box (0, 0)) /\ snd (nth i box (0, 0)) < hi /\
    (forall p, in_box box p -> forall x k, lo < x < hi -> (k <= S K)%nat -> ex_derive_n (slice F i p) k x) /\
    (forall p, in_box box p -> Rabs (partial_n F i (S K) p) <= M) /\
    (forall k, (k <= K)%nat -> exists L, 0 <= L /\ lipschitz_box box L (partial_n F i k)).
