(** Specification vocabulary for the micromagnetic notebooks. *)
From Coquelicot Require Import Coquelicot.
From Verif Require Import Base M_Tensor S_Calc.

(** arithmetic mean *)
Definition avg {A} (f : A -> R) (X : list A) : R := sumR (map f X) / INR (length X).
(** a vector field of unit length *)
Definition unit_field (f : nat -> list R -> R) : Prop :=
  forall x, length x = 3%nat -> f 0%nat x ^ 2 + f 1%nat x ^ 2 + f 2%nat x ^ 2 = 1.
(** a unit vector *)
Definition unit3 (u : list R) : Prop := nth 0 u 0 ^ 2 + nth 1 u 0 ^ 2 + nth 2 u 0 ^ 2 = 1.
(** inner product of a vector field with a vector *)
Definition along (f : nat -> list R -> R) (u : list R) (x : list R) : R :=
  f 0%nat x * nth 0 u 0 + f 1%nat x * nth 1 u 0 + f 2%nat x * nth 2 u 0.
(** squared Frobenius norm of the Jacobian *)
Definition gradient_sq (f : nat -> list R -> R) (x : list R) : R :=
  total 3 (fun i => total 3 (fun j => pd j (f i) x ^ 2)).
(** a sample point with precomputed data *)
Notation sample := (tensor * list tensor)%type.
(** the stray field solver returns the vector [h] at every sample point *)
Definition gives (hs : tensor -> list tensor -> res tensor) (X : list sample) (h : sample -> list R) : Prop :=
  forall p, In p X -> exists y, hs (fst p) (snd p) = Ok y /\ shape y = [3%nat] /\
    forall i, (i < 3)%nat -> entry y [i] = nth i (h p) 0.
Definition points (X : list sample) : Prop := X <> [] /\ forall p, In p X -> shape (fst p) = [3%nat].
(** the mean of the inner products of the magnetization and the stray field *)
Definition interaction (X : list sample) (f : nat -> list R -> R) (h : sample -> list R) : R :=
  avg (fun p => along f (h p) (tlist (fst p))) X.
