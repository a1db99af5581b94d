(** Specification vocabulary for integrate.py: polynomials, panel sums, iterated sums. *)
From Verif Require Import Base M_Integrate.

(** Polynomial with coefficients c0, c1, ... *)
Fixpoint peval (c : list R) (x : R) : R :=
  match c with [] => 0 | a :: t => a + x * peval t x end.

(** The integrand as the library calls it in one dimension (vectorised). *)
Definition pointwise (f : R -> R) : list R -> res arr := fun x => Ok (A1 (map f x)).

(** Sum of [q a b] over all consecutive grid points. *)
Fixpoint over_panels (q : R -> R -> R) (d : list R) : R :=
  match d with
  | a :: (b :: _) as t => q a b + over_panels q t
  | _ => 0
  end.

Fixpoint increasing (d : list R) : Prop :=
  match d with
  | a :: (b :: _) as t => a < b /\ increasing t
  | _ => True
  end.
Fixpoint nondecreasing (d : list R) : Prop :=
  match d with
  | a :: (b :: _) as t => a <= b /\ nondecreasing t
  | _ => True
  end.
(** All steps at most h. *)
Fixpoint steps_at_most (h : R) (d : list R) : Prop :=
  match d with
  | a :: (b :: _) as t => b - a <= h /\ steps_at_most h t
  | _ => True
  end.

Definition first (d : list R) : R := hd 0 d.
Definition final (d : list R) : R := last d 0.

Definition lipschitz_on (a b L : R) (f : R -> R) : Prop :=
  forall x y, a <= x <= b -> a <= y <= b -> Rabs (f x - f y) <= L * Rabs (x - y).

(** A reference rule on [-1,1] that integrates x^0..x^K exactly. *)
Definition reference_exact (K : nat) (nodes weights : list R) : Prop :=
  length nodes = length weights /\
  forall k, (k <= K)%nat ->
    sumR (map2 (fun w x => w * x ^ k) weights nodes) = (1 ^ S k - (-1) ^ S k) / INR (S k).

(** Iterated one-dimensional weighted sums, first dimension outermost. *)
Fixpoint iterated (rules : list (list R * list R)) (f : list R -> R) : R :=
  match rules with
  | [] => f []
  | (w, x) :: rest => sumR (map2 (fun wi xi => wi * iterated rest (fun p => f (xi :: p))) w x)
  end.

Definition all_between (a b : R) (l : list R) : Prop := Forall (fun x => a <= x <= b) l.

(** The rules of the library and the polynomial degree they are made for. *)
Inductive library_rule : quadrule -> nat -> Prop :=
| lib_midpoint : library_rule midpoint 1
| lib_trap : library_rule trap 1
| lib_simpson : library_rule simpson 3
| lib_gauss : forall nodes weights K, reference_exact K nodes weights ->
    Forall (fun x => -1 <= x <= 1) nodes -> Forall (fun w => 0 < w) weights ->
    library_rule (gauss nodes weights) K.
