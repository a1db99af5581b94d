(** Specification vocabulary for the trust region solver on functions of pytrees. *)
From Coquelicot Require Import Coquelicot.
From Verif Require Import Base M_Tr M_Tensor M_Calc M_HvpTree S_Calc S_Jac S_HvpTree.

(** all vectors with [n] entries *)
Definition whole (n : nat) (X : list R) : Prop := length X = n.
(** The user's function of a pytree with leaves of shapes [sh]: it returns the value
    [phi], on request with an auxiliary value and with the gradient. *)
Definition user_function (sh : list (list nat)) (D : list R -> Prop) (phi : list R -> R) (aux : list R -> nat)
  (value_and_grad has_aux : bool) (f : list tensor -> res outL) : Prop :=
  forall x, shapes x = sh -> D (flats x) ->
    exists v, shape v = [] /\ entry v [] = phi (flats x) /\
    if value_and_grad then
      exists g, shapes g = sh /\ flats g = map (fun i => pd i phi (flats x)) (seq 0 (size_ sh)) /\
        f x = Ok (if has_aux then LAuxGrad v (aux (flats x)) g else LGrad v g)
    else f x = Ok (if has_aux then LAux v (aux (flats x)) else LVal v).
Definition gradient (n : nat) (phi : list R -> R) (X : list R) : list R := map (fun i => pd i phi X) (seq 0 n).
(** Hessian times vector, and its difference quotient *)
Definition hess_vec (n : nat) (phi : list R -> R) (X V : list R) : list R := map (hv_ n phi X V) (seq 0 n).
Definition diff_vec (n : nat) (h : R) (phi : list R -> R) (X V : list R) : list R :=
  map (fun i => (pd i phi (axpy h X V) - pd i phi X) / h) (seq 0 n).
Definition curvature_bound (n : nat) (phi : list R -> R) (B : R) : Prop :=
  forall X V, length X = n -> length V = n -> Rabs (dotR V (hess_vec n phi X V)) <= B * dotR V V.
(** difference quotients of the gradient are exact (for quadratic functions) *)
Definition exact_differences (n : nat) (h : R) (phi : list R -> R) : Prop :=
  forall X V, length X = n -> length V = n -> diff_vec n h phi X V = hess_vec n phi X V.
(** leaves with the right numbers of entries *)
Definition sized (sh : list (list nat)) (t : list (list R)) : Prop := map (@length R) t = map size1 sh.
