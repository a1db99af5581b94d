(** Specification vocabulary for functions of several pytrees of arrays. *)
From Coquelicot Require Import Coquelicot.
From Verif Require Import Base M_Tensor M_Calc M_HvpTree S_Calc S_Jac.

(** all entries of a tree, of several trees *)
Definition flats (p : list tensor) : list R := concat (map flatten p).
Definition flatss (ps : list (list tensor)) : list R := concat (map flats ps).
(** the shapes of the leaves *)
Definition shapes (p : list tensor) : list (list nat) := map shape p.
(** numbers of entries *)
Definition size1 (s : list nat) : nat := length (indices s).
Definition size_ (sh : list (list nat)) : nat := list_sum (map size1 sh).
Definition sizes_ (shs : list (list (list nat))) : nat := list_sum (map size_ shs).

(** [F] computes the real function [phi] of all entries of trees of the shapes [shs] *)
Definition computesL (shs : list (list (list nat))) (D : list R -> Prop) (F : list (list tensor) -> res tensor)
  (phi : list R -> R) : Prop :=
  forall ps, map shapes ps = shs -> D (flatss ps) ->
    exists v, F ps = Ok v /\ shape v = [] /\ entry v [] = phi (flatss ps).
(** an objective in one of the four calling conventions, with the gradient with respect
    to the first tree *)
Definition objectiveL (sh : list (list nat)) (shs : list (list (list nat))) (D : list R -> Prop)
  (phi : list R -> R) (aux : list R -> nat) (value_and_grad has_aux : bool) (F : list (list tensor) -> res outL) : Prop :=
  forall ps, map shapes ps = sh :: shs -> D (flatss ps) ->
    exists v, shape v = [] /\ entry v [] = phi (flatss ps) /\
    if value_and_grad then
      exists g, shapes g = sh /\ flats g = map (fun i => pd i phi (flatss ps)) (seq 0 (size_ sh)) /\
        F ps = Ok (if has_aux then LAuxGrad v (aux (flatss ps)) g else LGrad v g)
    else F ps = Ok (if has_aux then LAux v (aux (flatss ps)) else LVal v).
