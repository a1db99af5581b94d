(** Pytrees of arrays with a fixed tree structure: the list of their leaves (raveled).
    jaxopt.tree_util (imported in prelude.py:135-149) maps elementwise over the leaves;
    two trees with different structure are rejected (ValueError), leaves broadcast. *)
From Verif Require Import Base.

Definition tree := list (list R).

Definition tree_map1 (f : R -> R) (t : tree) : tree := map (map f) t.
Definition tree_map2 (f : R -> R -> R) (s t : tree) : res tree :=
  if Nat.eqb (length s) (length t) then sequence (map2 (bcast1 f) s t) else Err ValueError.
Definition tree_add := tree_map2 Rplus.
Definition tree_sub := tree_map2 Rminus.
Definition tree_scalar_mul (c : R) (t : tree) : tree := tree_map1 (Rmult c) t.

(** Same structure and leaf shapes. *)
Definition shape (t : tree) : list nat := map (@length R) t.
Definition shape_eqb (s t : tree) : bool := if list_eq_dec Nat.eq_dec (shape s) (shape t) then true else false.
