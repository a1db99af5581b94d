(** Specification vocabulary for integer arguments: a typed result has the value (or the
    error) of the computation on reals. *)
From Verif Require Import Base M_Quat M_Dtype.

Definition same_value (a : res tquat) (b : res quat) : Prop :=
  match a, b with Ok x, Ok y => qval x = y | Err e, Err e' => e = e' | _, _ => False end.
