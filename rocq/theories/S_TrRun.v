(** Specification for TR.run. *)
From Verif Require Import Base M_XR.
Open Scope R_scope.
(** the gradient norm of a state is above the tolerance *)
Definition above (e : xr) (t : R) : Prop :=
  match e with Fin r => t < r | PInf => True | NInf => False | NaN => False end.
