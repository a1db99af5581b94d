(** Specification vocabulary for reverse-mode derivatives of odeint with respect to the times. *)
From Coquelicot Require Import Coquelicot.
From Verif Require Import Base M_Tree M_Ode M_RDual S_RDual M_OdeAD S_OdeAD M_OdeADt.

(** for states of shape sh, J computes the value of df; vjp and vjpt together are the transpose of its derivative in y and t *)
Definition transposed_yt (J : ddynamics) (df : dynamics) (vjp : rdynamics) (vjpt : tdynamics) (sh : list nat) : Prop :=
  forall x t, dshape x = sh -> exists p, J x t = Ok p /\ dshape p = sh /\ df (values x) (fst t) = Ok (values p) /\
    forall c, shape c = sh -> exists r u, vjp (values x) (fst t) c = Ok r /\ vjpt (values x) (fst t) c = Ok u /\ shape r = sh /\
      tdot r (tangents x) + u * snd t = tdot c (tangents p).
(** the same for one step *)
Definition step_transposed_yt (J : ddynamics) (df : dynamics) (vjp : rdynamics) (vjpt : tdynamics) (sh : list nat) (D : dstepper) (m : stepper) (r : tstepper) : Prop :=
  forall x t d, dshape x = sh -> exists p, D J x t d = Ok p /\ dshape p = sh /\ m df (values x) (fst t) (fst d) = Ok (values p) /\
    forall c, shape c = sh -> exists b ut ud, r df vjp vjpt (values x) (fst t) (fst d) c = Ok (b, ut, ud) /\ shape b = sh /\
      tdot b (tangents x) + ut * snd t + ud * snd d = tdot c (tangents p).
