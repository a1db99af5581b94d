(** Specification vocabulary for reverse-mode derivatives of odeint with respect to additional arguments. *)
From Coquelicot Require Import Coquelicot.
From Verif Require Import Base M_Tree M_Ode M_RDual S_RDual M_OdeAD S_OdeAD M_OdeADp.

(** for states of shape sh and the tangent dp of the arguments, J computes the value of df; vjp and vjpp together
    are the transpose of its derivative *)
Definition transposed_yp (J : ddynamics) (df : dynamics) (vjp vjpp : rdynamics) (sh : list nat) (dp : tree) : Prop :=
  forall x t, dshape x = sh -> exists p, J x (t, 0) = Ok p /\ dshape p = sh /\ df (values x) t = Ok (values p) /\
    forall c, shape c = sh -> exists r w, vjp (values x) t c = Ok r /\ vjpp (values x) t c = Ok w /\ shape r = sh /\ shape w = shape dp /\
      tdot r (tangents x) + tdot w dp = tdot c (tangents p).
(** the same for one step *)
Definition step_transposed_yp (J : ddynamics) (df : dynamics) (vjp vjpp : rdynamics) (sh : list nat) (dp : tree) (D : dstepper) (m : stepper) (r : pstepper) : Prop :=
  forall x t d, dshape x = sh -> exists p, D J x (t, 0) (d, 0) = Ok p /\ dshape p = sh /\ m df (values x) t d = Ok (values p) /\
    forall c, shape c = sh -> exists b w, r df vjp vjpp (values x) t d c = Ok (b, w) /\ shape b = sh /\ shape w = shape dp /\
      tdot b (tangents x) + tdot w dp = tdot c (tangents p).
