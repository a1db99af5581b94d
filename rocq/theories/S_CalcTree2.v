(** Specification vocabulary for Jacobians and derivatives of functions with pytree results. *)
From Coquelicot Require Import Coquelicot.
From Verif Require Import Base M_Tensor M_CalcTree S_Calc S_Model S_Jac S_CalcTree.

(** a function of arrays of shape [sx] that computes the tree of fields (of the entries of
    the array in row-major order) *)
Definition computes_fields (sx : list nat) (D : list R -> Prop) (F : tensor -> res ptree) (td : treedef) (us : list field) : Prop :=
  forall t, shape t = sx -> D (flatten t) -> exists y, F t = Ok y /\ tree_of td us (flatten t) y.
(** every leaf is the Jacobian of its field at [x] *)
Definition jacobians_at (x : tensor) (us : list field) (Js : list tensor) : Prop :=
  Forall2 (fun J u => is_jacobian (fst u) (snd u) x J) Js us.

(** a function of [n] 0-d arguments *)
Definition computes_scalars (n : nat) (F : list tensor -> res ptree) (td : treedef) (us : list field) : Prop :=
  forall args, length args = n -> Forall (fun t => shape t = []) args ->
    exists y, F args = Ok y /\ tree_of td us (map (fun t => entry t []) args) y.
(** a function of vector arguments of sizes [ns] *)
Definition fieldL := (list nat * (list nat -> list (list R) -> R))%type.
Definition computes_vectors (ns : list nat) (F : list tensor -> res ptree) (td : treedef) (us : list fieldL) : Prop :=
  forall args, map shape args = map (fun n => [n]) ns ->
    exists y, F args = Ok y /\ tdef y = td /\
      Forall2 (fun a u => shape a = fst u /\ forall p, inside (fst u) p -> entry a p = snd u p (map tlist args)) (leaves y) us.
