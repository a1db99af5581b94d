(** Specification vocabulary for functions with pytree results. *)
From Coquelicot Require Import Coquelicot.
From Verif Require Import Base M_Tensor M_CalcTree S_Calc S_Model.

(** a field: the shape of its values and one real function per index *)
Definition field := (list nat * (list nat -> list R -> R))%type.
(** the array [a] is the value of the field at [X] *)
Definition value_of (X : list R) (a : tensor) (u : field) : Prop :=
  shape a = fst u /\ forall p, inside (fst u) p -> entry a p = snd u p X.
(** a tree of the given structure with the values of the fields as leaves *)
Definition tree_of (td : treedef) (us : list field) (X : list R) (y : ptree) : Prop :=
  tdef y = td /\ Forall2 (value_of X) (leaves y) us.
(** a function of vectors of length [n] that computes the tree of fields *)
Definition computes_tree (n : nat) (D : list R -> Prop) (F : tensor -> res ptree) (td : treedef) (us : list field) : Prop :=
  forall t, shape t = [n] -> D (tlist t) -> exists y, F t = Ok y /\ tree_of td us (tlist t) y.

(** ** operators on fields *)
Definition jac_field (n : nat) (u : field) : field :=
  (fst u ++ [n], fun pq => pd (last pq 0%nat) (snd u (removelast pq))).
(** the Laplacian of every entry *)
Definition lap_field (n : nat) (u : field) : field := (fst u, fun p => lap_ n (snd u p)).
(** the divergence over the last axis of a vector or matrix field; of a scalar field
    the sum of its partial derivatives *)
Definition div_field (n : nat) (u : field) : field :=
  match fst u with
  | [] => ([], fun _ X => total n (fun i => pd i (snd u []) X))
  | s => (removelast s, fun p X => total (Nat.min (last s 0%nat) n) (fun i => pd i (snd u (p ++ [i])) X))
  end.
(** the curl over the last axis *)
Definition curl3_field (u : field) : field :=
  (fst u, fun p => curl3_ (fun i => snd u (removelast p ++ [i])) (last p 0%nat)).
Definition curl2_field (u : field) : field :=
  (removelast (fst u), fun p => curl2_ (fun i => snd u (p ++ [i]))).
(** fields whose last axis has size [n] *)
Definition last_axis (n : nat) (u : field) : Prop := exists s, fst u = s ++ [n].

(** ** points without axes *)
Definition field0 := (list nat * (list nat -> R -> R))%type.
Definition tree_of0 (td : treedef) (us : list field0) (x : R) (y : ptree) : Prop :=
  tdef y = td /\ Forall2 (fun a u => shape a = fst u /\ forall p, inside (fst u) p -> entry a p = snd u p x) (leaves y) us.
Definition computes_tree0 (F : tensor -> res ptree) (td : treedef) (us : list field0) : Prop :=
  forall t, shape t = [] -> exists y, F t = Ok y /\ tree_of0 td us (entry t []) y.
