(** Specification vocabulary for Jacobians of functions of arrays of any shape. *)
From Coquelicot Require Import Coquelicot.
From Verif Require Import Base M_Tensor M_Calc M_Jac S_Calc S_Model.

(** the indices of an array of shape [s] in row-major order *)
Fixpoint indices (s : list nat) : list (list nat) :=
  match s with
  | [] => [[]]
  | n :: s' => flat_map (fun i => map (cons i) (indices s')) (seq 0 n)
  end.
Definition flatten (t : tensor) : list R := map (entry t) (indices (shape t)).

(** [F] maps arrays of shape [sx], whose entries satisfy [D], to arrays of shape [s]
    with the entries [f p]. *)
Definition computes (sx s : list nat) (D : list R -> Prop) (F : tensor -> res tensor)
  (f : list nat -> list R -> R) : Prop :=
  forall t, shape t = sx -> D (flatten t) -> exists y, F t = Ok y /\ shape y = s /\
    forall p, inside s p -> entry y p = f p (flatten t).

(** [J] is the Jacobian of [f] at [x]: the output index comes first. *)
Definition is_jacobian (s : list nat) (f : list nat -> list R -> R) (x J : tensor) : Prop :=
  shape J = s ++ shape x /\
  forall p q k, inside s p -> nth_error (indices (shape x)) k = Some q ->
    entry J (p ++ q) = pd k (f p) (flatten x).

(** equal shapes and entries *)
Definition same_array (a b : tensor) : Prop :=
  shape a = shape b /\ forall p, inside (shape a) p -> entry a p = entry b p.
Definition same_result (a b : res tensor) : Prop :=
  match a, b with
  | Ok a, Ok b => same_array a b
  | Err e, Err e' => e = e'
  | _, _ => False
  end.
(** [J] is the Jacobian with respect to argument [k] wherever that makes sense:
    on every open set where the function of this argument is known. *)
Definition arg_jacobian (s : list nat) (F : list tensor -> res tensor) (args : list tensor) (k : nat) (J : tensor) : Prop :=
  forall x D f, nth_error args k = Some x -> openset (length (indices (shape x))) D -> D (flatten x) ->
    computes (shape x) s D (fun t => F (upd args k t)) f -> is_jacobian s f x J.

(** the function (x, p, ...) -> m.apply(p, x, ...) of a module *)
Definition applied (m : module) (kw : kwargs) (l : list tensor) : res tensor :=
  match l with x :: p :: rest => mapply m p (x :: rest) kw | _ => Err TypeError end.
