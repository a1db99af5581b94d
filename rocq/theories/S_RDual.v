(** Specification vocabulary for derivatives of ADFs: a pair (value, tangent) is correct for a
    function of one real variable when it is its value and derivative at 0. *)
From Coquelicot Require Import Coquelicot.
From Verif Require Import Base M_Quat M_RFun M_Solid M_RDual S_Solid S_SolidBC.

Definition dual_of (f : R -> R) (p : du) : Prop := f 0 = fst p /\ is_derive f 0 (snd p).
(** the same for a computation that is successful near 0 *)
Definition dtrack (F : R -> res R) (p : du) : Prop :=
  exists phi, dual_of phi p /\ locally 0 (fun s => F s = Ok (phi s)).
(** J differentiates f along every curve: if x holds the values and derivatives of the
    coordinates fs of a curve and J returns p, then p is the value and derivative of f on it *)
Definition tracks (n : nat) (J : list du -> res du) (f : adf) : Prop :=
  forall fs x p, length x = n -> Forall2 dual_of fs x -> J x = Ok p ->
    dtrack (fun s => f (A1 (map (fun g => g s) fs))) p.
Definition op_tracks (D : du -> du -> res du) (op : R -> R -> res R) : Prop :=
  forall fa fb a b p, dual_of fa a -> dual_of fb b -> D a b = Ok p -> dtrack (fun s => op (fa s) (fb s)) p.
Definition sys_tracks (d : drsys) (s : rsys) : Prop :=
  op_tracks (dconj d) (conj_ s) /\ op_tracks (ddisj d) (disj_ s).
(** the derivative of the R-function is finite except when both operands are 0 *)
Definition sys_finite (d : drsys) : Prop := forall a b, fst a <> 0 \/ fst b <> 0 ->
  (exists p, dconj d a b = Ok p) /\ (exists p, ddisj d a b = Ok p).

(** the functions written by the user that a program calls *)
Fixpoint user_parts (t : solid) : list adf :=
  match t with
  | Prim (User f) => [f]
  | Prim _ => []
  | Move _ a | Negate a => user_parts a
  | Op2 _ _ a b => user_parts a ++ user_parts b
  | All _ l | Any _ l => flat_map user_parts l
  end.

(** an R-system whose operations are continuously differentiable, with finite correct derivatives *)
Definition usable (dsys : rsys -> drsys) (s : rsys) : Prop := smooth_system s /\ sys_tracks (dsys s) s /\ sys_finite (dsys s).
(** a function with correct derivatives that are finite where it is continuously differentiable *)
Definition user_ok (user : adf -> jadf) (f : adf) : Prop :=
  (forall n, tracks n (user f) f) /\ forall x, smooth_near f x -> forall X : list du, map fst X = x -> exists p, user f X = Ok p.
