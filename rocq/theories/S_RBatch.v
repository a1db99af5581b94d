(** Specification for ADFs called with a 2-d array of points. *)
From Verif Require Import Base BaseFacts M_Quat S_Quat M_RFun S_RFun M_Solid S_Solid M_RBatch.

(** a 2-d array with n columns *)
Definition array2 (n : nat) (X : batch) : Prop := cols X = n /\ Forall (fun r => length r = n) (rows X).
(** one point, as an array of shape (1, n) *)
Definition row (x : list R) : batch := mkB (length x) [x].

Definition turning (m : move) : Prop :=
  match m with Rotate2 _ _ _ | Rotate3 _ _ _ | Euler _ _ _ _ | Revolve _ => True | _ => False end.
(** the program rotates or revolves one of its parts *)
Fixpoint turns (t : solid) : Prop :=
  match t with
  | Prim _ => False
  | Move m a => turning m \/ turns a
  | Negate a => turns a
  | Op2 _ _ a b => turns a \/ turns b
  | All _ l | Any _ l => fold_right or False (map turns l)
  end.
(** ... and it uses no cylinder *)
Fixpoint cylinder_free (t : solid) : Prop :=
  match t with
  | Prim (Cylinder _) => False
  | Prim _ => True
  | Move _ a | Negate a => cylinder_free a
  | Op2 _ _ a b => cylinder_free a /\ cylinder_free b
  | All _ l | Any _ l => fold_right and True (map cylinder_free l)
  end.

(** shifted and scaled parts *)
Definition shifting (m : move) : Prop :=
  match m with Translate _ | Scale _ | Stretch _ => True | _ => False end.
(** boxes, shifted, scaled and intersected *)
Fixpoint boxes (t : solid) : Prop :=
  match t with
  | Prim (Cuboid _ _ _) | Prim (Cube _ _ _) => True
  | Prim _ => False
  | Move m a => shifting m /\ boxes a
  | Op2 Intersection _ a b => boxes a /\ boxes b
  | All _ l => fold_right and True (map boxes l)
  | _ => False
  end.
(** boxes, spheres and ellipsoids, shifted, scaled, united and intersected *)
Fixpoint positive_form (t : solid) : Prop :=
  match t with
  | Prim (Cuboid _ _ _) | Prim (Cube _ _ _) | Prim (Sphere _) | Prim (Ellipsoid _) => True
  | Prim _ => False
  | Move m a => shifting m /\ positive_form a
  | Op2 Intersection _ a b | Op2 Union _ a b => positive_form a /\ positive_form b
  | All _ l | Any _ l => fold_right and True (map positive_form l)
  | _ => False
  end.
