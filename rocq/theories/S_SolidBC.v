(** Specification vocabulary for boundary conditions on solids: where the distance function of a
    program is continuously differentiable. *)
From Coquelicot Require Import Coquelicot.
From Verif Require Import Base BaseFacts M_Quat S_Quat M_RFun S_RFun M_Solid S_Solid.

(** f has a gradient at every point near x, and the gradient is continuous there *)
Definition smooth_near (f : adf) (x : list R) : Prop :=
  exists (d : R) (g : list R -> list R), 0 < d /\
  forall y, length y = length x -> edist y x < d ->
    (exists v, has_gradient f y v (g y)) /\
    forall i e, 0 < e -> exists d', 0 < d' /\ forall z, length z = length y -> edist z y < d' ->
      Rabs (nth i (g z) 0 - nth i (g y) 0) < e.

(** neither inside nor outside *)
Definition on_boundary (t : solid) (x : list R) : Prop := ~ inside t x /\ ~ outside t x.

Definition at_most_one {A} (Z : A -> Prop) : list A -> Prop :=
  fix go (l : list A) : Prop :=
  match l with
  | [] => True
  | a :: t => (Z a -> fold_right and True (map (fun b => ~ Z b) t)) /\ go t
  end.

(** the planes of at most one face of the box contain x *)
Definition single_face (lb ub x : list R) : Prop :=
  (forall i, (i < length x)%nat -> nth i lb 0 <> nth i ub 0) /\
  forall i j, (i < j < length x)%nat ->
    ~ ((nth i x 0 = nth i lb 0 \/ nth i x 0 = nth i ub 0) /\ (nth j x 0 = nth j lb 0 \/ nth j x 0 = nth j ub 0)).

(** No kink of the distance function of a part passes through x: edges of boxes, the centre of a
    sphere and the axis of a cylinder or a revolution (where the derivative of the norm is nan), points
    where the boundaries of two operands meet.  Ellipsoids are left out. *)
Definition kink_free_prim (p : prim) (x : list R) : Prop :=
  match p with
  | Cuboid e c _ => single_face (lower e c) (upper e c) x
  | Cube e c _ => single_face (lower (repeat e (length x)) c) (upper (repeat e (length x)) c) x
  | Sphere _ => ~ Forall (fun y => y = 0) x
  | Cylinder _ => nth 0 x 0 <> 0 \/ nth 1 x 0 <> 0
  | Ellipsoid _ => False
  | User f => smooth_near f x
  end.
Definition off_axis (m : move) (x : list R) : Prop :=
  match m with
  | Revolve false => 0 < nth 1 x 0 ^ 2 + nth 2 x 0 ^ 2
  | Revolve true => 0 < nth 0 x 0 ^ 2 + nth 2 x 0 ^ 2
  | _ => True
  end.
Fixpoint kink_free (t : solid) (x : list R) : Prop :=
  match t with
  | Prim p => kink_free_prim p x
  | Move m a => off_axis m x /\ kink_free a (back m x)
  | Negate a => kink_free a x
  | Op2 _ _ a b => kink_free a x /\ kink_free b x /\ ~ (on_boundary a x /\ on_boundary b x)
  | All _ l | Any _ l =>
      fold_right and True (map (fun a => kink_free a x) l) /\ at_most_one (fun a => on_boundary a x) l
  end.

(** an operation that is continuously differentiable away from (0, 0) *)
Definition smooth_op (op : R -> R -> res R) : Prop := exists V P Q : R -> R -> R, forall a b, a <> 0 \/ b <> 0 ->
  op a b = Ok (V a b) /\ differentiable_pt_lim V a b (P a b) (Q a b) /\
  continuity_2d_pt P a b /\ continuity_2d_pt Q a b.
Definition smooth_system (s : rsys) : Prop :=
  normalized_system s /\ smooth_op (conj_ s) /\ smooth_op (disj_ s).

(** nu is a unit vector along which one leaves the solid at the boundary point x *)
Definition leaves (t : solid) (x nu : list R) : Prop :=
  length nu = length x /\ normR nu = 1 /\
  exists d, 0 < d /\ forall r, 0 < r < d -> outside t (vadd x (vscal r nu)) /\ inside t (vadd x (vscal (- r) nu)).
