(** Specification of solids: point sets defined by geometry, not by the code. *)
From Coquelicot Require Import Coquelicot.
From Verif Require Import Base BaseFacts M_Quat S_Quat M_RFun S_RFun M_Solid.

(** ** The set a program denotes *)

(** corners of a box *)
Definition lower (e : list R) (centering : bool) : list R := map (fun l => if centering then - l / 2 else 0) e.
Definition upper (e : list R) (centering : bool) : list R := map (fun l => if centering then l / 2 else l) e.

Definition prim_inside (p : prim) (x : list R) : Prop :=
  match p with
  | Cuboid e c _ => strictly_inside (lower e c) (upper e c) x
  | Cube e c _ => strictly_inside (lower (repeat e (length x)) c) (upper (repeat e (length x)) c) x
  | Sphere r => normR x < r
  | Cylinder r => sqrt (nth 0 x 0 ^ 2 + nth 1 x 0 ^ 2) < r
  | Ellipsoid a => sumsq (quot x a) < 1
  | User f => exists v, f (A1 x) = Ok v /\ 0 < v
  end.
Definition prim_outside (p : prim) (x : list R) : Prop :=
  match p with
  | Cuboid e c _ => ~ inside_closed (lower e c) (upper e c) x
  | Cube e c _ => ~ inside_closed (lower (repeat e (length x)) c) (upper (repeat e (length x)) c) x
  | Sphere r => r < normR x
  | Cylinder r => r < sqrt (nth 0 x 0 ^ 2 + nth 1 x 0 ^ 2)
  | Ellipsoid a => 1 < sumsq (quot x a)
  | User f => exists v, f (A1 x) = Ok v /\ v < 0
  end.

(** foot of the perpendicular from x on the hyperplane through o with normal n *)
Definition foot (n o x : list R) : list R := vsub x (vscal (dotR (vsub x o) n / dotR n n) n).

(** Where a point of the transformed solid comes from.  [Rotate2] turns the solid
    counter-clockwise, so the point is turned back; [Rotate3] and [Euler] turn the solid
    by the negative angle (see rotate3d_moves_set_refuted), so the point is turned forward. *)
Definition back (m : move) (x : list R) : list R :=
  match m with
  | Translate y => vsub x y
  | Scale k => vscal (/ k) x
  | Stretch a => quot x a
  | Rotate2 t o1 o2 =>
      let p := ccw (- t) (o1, o2) (nth 0 x 0, nth 1 x 0) in [fst p; snd p]
  | Rotate3 t n o => list3 (rotate_about t n o (mk3 (nth 0 x 0) (nth 1 x 0) (nth 2 x 0)))
  | Euler a b c o =>
      list3 (vadd3 o (rot_x a (rot_y b (rot_z c (vsub3 (mk3 (nth 0 x 0) (nth 1 x 0) (nth 2 x 0)) o)))))
  | Reflect n o => mirror_in n o x
  | Project n o => foot n o x
  | Revolve false => [nth 0 x 0; sqrt (nth 1 x 0 ^ 2 + nth 2 x 0 ^ 2)]
  | Revolve true => [sqrt (nth 0 x 0 ^ 2 + nth 2 x 0 ^ 2); nth 1 x 0]
  end.

Definition op2_inside (o : op2) (ia oa ib ob : Prop) : Prop :=
  match o with
  | Union => ia \/ ib
  | Intersection => ia /\ ib
  | Equivalence => (ia /\ ib) \/ (oa /\ ob)
  | Implication => oa \/ ib
  | Difference => ia /\ ob
  | Xor => (ia /\ ob) \/ (oa /\ ib)
  end.
Definition op2_outside (o : op2) (ia oa ib ob : Prop) : Prop :=
  match o with
  | Union => oa /\ ob
  | Intersection => oa \/ ob
  | Equivalence => (ia /\ ob) \/ (oa /\ ib)
  | Implication => ia /\ ob
  | Difference => oa \/ ib
  | Xor => (ia /\ ib) \/ (oa /\ ob)
  end.

Fixpoint inside (t : solid) (x : list R) : Prop :=
  match t with
  | Prim p => prim_inside p x
  | Move m a => inside a (back m x)
  | Negate a => outside a x
  | Op2 o _ a b => op2_inside o (inside a x) (outside a x) (inside b x) (outside b x)
  | All _ l => fold_right and True (map (fun a => inside a x) l)
  | Any _ l => fold_right or False (map (fun a => inside a x) l)
  end
with outside (t : solid) (x : list R) : Prop :=
  match t with
  | Prim p => prim_outside p x
  | Move m a => outside a (back m x)
  | Negate a => inside a x
  | Op2 o _ a b => op2_outside o (inside a x) (outside a x) (inside b x) (outside b x)
  | All _ l => fold_right or False (map (fun a => outside a x) l)
  | Any _ l => fold_right and True (map (fun a => outside a x) l)
  end.

(** ** Continuity and gradients of an ADF, in Euclidean distance *)
Definition edist (y x : list R) : R := normR (vsub y x).

Definition continuous_adf (f : adf) (x : list R) (v : R) : Prop :=
  f (A1 x) = Ok v /\
  forall e, 0 < e -> exists d, 0 < d /\ forall y, length y = length x -> edist y x < d ->
    exists w, f (A1 y) = Ok w /\ Rabs (w - v) < e.

(** f is (totally) differentiable at x, with value v and gradient g *)
Definition has_gradient (f : adf) (x : list R) (v : R) (g : list R) : Prop :=
  f (A1 x) = Ok v /\ length g = length x /\
  forall e, 0 < e -> exists d, 0 < d /\ forall y, length y = length x -> edist y x < d ->
    exists w, f (A1 y) = Ok w /\ Rabs (w - v - dotR g (vsub y x)) <= e * edist y x.

(** ** Programs that make sense in n dimensions *)
Definition good_prim (Sys : rsys -> Prop) (n : nat) (p : prim) : Prop :=
  match p with
  | Cuboid e _ s => length e = n /\ (1 <= n)%nat /\ Sys s
  | Cube _ _ s => (1 <= n)%nat /\ Sys s
  | Sphere r => 0 < r
  | Cylinder r => (2 <= n)%nat /\ 0 < r
  | Ellipsoid a => length a = n /\ Forall (fun e => 0 < e) a
  | User f => forall x, length x = n -> exists v, continuous_adf f x v
  end.
(** dimension of the solid that is transformed *)
Definition source (m : move) (n : nat) : nat := match m with Revolve _ => 2%nat | _ => n end.
Definition good_move (n : nat) (m : move) : Prop :=
  match m with
  | Translate y => length y = n
  | Scale k => 0 < k
  | Stretch a => length a = n /\ Forall (fun e => e <> 0) a
  | Rotate2 _ _ _ => n = 2%nat
  | Rotate3 _ ax _ => n = 3%nat /\ is_unit ax
  | Euler _ _ _ _ => n = 3%nat
  | Reflect v o | Project v o => length v = n /\ length o = n /\ dotR v v <> 0
  | Revolve _ => n = 3%nat
  end.
Fixpoint good (Sys : rsys -> Prop) (n : nat) (t : solid) : Prop :=
  match t with
  | Prim p => good_prim Sys n p
  | Move m a => good_move n m /\ good Sys (source m n) a
  | Negate a => good Sys n a
  | Op2 _ s a b => Sys s /\ good Sys n a /\ good Sys n b
  | All s l | Any s l => Sys s /\ l <> [] /\ fold_right and True (map (good Sys n) l)
  end.

(** The code returns NaN at the centre of an ellipsoid (ellipsoid_membership_refuted);
    [regular t x] says that x does not meet such a centre anywhere in the program. *)
Fixpoint regular (t : solid) (x : list R) : Prop :=
  match t with
  | Prim (Ellipsoid _) => ~ Forall (fun y => y = 0) x
  | Prim _ => True
  | Move m a => regular a (back m x)
  | Negate a => regular a x
  | Op2 _ _ a b => regular a x /\ regular b x
  | All _ l | Any _ l => fold_right and True (map (fun a => regular a x) l)
  end.

(** ** R-systems *)
Definition continuous2 (op : R -> R -> res R) : Prop := forall a0 b0, exists v0, op a0 b0 = Ok v0 /\
  forall e, 0 < e -> exists d, 0 < d /\ forall a b, Rabs (a - a0) < d -> Rabs (b - b0) < d ->
    exists v, op a b = Ok v /\ Rabs (v - v0) < e.
Definition continuous_system (s : rsys) : Prop :=
  sign_correct s /\ continuous2 (conj_ s) /\ continuous2 (disj_ s).

(** near a = 0 the operation returns a up to o(a), when the other operand is near b0 *)
Definition first_order (op : R -> R -> res R) (b0 : R) : Prop :=
  forall e, 0 < e -> exists d, 0 < d /\ forall a b, Rabs a < d -> Rabs (b - b0) < d ->
    (exists v, op a b = Ok v /\ Rabs (v - a) <= e * Rabs a) /\
    (exists v, op b a = Ok v /\ Rabs (v - a) <= e * Rabs a).
Definition normalized_system (s : rsys) : Prop :=
  continuous_system s /\
  (forall b, 0 < b -> first_order (conj_ s) b) /\ (forall b, b < 0 -> first_order (disj_ s) b).

(** ** Smooth boundary points: exactly one face of one primitive passes through x, and all
    the other parts of the program are strictly decided there *)
Definition on_one_face (lb ub x : list R) : Prop :=
  length lb = length x /\ length ub = length x /\
  exists i, (i < length x)%nat /\
    (forall j, (j < length x)%nat -> j <> i -> nth j lb 0 < nth j x 0 < nth j ub 0) /\
    ((nth i lb 0 = nth i x 0 /\ nth i x 0 < nth i ub 0) \/ (nth i lb 0 < nth i x 0 /\ nth i x 0 = nth i ub 0)).
Definition prim_smooth (p : prim) (x : list R) : Prop :=
  match p with
  | Cuboid e c _ => on_one_face (lower e c) (upper e c) x
  | Cube e c _ => on_one_face (lower (repeat e (length x)) c) (upper (repeat e (length x)) c) x
  | Sphere r => normR x = r
  | Cylinder r => sqrt (nth 0 x 0 ^ 2 + nth 1 x 0 ^ 2) = r
  | Ellipsoid a => sumsq (quot x a) = 1
  | User f => exists g, has_gradient f x 0 g /\ normR g = 1
  end.
(** the transformations that keep the normalization at x: not the ones that deform the
    solid, and a revolution only off its axis *)
Definition keeps_normal (m : move) (x : list R) : Prop :=
  match m with
  | Stretch _ | Project _ _ => False
  | Revolve false => 0 < nth 1 x 0 ^ 2 + nth 2 x 0 ^ 2
  | Revolve true => 0 < nth 0 x 0 ^ 2 + nth 2 x 0 ^ 2
  | _ => True
  end.
Definition op2_smooth (o : op2) (sa ia oa sb ib ob : Prop) : Prop :=
  match o with
  | Union => (sa /\ ob) \/ (oa /\ sb)
  | Intersection => (sa /\ ib) \/ (ia /\ sb)
  | Difference | Implication => (sa /\ ob) \/ (ia /\ sb)
  | Equivalence | Xor => (sa /\ (ib \/ ob)) \/ ((ia \/ oa) /\ sb)
  end.
(** one element of the list satisfies S, all the others satisfy P *)
Definition just_one {A} (S P : A -> Prop) : list A -> Prop :=
  fix go (l : list A) : Prop :=
  match l with
  | [] => False
  | a :: t => (S a /\ fold_right and True (map P t)) \/ (P a /\ go t)
  end.
Fixpoint smooth (t : solid) (x : list R) : Prop :=
  match t with
  | Prim p => prim_smooth p x
  | Move m a => keeps_normal m x /\ smooth a (back m x)
  | Negate a => smooth a x
  | Op2 o _ a b => op2_smooth o (smooth a x) (inside a x) (outside a x) (smooth b x) (inside b x) (outside b x)
  | All _ l => just_one (fun a => smooth a x) (fun a => inside a x) l
  | Any _ l => just_one (fun a => smooth a x) (fun a => outside a x) l
  end.
