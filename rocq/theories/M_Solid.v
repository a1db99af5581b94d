(** Programs that build a solid with the functions of magpi/r_fun.py (definitions only).
    The type [solid] lists the calls a user can nest (the README and the notebooks build
    their domains this way); [build] runs them.  Origins, shifts and normals are 1-d arrays
    here; the scalar (broadcast) forms are related to these by reflect_origin_scalar,
    project_origin_scalar and the model of translate. *)
From Verif Require Import Base M_Quat M_RFun.

(** r_fun.py:201-311 the primitives; [User] is a function written by the user, like the
    half spaces of examples/pacman.ipynb *)
Inductive prim :=
| Cuboid (edge_lengths : list R) (centering : bool) (s : rsys)
| Cube (edge_length : R) (centering : bool) (s : rsys)
| Sphere (r : R)
| Cylinder (r : R)
| Ellipsoid (axes : list R)
| User (f : adf).

(** r_fun.py:325-540 the transformations; [Revolve false] is revolution about axis 0,
    [Revolve true] about axis 1 *)
Inductive move :=
| Translate (y : list R)
| Scale (k : R)
| Stretch (axes : list R)
| Rotate2 (angle o1 o2 : R)
| Rotate3 (angle : R) (n o : vec3)
| Euler (a b c : R) (o : vec3)
| Reflect (n o : list R)
| Project (n o : list R)
| Revolve (around_y : bool).

(** r_fun.py:54-86 the two-operand set operations *)
Inductive op2 := Union | Intersection | Equivalence | Implication | Difference | Xor.

(** r_fun.py:314-322 is [All] (compose with conjunction) and [Any] (with disjunction) *)
Inductive solid :=
| Prim (p : prim)
| Move (m : move) (a : solid)
| Negate (a : solid)
| Op2 (o : op2) (s : rsys) (a b : solid)
| All (s : rsys) (l : list solid)
| Any (s : rsys) (l : list solid).

Definition build_prim (p : prim) : adf :=
  match p with
  | Cuboid e c s => cuboid (A1 e) c s
  | Cube e c s => cube e c s
  | Sphere r => sphere r
  | Cylinder r => cylinder r
  | Ellipsoid a => ellipsoid (A1 a)
  | User f => f
  end.

Definition build_move (m : move) (f : adf) : res adf :=
  match m with
  | Translate y => Ok (translate f (A1 y))
  | Scale k => scale f (A0 k)
  | Stretch a => Ok (scale_without_normalization f (A1 a))
  | Rotate2 t o1 o2 => Ok (rotate2d f t (A1 [o1; o2]))
  | Rotate3 t n o => rotate3d f (A0 t) (Some (A1 (list3 n))) (A1 (list3 o))
  | Euler a b c o => rotate3d f (A1 [a; b; c]) None (A1 (list3 o))
  | Reflect n o => Ok (reflect f (A1 n) (A1 o))
  | Project n o => Ok (project f (A1 n) (A1 o))
  | Revolve y => Ok (revolution f (if y then 1%Z else 0%Z))
  end.

Definition build_op2 (o : op2) (s : rsys) (f g : adf) : adf :=
  match o with
  | Union => union s f g
  | Intersection => intersection s f g
  | Equivalence => equivalence s f g
  | Implication => implication s f g
  | Difference => difference s f g
  | Xor => xor s f g
  end.

Fixpoint build (t : solid) : res adf :=
  match t with
  | Prim p => Ok (build_prim p)
  | Move m a => f <- build a ;; build_move m f
  | Negate a => f <- build a ;; Ok (negate f)
  | Op2 o s a b => f <- build a ;; g <- build b ;; Ok (build_op2 o s f g)
  | All s l => fs <- sequence (map build l) ;; Ok (compose (conj_ s) (map scalar_adf fs))
  | Any s l => fs <- sequence (map build l) ;; Ok (compose (disj_ s) (map scalar_adf fs))
  end.
