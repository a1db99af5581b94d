(** Specification vocabulary for r_fun.py. *)
From Coquelicot Require Import Coquelicot.
From Verif Require Import Base M_Quat S_Quat M_RFun.

(** Sign of a real: -1, 0, 1. *)
Definition sg (x : R) : Z := if Rlt_dec 0 x then 1 else if Rlt_dec x 0 then -1 else 0.

(** The defining property of R-functions: conjunction and disjunction are always
    finite, and their signs are the minimum and maximum of the operand signs. *)
Definition sign_correct_at (s : rsys) (a b : R) : Prop :=
  (exists c, conj_ s a b = Ok c /\ sg c = Z.min (sg a) (sg b)) /\
  (exists d, disj_ s a b = Ok d /\ sg d = Z.max (sg a) (sg b)).
Definition sign_correct (s : rsys) : Prop := forall a b, sign_correct_at s a b.

(** A value-level operation that succeeds with sign pos/neg exactly under P/N. *)
Definition decides (r : res R) (P N : Prop) : Prop :=
  exists v, r = Ok v /\ (0 < v <-> P) /\ (v < 0 <-> N).

(** Shape of an array: None for (), Some n for (n,). *)
Definition shape (a : arr) : option nat :=
  match a with A0 _ => None | A1 l => Some (length l) end.

(** x and box bounds compared coordinatewise. *)
Definition strictly_inside (lb ub x : list R) : Prop :=
  length lb = length x /\ length ub = length x /\
  forall i, (i < length x)%nat -> nth i lb 0 < nth i x 0 < nth i ub 0.
Definition inside_closed (lb ub x : list R) : Prop :=
  length lb = length x /\ length ub = length x /\
  forall i, (i < length x)%nat -> nth i lb 0 <= nth i x 0 <= nth i ub 0.

(** Counter-clockwise rotation of the plane by t around (o1,o2). *)
Definition ccw (t : R) (o x : R * R) : R * R :=
  (fst o + cos t * (fst x - fst o) - sin t * (snd x - snd o),
   snd o + sin t * (fst x - fst o) + cos t * (snd x - snd o)).

(** Vectors as lists. *)
Definition vadd (u v : list R) := map2 Rplus u v.
Definition vsub (u v : list R) := map2 Rminus u v.
Definition vscal (c : R) (u : list R) := map (fun x => c * x) u.

(** Mirror image in the hyperplane through o with normal n. *)
Definition mirror_in (n o x : list R) : list R :=
  vsub x (vscal (2 * dotR (vsub x o) n / dotR n n) n).

(** f has the directional derivative d at x along v. *)
Definition dir_deriv (f : adf) (x v : list R) (d : R) : Prop :=
  exists F : R -> R,
    locally 0 (fun t => f (A1 (vadd x (vscal t v))) = Ok (F t)) /\ is_derive F 0 d.

Definition neg_res (r : res R) : res R := x <- r ;; Ok (- x).

(** De Morgan's law and commutativity, for values and for errors. *)
Definition demorgan (s : rsys) : Prop := forall a b,
  disj_ s a b = neg_res (conj_ s (- a) (- b)) /\ conj_ s a b = neg_res (disj_ s (- a) (- b)).
Definition commutative (s : rsys) : Prop := forall a b,
  conj_ s a b = conj_ s b a /\ disj_ s a b = disj_ s b a.


(** r decides membership of x in the box [lb, ub]: positive inside, zero on the
    boundary, negative outside. *)
Definition membership (r : res R) (lb ub x : list R) : Prop :=
  exists v, r = Ok v /\
    (0 < v <-> strictly_inside lb ub x) /\
    (v = 0 <-> inside_closed lb ub x /\
        exists i, (i < length x)%nat /\ (nth i x 0 = nth i lb 0 \/ nth i x 0 = nth i ub 0)) /\
    (v < 0 <-> ~ inside_closed lb ub x).

(** coordinatewise quotient *)
Definition quot (x a : list R) : list R := map2 Rdiv x a.

(** Right-hand rotation by t around the line through o with direction n. *)
Definition rotate_about (t : R) (n o x : vec3) : vec3 := vadd3 o (rodrigues t n (vsub3 x o)).

(** An ADF that is not rotationally symmetric. *)
Definition second_coordinate : adf := fun x => match x with A1 [_; b; _] => Ok b | _ => Err TypeError end.
