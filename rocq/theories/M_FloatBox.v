(** Model of Hypercube.transform and Hypercube.includes of magpi/domain.py in float32
    (definitions only). *)
From Flocq Require Import Core.
From Flocq.IEEE754 Require Import BinarySingleNaN Binary Bits.
From Verif Require Import Base M_RFun M_Float.

Definition nan32 : f32 := b32_of_bits 2143289344.
(** the comparisons of jax.numpy: false if an operand is nan *)
Definition gt32 (a b : f32) : bool :=
  match b32_compare a b with Some Gt => true | _ => false end.
Definition le32 (a b : f32) : bool :=
  match b32_compare a b with Some Lt | Some Eq => true | _ => false end.
(** [x % 1.0] of a number x > 1: the remainder is exact; inf gives nan *)
Definition frac32 (x : f32) : f32 :=
  match x with
  | B754_finite _ _ s m e _ =>
      if (e <? 0)%Z then binary_normalize 24 128 eq_refl eq_refl mode_NE (Zpos m mod 2 ^ (- e)) e false
      else zero32
  | _ => nan32
  end.
(** domain.py:206-208 transform_hypercube, one coordinate *)
Definition box32 (x lb ub : f32) : f32 :=
  let x := if gt32 x one32 then frac32 x else x in
  add32 (mul32 x (sub32 ub lb)) lb.
(** domain.py:44-46 Hypercube.transform of one sample; lb and ub are the tuples converted to
    float32 arrays.  Arguments of other shapes are left out. *)
Fixpoint transform32 (lb ub x : list f32) : res (list f32) :=
  match lb, ub, x with
  | [], [], [] => Ok []
  | l :: lb, u :: ub, x :: xs => t <- transform32 lb ub xs ;; Ok (box32 x l u :: t)
  | _, _, _ => Err TypeError
  end.
(** domain.py:40-42 Hypercube.includes *)
Fixpoint includes32 (lb ub s : list f32) : res (list bool) :=
  match lb, ub, s with
  | [], [], [] => Ok []
  | l :: lb, u :: ub, x :: xs => t <- includes32 lb ub xs ;; Ok ((le32 l x && le32 x u)%bool :: t)
  | _, _, _ => Err TypeError
  end.
