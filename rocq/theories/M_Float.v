(** Model of the R-system RAlpha of magpi/r_fun.py with rounded arithmetic
    (definitions only). *)
From Flocq Require Import Core.
From Flocq.IEEE754 Require Import BinarySingleNaN Binary Bits.
From Verif Require Import Base M_RFun.
Open Scope R_scope.

(** ** Numbers of a fixed precision and unbounded exponent *)
(** The operations +, -, *, sqrt of jax.numpy round their exact result with rnd.
    [k] stands for the rounded 1 / (1 + alpha) and [c] for the rounded 2 * alpha, two
    Python floats that are converted to the dtype of the arrays.
    r_fun.py:102-105 [k * (a + b - sqrt(a**2 + b**2 - c * a * b))]; the square root of a
    negative number is nan, an Err of [fsqrt]. *)
Definition rounded_conj (rnd : R -> R) (k c a b : R) : res R :=
  s <- fsqrt (rnd (rnd (rnd (a * a) + rnd (b * b)) - rnd (rnd (c * a) * b))) ;;
  Ok (rnd (k * rnd (rnd (a + b) - rnd s))).
(** r_fun.py:107-110 *)
Definition rounded_disj (rnd : R -> R) (k c a b : R) : res R :=
  s <- fsqrt (rnd (rnd (rnd (a * a) + rnd (b * b)) - rnd (rnd (c * a) * b))) ;;
  Ok (rnd (k * rnd (rnd (a + b) + rnd s))).
(** r_fun.py:196 [r0 = RAlpha(0.0)]: k = 1, c = 0 *)
Definition r0_rounded (rnd : R -> R) : rsys := mkRsys (rounded_conj rnd 1 0) (rounded_disj rnd 1 0).

(** Expressions that nest the set operations of an RFun object, over numbered ADFs. *)
Inductive sexp :=
| Leaf (i : nat) | Complement (e : sexp) | Union (e f : sexp) | Intersection (e f : sexp)
| Equivalence (e f : sexp) | Implication (e f : sexp) | Difference (e f : sexp) | Xor (e f : sexp).
(** A program that nests the methods of an RFun object (r_fun.py:51-86). *)
Fixpoint compose (s : rsys) (leaf : nat -> adf) (e : sexp) : adf :=
  match e with
  | Leaf i => leaf i
  | Complement e => negate (compose s leaf e)
  | Union e f => union s (compose s leaf e) (compose s leaf f)
  | Intersection e f => intersection s (compose s leaf e) (compose s leaf f)
  | Equivalence e f => equivalence s (compose s leaf e) (compose s leaf f)
  | Implication e f => implication s (compose s leaf e) (compose s leaf f)
  | Difference e f => difference s (compose s leaf e) (compose s leaf f)
  | Xor e f => xor s (compose s leaf e) (compose s leaf f)
  end.

(** ** float32 with its infinities, nans, underflow and overflow *)
Notation f32 := binary32.
Definition add32 : f32 -> f32 -> f32 := b32_plus mode_NE.
Definition sub32 : f32 -> f32 -> f32 := b32_minus mode_NE.
Definition mul32 : f32 -> f32 -> f32 := b32_mult mode_NE.
Definition sqrt32 : f32 -> f32 := b32_sqrt mode_NE.
(** r_fun.py:102-105 and 107-110 *)
Definition root32 (c a b : f32) : f32 :=
  sqrt32 (sub32 (add32 (mul32 a a) (mul32 b b)) (mul32 (mul32 c a) b)).
Definition conj32 (k c a b : f32) : f32 := mul32 k (sub32 (add32 a b) (root32 c a b)).
Definition disj32 (k c a b : f32) : f32 := mul32 k (add32 (add32 a b) (root32 c a b)).
(** the constants 0, 1/2, 1 and 2 of type float32 *)
Definition zero32 : f32 := b32_of_bits 0.
Definition half32 : f32 := b32_of_bits 1056964608.
Definition one32 : f32 := b32_of_bits 1065353216.
Definition two32 : f32 := b32_of_bits 1073741824.
(** r_fun.py:196 [r0 = RAlpha(0.0)] *)
Definition r0_conj32 : f32 -> f32 -> f32 := conj32 one32 zero32.
Definition r0_disj32 : f32 -> f32 -> f32 := disj32 one32 zero32.
(** r_fun.py:195 [r1 = RAlpha(1.0)] *)
Definition r1_conj32 : f32 -> f32 -> f32 := conj32 half32 two32.
Definition r1_disj32 : f32 -> f32 -> f32 := disj32 half32 two32.
