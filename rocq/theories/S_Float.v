(** Specification for the R-system r0 with rounded arithmetic. *)
From Flocq.IEEE754 Require Import Binary Bits.
From Verif Require Import Base M_RFun M_Float.
Open Scope R_scope.

(** The numbers with [prec] binary digits and any exponent. *)
Definition is_float (prec : Z) (x : R) : Prop :=
  exists m e : Z, x = IZR m * powerRZ 2 e /\ (Z.abs m < 2 ^ prec)%Z.
(** Rounding to a nearest number; ties are broken in any way. *)
Definition nearest (prec : Z) (rnd : R -> R) : Prop :=
  forall x, is_float prec (rnd x) /\
            forall y, is_float prec y -> Rabs (rnd x - x) <= Rabs (y - x).

(** The set that an expression denotes. *)
Fixpoint member (leaf : nat -> arr -> Prop) (e : sexp) (x : arr) : Prop :=
  match e with
  | Leaf i => leaf i x
  | Complement e => ~ member leaf e x
  | Union e f => member leaf e x \/ member leaf f x
  | Intersection e f => member leaf e x /\ member leaf f x
  | Equivalence e f => member leaf e x <-> member leaf f x
  | Implication e f => member leaf e x -> member leaf f x
  | Difference e f => member leaf e x /\ ~ member leaf f x
  | Xor e f => (member leaf e x /\ ~ member leaf f x) \/ (~ member leaf e x /\ member leaf f x)
  end.

(** f has a value at x; if it is positive x is in the set, if it is negative x is not. *)
Definition never_lies (prec : Z) (f : adf) (set : arr -> Prop) (x : arr) : Prop :=
  exists v, f x = Ok v /\ is_float prec v /\ (0 < v -> set x) /\ (v < 0 -> ~ set x).

(** float32 numbers whose squares neither overflow nor become subnormal. *)
Definition moderate32 (a : binary32) : Prop :=
  is_finite 24 128 a = true /\
  (B2R 24 128 a = 0 \/ powerRZ 2 (-63) <= Rabs (B2R 24 128 a) <= powerRZ 2 63).
