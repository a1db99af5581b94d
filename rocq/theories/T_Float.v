(** Property theorems for the R-system r0 with rounded arithmetic (C120, C121). *)
From Coq Require Import Lia.
From Flocq Require Import Core.
From Flocq.IEEE754 Require Import Binary Bits.
From Verif Require Import Base M_RFun M_Float S_Float P_Float P_Float2 P_Float3 P_Float4.
Open Scope R_scope.

(** C120.  Full statement: a point in the set has a positive value, a point outside a
    negative one.  Missing: points may have the value 0 (refuted below). *)
Theorem rounded_r0_never_wrong_partial prec rnd leaf sets e x :
  (4 <= prec)%Z -> nearest prec rnd ->
  (forall i, never_lies prec (leaf i) (sets i) x) ->
  never_lies prec (compose (r0_rounded rnd) leaf e) (member sets e) x.
Proof. exact (fun Hp H => compose_never_lies prec Hp rnd H leaf sets e x). Qed.
Print Assumptions rounded_r0_never_wrong_partial.

Theorem rounded_r0_accuracy prec rnd a b :
  (4 <= prec)%Z -> nearest prec rnd ->
  (exists v, conj_ (r0_rounded rnd) a b = Ok v /\
     Rabs (v - (a + b - sqrt (a ^ 2 + b ^ 2))) <= 6 * powerRZ 2 (- prec) * (Rabs a + Rabs b)) /\
  (exists v, disj_ (r0_rounded rnd) a b = Ok v /\
     Rabs (v - (a + b + sqrt (a ^ 2 + b ^ 2))) <= 6 * powerRZ 2 (- prec) * (Rabs a + Rabs b)).
Proof. exact (fun Hp H => conj (conj_accuracy prec Hp rnd H a b) (disj_accuracy prec Hp rnd H a b)). Qed.
Print Assumptions rounded_r0_accuracy.

(** in every precision there are points strictly inside, and points strictly outside, of
    an intersection where the value is 0 *)
Theorem rounded_r0_strict_sign_refuted prec rnd :
  (4 <= prec)%Z -> nearest prec rnd ->
  (exists a b, is_float prec a /\ is_float prec b /\ 0 < a /\ 0 < b /\ conj_ (r0_rounded rnd) a b = Ok 0) /\
  (exists a b, is_float prec a /\ is_float prec b /\ 0 < a /\ b < 0 /\ conj_ (r0_rounded rnd) a b = Ok 0).
Proof. exact (fun Hp H => strict_refuted prec Hp rnd H). Qed.
Print Assumptions rounded_r0_strict_sign_refuted.

(** C121.  Full statement: for all finite float32 numbers.  Missing: numbers whose squares
    overflow or underflow (refuted below). *)
Theorem float32_r0_conjunction_partial (a b : binary32) :
  moderate32 a -> moderate32 b ->
  let v := r0_conj32 a b in
  is_finite 24 128 v = true /\
  (0 < B2R 24 128 v -> 0 < B2R 24 128 a /\ 0 < B2R 24 128 b) /\
  (B2R 24 128 v < 0 -> B2R 24 128 a < 0 \/ B2R 24 128 b < 0) /\
  Rabs (B2R 24 128 v - (B2R 24 128 a + B2R 24 128 b - sqrt (B2R 24 128 a ^ 2 + B2R 24 128 b ^ 2)))
    <= 6 * powerRZ 2 (-24) * (Rabs (B2R 24 128 a) + Rabs (B2R 24 128 b)).
Proof. exact (conj32_sound a b). Qed.
Print Assumptions float32_r0_conjunction_partial.

Theorem float32_r0_disjunction_partial (a b : binary32) :
  moderate32 a -> moderate32 b ->
  let v := r0_disj32 a b in
  is_finite 24 128 v = true /\
  (0 < B2R 24 128 v -> 0 < B2R 24 128 a \/ 0 < B2R 24 128 b) /\
  (B2R 24 128 v < 0 -> B2R 24 128 a < 0 /\ B2R 24 128 b < 0) /\
  Rabs (B2R 24 128 v - (B2R 24 128 a + B2R 24 128 b + sqrt (B2R 24 128 a ^ 2 + B2R 24 128 b ^ 2)))
    <= 6 * powerRZ 2 (-24) * (Rabs (B2R 24 128 a) + Rabs (B2R 24 128 b)).
Proof. exact (disj32_sound a b). Qed.
Print Assumptions float32_r0_disjunction_partial.

(** a negative operand and a positive conjunction: the squares become 0 *)
Theorem float32_r0_underflow_refuted :
  exists a b : binary32, is_finite 24 128 a = true /\ is_finite 24 128 b = true /\
    B2R 24 128 b < 0 /\ 0 < B2R 24 128 (r0_conj32 a b).
Proof. exact underflow. Qed.
Print Assumptions float32_r0_underflow_refuted.

(** a positive operand, and -inf as its conjunction with itself *)
Theorem float32_r0_overflow_refuted :
  exists a : binary32, is_finite 24 128 a = true /\ 0 < B2R 24 128 a /\
    B2FF 24 128 (r0_conj32 a a) = F754_infinity true.
Proof. exact overflow_inf. Qed.
Print Assumptions float32_r0_overflow_refuted.

(** r1 = RAlpha(1.0), the minimum and the maximum, is nan for some numbers close to each other *)
Theorem float32_r1_nan_refuted :
  exists a b : binary32, moderate32 a /\ moderate32 b /\ 0 < B2R 24 128 a /\ 0 < B2R 24 128 b /\
    is_nan 24 128 (r1_conj32 a b) = true /\ is_nan 24 128 (r1_disj32 a b) = true.
Proof. exact r1_nan. Qed.
Print Assumptions float32_r1_nan_refuted.

(** and it can lose half of the digits: the accuracy of r0 does not hold for r1 *)
Theorem float32_r1_accuracy_refuted :
  exists a b : binary32, moderate32 a /\ moderate32 b /\ is_finite 24 128 (r1_conj32 a b) = true /\
    1 <= B2R 24 128 a <= 2 /\ 1 <= B2R 24 128 b <= 2 /\
    Rabs (B2R 24 128 (r1_conj32 a b) - Rmin (B2R 24 128 a) (B2R 24 128 b)) = powerRZ 2 (-12).
Proof. exact r1_error. Qed.
Print Assumptions float32_r1_accuracy_refuted.

(** Examples: rounding to nearest even with 24 bits; the difference of two leaves *)
Definition ex_leaf (i : nat) : adf := fun _ => Ok (match i with O => 1 | _ => -2 end).
Definition ex_set (i : nat) : arr -> Prop := fun _ => match i with O => True | _ => False end.
Example ex_leaves x i : never_lies 24 (ex_leaf i) (ex_set i) x.
Proof.
  destruct i as [|i]; eexists; (split; [reflexivity|]); cbn.
  - split; [exists 1%Z, 0%Z; split; [simpl; lra|now compute]|]. split; [trivial|intros; lra].
  - split; [exists (-1)%Z, 1%Z; split; [simpl; lra|now compute]|]. split; [intros; lra|auto].
Qed.
Example ex_difference x : exists v,
  compose (r0_rounded rx) ex_leaf (Difference (Leaf 0) (Leaf 1)) x = Ok v /\ 0 < v /\
  member ex_set (Difference (Leaf 0) (Leaf 1)) x.
Proof.
  destruct (rounded_r0_accuracy 24 rx 1 (- -2) p24 rx_nearest) as [(v & E & A) _].
  destruct (rounded_r0_never_wrong_partial 24 rx ex_leaf ex_set (Difference (Leaf 0) (Leaf 1)) x p24 rx_nearest (ex_leaves x))
    as (w & E2 & _ & W & _).
  change (conj_ (r0_rounded rx) 1 (- -2) = Ok w) in E2. rewrite E in E2. injection E2 as <-. exists v.
  assert (V : 0 < v); [|split; [exact E|split; [exact V|now apply W]]].
  rewrite <- (bpow_powerRZ radix2) in A. simpl bpow in A. rewrite (Rabs_right 1), (Rabs_right (- -2)) in A by lra.
  assert (Q : sqrt (1 ^ 2 + (- -2) ^ 2) <= 5 / 2).
  { rewrite <- (sqrt_square (5 / 2)) by lra. apply sqrt_le_1_alt. lra. }
  rewrite <- Rabs_Ropp in A. pose proof (Rle_abs (- (v - (1 + - -2 - sqrt (1 ^ 2 + (- -2) ^ 2))))) as L. lra.
Qed.
(** 1 and -2 as float32 *)
Example ex_moderate : moderate32 one32 /\ moderate32 (b32_of_bits 3221225472).
Proof.
  assert (E1 : B2R 24 128 one32 = 1) by apply one_val.
  assert (E2 : B2R 24 128 (b32_of_bits 3221225472) = -2).
  { change (B2R 24 128 (b32_of_bits 3221225472)) with (F2R (Float radix2 (-8388608) (-22))). unfold F2R; simpl. lra. }
  split; (split; [reflexivity|right]); rewrite ?E1, ?E2, <- !(bpow_powerRZ radix2).
  - rewrite Rabs_R1. split; [apply (bpow_le radix2 (-63) 0); lia|apply (bpow_le radix2 0 63); lia].
  - rewrite Rabs_left by lra. replace (- -2) with (bpow radix2 1) by (simpl; lra). split; apply bpow_le; lia.
Qed.
