(** Property C131: Hypercube samples in float32. *)
From Flocq.IEEE754 Require Import Binary Bits.
From Verif Require Import Base M_Float M_FloatBox S_FloatBox P_FloatBox.
Open Scope R_scope.

(** ** C131 *)
(** samples in [0, 1), and above 1, where the code takes the remainder *)
Theorem float32_box_sample : forall x lb ub, edge sub32 lb ub -> finite x -> 0 <= val x -> val x <> 1 ->
  finite (box32 x lb ub) /\ val lb <= val (box32 x lb ub) <= val ub.
Proof. exact box32_inside. Qed.
Print Assumptions float32_box_sample.

Theorem float32_box_accuracy : forall x lb ub k y, edge sub32 lb ub -> finite x -> 0 <= val x -> val x <> 1 ->
  val x = IZR k + y -> 0 <= y < 1 ->
  Rabs (val (box32 x lb ub) - (val lb + y * (val ub - val lb))) <=
    4 * powerRZ 2 (-24) * (Rabs (val lb) + Rabs (val ub)) + powerRZ 2 (-150).
Proof. exact box32_accuracy. Qed.
Print Assumptions float32_box_accuracy.

Theorem float32_samples_included : forall lb ub x, Forall2 (edge sub32) lb ub -> length x = length lb ->
  Forall (fun a => finite a /\ 0 <= val a /\ val a <> 1) x ->
  exists s, transform32 lb ub x = Ok s /\ Forall finite s /\ includes32 lb ub s = Ok (repeat true (length lb)).
Proof. exact transform32_included. Qed.
Print Assumptions float32_samples_included.

(** includes decides membership exactly *)
Theorem float32_includes : forall lb ub s, Forall finite lb -> Forall finite ub -> Forall finite s ->
  length lb = length ub -> length s = length ub ->
  exists l, includes32 lb ub s = Ok l /\ length l = length ub /\
  forall i, (i < length ub)%nat -> nth i l false = true <->
    val (nth i lb zero32) <= val (nth i s zero32) <= val (nth i ub zero32).
Proof. exact includes32_spec. Qed.
Print Assumptions float32_includes.

(** The sample 1 belongs to the documented range [0, 1] but can leave the box. *)
Theorem float32_box_sample_one_refuted : exists lb ub, edge sub32 lb ub /\ val ub < val (box32 one32 lb ub) /\
  exists s, transform32 [lb] [ub] [one32] = Ok s /\ includes32 [lb] [ub] s = Ok [false].
Proof. exact one_outside. Qed.
Print Assumptions float32_box_sample_one_refuted.

(** Without the hypothesis on the edge length: nan and inf for finite corners. *)
Theorem float32_box_overflow_refuted : exists lb ub, finite lb /\ finite ub /\ val lb <= val ub /\
  is_nan 24 128 (box32 zero32 lb ub) = true /\ B2FF 24 128 (box32 half32 lb ub) = F754_infinity false.
Proof. exact edge_overflow. Qed.
Print Assumptions float32_box_overflow_refuted.

Example float32_edge_case : edge sub32 low high /\ finite half32 /\ val low < val high.
Proof. exact edge_example. Qed.
