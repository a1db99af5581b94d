(** Witnesses in float32. *)
From Coq Require Import Lia.
From Flocq Require Import Core.
From Flocq.IEEE754 Require Import BinarySingleNaN Binary Bits.
From Verif Require Import Base M_RFun M_Float S_Float P_Float P_Float2 P_Float3.
Open Scope R_scope.

Lemma B_FF x : B x = FF2R radix2 (B2FF 24 128 x).
Proof. symmetry. apply FF2R_B2FF. Qed.
Lemma FF_pos m e : 0 < FF2R radix2 (F754_finite false m e).
Proof. simpl. now apply F2R_gt_0. Qed.
Lemma FF_neg m e : FF2R radix2 (F754_finite true m e) < 0.
Proof. simpl. now apply F2R_lt_0. Qed.
Ltac value32 := rewrite B_FF; match goal with |- context [B2FF 24 128 ?t] =>
  let v := eval vm_compute in (B2FF 24 128 t) in
  replace (B2FF 24 128 t) with v by (vm_compute; reflexivity) end; first [apply FF_pos | apply FF_neg | reflexivity].

Lemma underflow : exists a b, fin a /\ fin b /\ B b < 0 /\ 0 < B (r0_conj32 a b).
Proof.
  exists (b32_of_bits 394264576), (b32_of_bits 2533359616). split; [reflexivity|]. split; [reflexivity|].
  split; value32.
Qed.
Lemma overflow_inf : exists a, fin a /\ 0 < B a /\ B2FF 24 128 (r0_conj32 a a) = F754_infinity true.
Proof.
  exists (b32_of_bits 1602224128). split; [reflexivity|]. split; [value32|]. vm_compute. reflexivity.
Qed.
Lemma in_1_2 m : (8388608 <= m)%Z -> (m < 16777216)%Z ->
  powerRZ 2 (-63) <= Rabs (F2R (Float radix2 m (-23))) <= powerRZ 2 63.
Proof.
  intros L1 L2. rewrite <- !(bpow_powerRZ radix2). apply IZR_le in L1. apply IZR_lt in L2.
  unfold F2R; cbn [Fnum Fexp]. pose proof (bpow_gt_0 radix2 (-23)).
  rewrite Rabs_right by nra. split.
  - apply (Rle_trans _ (bpow radix2 0)); [apply bpow_le; lia|]. simpl bpow in *. lra.
  - apply (Rle_trans _ (bpow radix2 1)); [|apply bpow_le; lia]. simpl bpow in *. lra.
Qed.
Lemma r1_nan : exists a b, moderate32 a /\ moderate32 b /\ 0 < B a /\ 0 < B b /\
  is_nan 24 128 (r1_conj32 a b) = true /\ is_nan 24 128 (r1_disj32 a b) = true.
Proof.
  exists (b32_of_bits 1065355264), (b32_of_bits 1065355266).
  assert (E1 : B (b32_of_bits 1065355264) = F2R (Float radix2 8390656 (-23))) by value32.
  assert (E2 : B (b32_of_bits 1065355266) = F2R (Float radix2 8390658 (-23))) by value32.
  split; [split; [reflexivity|]|split; [split; [reflexivity|]|]].
  - right. rewrite E1. apply in_1_2; lia.
  - right. rewrite E2. apply in_1_2; lia.
  - split; [value32|]. split; [value32|]. split; vm_compute; reflexivity.
Qed.
Lemma r1_error : exists a b, moderate32 a /\ moderate32 b /\ fin (r1_conj32 a b) /\
  1 <= B a <= 2 /\ 1 <= B b <= 2 /\ Rabs (B (r1_conj32 a b) - Rmin (B a) (B b)) = powerRZ 2 (-12).
Proof.
  exists (b32_of_bits 1065398318), (b32_of_bits 1065398319).
  assert (E1 : B (b32_of_bits 1065398318) = F2R (Float radix2 8433710 (-23))) by value32.
  assert (E2 : B (b32_of_bits 1065398319) = F2R (Float radix2 8433711 (-23))) by value32.
  assert (E3 : B (r1_conj32 (b32_of_bits 1065398318) (b32_of_bits 1065398319)) = F2R (Float radix2 8431662 (-23))) by value32.
  split; [split; [reflexivity|]|split; [split; [reflexivity|]|]].
  - right. rewrite E1. apply in_1_2; lia.
  - right. rewrite E2. apply in_1_2; lia.
  - split; [vm_compute; reflexivity|]. rewrite E1, E2, E3, <- (bpow_powerRZ radix2).
    unfold F2R; cbn [Fnum Fexp]. simpl bpow. split; [lra|]. split; [lra|].
    rewrite Rmin_left by lra. rewrite Rabs_left; lra.
Qed.
