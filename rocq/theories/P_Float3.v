(** r0 and r1 in float32. *)
From Coq Require Import Lia.
From Flocq Require Import Core Plus_error.
From Flocq.IEEE754 Require Import BinarySingleNaN Binary Bits.
From Verif Require Import Base M_RFun M_Float S_Float P_Float P_Float2.
Open Scope R_scope.

Local Instance P24 : Prec_gt_0 24. Proof. reflexivity. Qed.
Notation r32 := (round radix2 (FLT_exp (-149) 24) ZnearestE).
Notation rx := (round radix2 (FLX_exp 24) ZnearestE).
Notation F32 := (generic_format radix2 (FLT_exp (-149) 24)).
Notation B x := (B2R 24 128 x).
Notation fin x := (is_finite 24 128 x = true).

Lemma p24 : (4 <= 24)%Z. Proof. lia. Qed.
Lemma rx_nearest : nearest 24 rx.
Proof.
  intros x. pose proof (round_N_pt radix2 (FLX_exp 24) (fun z => negb (Z.even z)) x) as [A C]. split.
  - apply (is_float_FLX 24 p24). exact A.
  - intros y Y. apply C. now apply (is_float_FLX 24 p24).
Qed.
Definition N32 := nearest_N 24 p24 rx rx_nearest.

Lemma F32_B x : F32 (B x).
Proof. exact (generic_format_B2R 24 128 x). Qed.
Lemma F32_bpow e : (-126 <= e)%Z -> F32 (bpow radix2 e).
Proof. intros. apply generic_format_bpow. unfold FLT_exp. lia. Qed.
Lemma F32_FLX x : F32 x -> generic_format radix2 (FLX_exp 24) x.
Proof. apply generic_format_FLX_FLT. Qed.
Lemma B_float x : is_float 24 (B x).
Proof. apply (is_float_FLX 24 p24), F32_FLX, F32_B. Qed.
Lemma big x : x = 0 \/ bpow radix2 (-126) <= Rabs x -> r32 x = rx x.
Proof.
  intros [-> |X].
  - now rewrite !round_0 by typeclasses eauto.
  - now apply round_FLT_FLX.
Qed.
Lemma sum x y : F32 x -> F32 y -> r32 (x + y) = rx (x + y).
Proof.
  intros X Y. destruct (Rle_lt_dec (Rabs (x + y)) (bpow radix2 (24 + -149))) as [C|C].
  - assert (F32 (x + y)) by now apply FLT_format_plus_small.
    rewrite !round_generic; try typeclasses eauto; trivial. now apply F32_FLX.
  - apply big. right. apply Rlt_le. eapply Rle_lt_trans; [|exact C]. apply bpow_le. lia.
Qed.
Lemma r32_id x : F32 x -> r32 x = x.
Proof. apply round_generic. typeclasses eauto. Qed.
Lemma r32_bound x e : (-126 <= e)%Z -> Rabs x <= bpow radix2 e -> Rabs (r32 x) <= bpow radix2 e.
Proof. intros E X. apply abs_round_le_generic; trivial; try typeclasses eauto. now apply F32_bpow. Qed.
Lemma lt128 x e : (-126 <= e < 128)%Z -> Rabs x <= bpow radix2 e ->
  Rlt_bool (Rabs (r32 x)) (bpow radix2 128) = true.
Proof.
  intros E X. apply Rlt_bool_true. eapply Rle_lt_trans; [apply r32_bound; [|exact X]; lia|]. apply bpow_lt. lia.
Qed.

Lemma add_ok a b e : fin a -> fin b -> (-126 <= e < 128)%Z -> Rabs (B a + B b) <= bpow radix2 e ->
  fin (add32 a b) /\ B (add32 a b) = r32 (B a + B b).
Proof.
  intros Fa Fb E X. pose proof (Bplus_correct 24 128 eq_refl eq_refl binop_nan_pl32 mode_NE a b Fa Fb) as C.
  change (round radix2 _ _ (B a + B b)) with (r32 (B a + B b)) in C.
  rewrite (lt128 _ e E X) in C. now split; apply C.
Qed.
Lemma sub_ok a b e : fin a -> fin b -> (-126 <= e < 128)%Z -> Rabs (B a - B b) <= bpow radix2 e ->
  fin (sub32 a b) /\ B (sub32 a b) = r32 (B a - B b).
Proof.
  intros Fa Fb E X. pose proof (Bminus_correct 24 128 eq_refl eq_refl binop_nan_pl32 mode_NE a b Fa Fb) as C.
  change (round radix2 _ _ (B a - B b)) with (r32 (B a - B b)) in C.
  rewrite (lt128 _ e E X) in C. now split; apply C.
Qed.
Lemma mul_ok a b e : fin a -> fin b -> (-126 <= e < 128)%Z -> Rabs (B a * B b) <= bpow radix2 e ->
  fin (mul32 a b) /\ B (mul32 a b) = r32 (B a * B b).
Proof.
  intros Fa Fb E X. pose proof (Bmult_correct 24 128 eq_refl eq_refl binop_nan_pl32 mode_NE a b) as C.
  change (round radix2 _ _ (B a * B b)) with (r32 (B a * B b)) in C.
  rewrite (lt128 _ e E X) in C. destruct C as (C1 & C2 & _). rewrite Fa, Fb in C2. now split.
Qed.
Lemma sqrt_ok a : fin a -> 0 <= B a -> fin (sqrt32 a) /\ B (sqrt32 a) = r32 (sqrt (B a)).
Proof.
  intros Fa P. destruct (Bsqrt_correct 24 128 eq_refl eq_refl unop_nan_pl32 mode_NE a) as (C1 & C2 & _).
  split; [|exact C1]. change (sqrt32 a) with (Bsqrt 24 128 eq_refl eq_refl unop_nan_pl32 mode_NE a). rewrite C2. destruct a as [s|s|s p e|s m e Q]; try easy.
  destruct s; [exfalso|reflexivity]. simpl in P. revert P. apply Rlt_not_le. now apply F2R_lt_0.
Qed.

Section Ops.
Variables a b : binary32.
Hypothesis Ma : moderate32 a.
Hypothesis Mb : moderate32 b.

Lemma sq_ok x : moderate32 x ->
  fin (mul32 x x) /\ B (mul32 x x) = rx (B x * B x) /\ 0 <= rx (B x * B x) <= bpow radix2 126 /\
  (rx (B x * B x) = 0 \/ bpow radix2 (-126) <= rx (B x * B x)).
Proof.
  intros [Fx M].
  assert (P : 0 <= B x * B x) by nra.
  assert (Q : B x * B x <= bpow radix2 126 /\ (B x * B x = 0 \/ bpow radix2 (-126) <= B x * B x)).
  { destruct M as [-> |[M1 M2]].
    - rewrite Rmult_0_l. split; [apply bpow_ge_0|now left].
    - assert (E : B x * B x = Rabs (B x) * Rabs (B x)) by (rewrite <- Rabs_mult; symmetry; apply Rabs_right; lra).
      rewrite <- (bpow_powerRZ radix2) in M1, M2. pose proof (Rabs_pos (B x)).
      rewrite E. replace 126%Z with (63 + 63)%Z by lia. split; [|right].
      + rewrite bpow_plus. apply Rmult_le_compat; lra.
      + change (-126)%Z with (-63 + -63)%Z. rewrite bpow_plus.
        pose proof (bpow_gt_0 radix2 (-63)). apply Rmult_le_compat; lra. }
  destruct Q as [Q1 Q2].
  assert (E : r32 (B x * B x) = rx (B x * B x)).
  { apply big. destruct Q2 as [Q2|Q2]; [now left|right]. rewrite Rabs_right by lra. exact Q2. }
  destruct (mul_ok x x 126 Fx Fx) as [K1 K2]; [lia|rewrite Rabs_right by lra; exact Q1|].
  split; [exact K1|]. split; [now rewrite K2|]. split; [split|].
  - now apply (rnd_pos 24 rx N32).
  - rewrite <- (rnd_id 24 rx N32 (bpow radix2 126)) by (apply F32_FLX, F32_bpow; lia).
    now apply (rnd_le 24 rx N32).
  - destruct Q2 as [Q2|Q2]; [left|right].
    + rewrite Q2. apply (rnd_0 24 rx N32).
    + rewrite <- (rnd_id 24 rx N32 (bpow radix2 (-126))) at 1 by (apply F32_FLX, F32_bpow; lia).
      now apply (rnd_le 24 rx N32).
Qed.

Lemma zero_val : B zero32 = 0 /\ fin zero32.
Proof. split; reflexivity. Qed.
Lemma one_val : B one32 = 1 /\ fin one32.
Proof.
  split; [|reflexivity]. change (B one32) with (F2R (Float radix2 8388608 (-23))). unfold F2R; simpl. lra.
Qed.
Lemma cross : fin (mul32 (mul32 zero32 a) b) /\ B (mul32 (mul32 zero32 a) b) = 0.
Proof.
  destruct zero_val as [Z1 Z2].
  destruct (mul_ok zero32 a 0 Z2 (proj1 Ma)) as [K1 K2]; [lia| |].
  { rewrite Z1, Rmult_0_l, Rabs_R0. apply bpow_ge_0. }
  rewrite Z1, Rmult_0_l, round_0 in K2 by typeclasses eauto.
  destruct (mul_ok _ b 0 K1 (proj1 Mb)) as [L1 L2]; [lia| |].
  { rewrite K2, Rmult_0_l, Rabs_R0. apply bpow_ge_0. }
  rewrite K2, Rmult_0_l, round_0 in L2 by typeclasses eauto. now split.
Qed.

Lemma bp127 : bpow radix2 126 + bpow radix2 126 = bpow radix2 127.
Proof. replace 127%Z with (1 + 126)%Z by lia. rewrite bpow_plus. change (bpow radix2 1) with 2. ring. Qed.
Lemma bp_double e : bpow radix2 e + bpow radix2 e = bpow radix2 (1 + e).
Proof. rewrite bpow_plus. change (bpow radix2 1) with 2. ring. Qed.

Lemma root_ok : fin (root32 zero32 a b) /\ B (root32 zero32 a b) = len rx (B a) (B b) /\
  0 <= len rx (B a) (B b) <= bpow radix2 64.
Proof.
  destruct (sq_ok a Ma) as (A1 & A2 & A3 & A4). destruct (sq_ok b Mb) as (B1 & B2 & B3 & B4).
  destruct cross as [C1 C2]. unfold root32.
  set (A := rx (B a * B a)) in *. set (D := rx (B b * B b)) in *.
  destruct (add_ok _ _ 127 A1 B1) as [S1 S2]; [lia| |].
  { rewrite A2, B2, Rabs_right by lra. rewrite <- bp127. lra. }
  rewrite sum in S2 by apply F32_B. rewrite A2, B2 in S2.
  assert (SF : F32 (rx (A + D))) by (rewrite <- S2; apply F32_B).
  assert (SP : 0 <= rx (A + D)) by (apply (rnd_pos 24 rx N32); lra).
  assert (SB : rx (A + D) <= bpow radix2 127).
  { rewrite <- (rnd_id 24 rx N32 (bpow radix2 127)) by (apply F32_FLX, F32_bpow; lia).
    apply (rnd_le 24 rx N32). rewrite <- bp127. lra. }
  assert (SL : rx (A + D) = 0 \/ bpow radix2 (-126) <= rx (A + D)).
  { destruct A4 as [A4|A4]; [destruct B4 as [B4|B4]|].
    - left. rewrite A4, B4, Rplus_0_r. apply (rnd_0 24 rx N32).
    - right. rewrite <- (rnd_id 24 rx N32 (bpow radix2 (-126))) at 1 by (apply F32_FLX, F32_bpow; lia).
      apply (rnd_le 24 rx N32). lra.
    - right. rewrite <- (rnd_id 24 rx N32 (bpow radix2 (-126))) at 1 by (apply F32_FLX, F32_bpow; lia).
      apply (rnd_le 24 rx N32). lra. }
  destruct (sub_ok _ _ 127 S1 C1) as [T1 T2]; [lia| |].
  { rewrite S2, C2, Rminus_0_r, Rabs_right by lra. exact SB. }
  rewrite S2, C2, Rminus_0_r, (r32_id _ SF) in T2.
  destruct (sqrt_ok _ T1) as [U1 U2]; [rewrite T2; exact SP|].
  rewrite T2, big in U2.
  2:{ destruct SL as [-> |SL]; [left; apply sqrt_0|right].
      rewrite Rabs_right by (apply Rle_ge, sqrt_pos).
      apply (Rle_trans _ (bpow radix2 (-63))); [apply bpow_le; lia|].
      rewrite <- (sqrt_square (bpow radix2 (-63))) by apply bpow_ge_0. rewrite <- bpow_plus.
      apply sqrt_le_1_alt. exact SL. }
  split; [exact U1|]. split; [exact U2|]. split; [apply (len_pos 24 rx N32)|].
  unfold len. fold A D.
  rewrite <- (rnd_id 24 rx N32 (bpow radix2 64)) by (apply F32_FLX, F32_bpow; lia).
  apply (rnd_le 24 rx N32).
  rewrite <- (sqrt_square (bpow radix2 64)) by apply bpow_ge_0. rewrite <- bpow_plus.
  apply sqrt_le_1_alt. eapply Rle_trans; [exact SB|]. apply bpow_le. lia.
Qed.

Lemma mod_abs x : moderate32 x -> Rabs (B x) <= bpow radix2 63.
Proof.
  intros [_ [-> |[_ M]]]; [rewrite Rabs_R0; apply bpow_ge_0|]. now rewrite bpow_powerRZ.
Qed.
Lemma plus_ok : fin (add32 a b) /\ B (add32 a b) = rx (B a + B b) /\ Rabs (B (add32 a b)) <= bpow radix2 64.
Proof.
  assert (X : Rabs (B a + B b) <= bpow radix2 64).
  { eapply Rle_trans; [apply Rabs_triang|]. pose proof (mod_abs a Ma). pose proof (mod_abs b Mb).
    change 64%Z with (1 + 63)%Z. rewrite <- bp_double. lra. }
  destruct (add_ok a b 64 (proj1 Ma) (proj1 Mb)) as [K1 K2]; [lia|exact X|].
  split; [exact K1|]. split; [rewrite K2; apply sum; apply F32_B|]. rewrite K2. apply r32_bound; [lia|exact X].
Qed.
Lemma final x y e : (-126 <= e < 128)%Z -> fin x -> Rabs (B x) <= bpow radix2 e -> y = B x ->
  fin (mul32 one32 x) /\ B (mul32 one32 x) = y.
Proof.
  intros E Fx X ->. destruct one_val as [O1 O2]. destruct (mul_ok one32 x e O2 Fx E) as [K1 K2].
  { now rewrite O1, Rmult_1_l. }
  split; [exact K1|]. rewrite K2, O1, Rmult_1_l. apply r32_id, F32_B.
Qed.

Lemma conj_ok : fin (r0_conj32 a b) /\ Ok (B (r0_conj32 a b)) = conj_ (r0_rounded rx) (B a) (B b).
Proof.
  rewrite (r0_conj 24 p24 rx rx_nearest). destruct root_ok as (L1 & L2 & L3 & L4). destruct plus_ok as (S1 & S2 & S3).
  assert (X : Rabs (B (add32 a b) - B (root32 zero32 a b)) <= bpow radix2 65).
  { change 65%Z with (1 + 64)%Z. rewrite <- bp_double, L2. eapply Rle_trans; [apply Rabs_triang|].
    rewrite Rabs_Ropp, (Rabs_right (len _ _ _)) by lra. lra. }
  destruct (sub_ok _ _ 65 S1 L1) as [K1 K2]; [lia|exact X|].
  destruct (final (sub32 (add32 a b) (root32 zero32 a b)) (rx (rx (B a + B b) - len rx (B a) (B b))) 65) as [V1 V2];
    [lia|exact K1|rewrite K2; now apply r32_bound| |].
  { rewrite K2. unfold Rminus at 1 2. rewrite <- S2, <- L2. unfold Rminus. symmetry. apply sum; [apply F32_B|].
    apply generic_format_opp, F32_B. }
  split; [exact V1|]. now f_equal.
Qed.
Lemma disj_ok : fin (r0_disj32 a b) /\ Ok (B (r0_disj32 a b)) = disj_ (r0_rounded rx) (B a) (B b).
Proof.
  rewrite (r0_disj 24 p24 rx rx_nearest). destruct root_ok as (L1 & L2 & L3 & L4). destruct plus_ok as (S1 & S2 & S3).
  assert (X : Rabs (B (add32 a b) + B (root32 zero32 a b)) <= bpow radix2 65).
  { change 65%Z with (1 + 64)%Z. rewrite <- bp_double, L2. eapply Rle_trans; [apply Rabs_triang|].
    rewrite (Rabs_right (len _ _ _)) by lra. lra. }
  destruct (add_ok _ _ 65 S1 L1) as [K1 K2]; [lia|exact X|].
  destruct (final (add32 (add32 a b) (root32 zero32 a b)) (rx (rx (B a + B b) + len rx (B a) (B b))) 65) as [V1 V2];
    [lia|exact K1|rewrite K2; now apply r32_bound| |].
  { rewrite K2. rewrite <- S2, <- L2. symmetry. apply sum; apply F32_B. }
  split; [exact V1|]. now f_equal.
Qed.

Lemma conj32_sound :
  fin (r0_conj32 a b) /\
  (0 < B (r0_conj32 a b) -> 0 < B a /\ 0 < B b) /\
  (B (r0_conj32 a b) < 0 -> B a < 0 \/ B b < 0) /\
  Rabs (B (r0_conj32 a b) - (B a + B b - sqrt (B a ^ 2 + B b ^ 2))) <= 6 * powerRZ 2 (- 24) * (Rabs (B a) + Rabs (B b)).
Proof.
  destruct conj_ok as [F E]. split; [exact F|].
  destruct (conj_sign 24 p24 rx rx_nearest _ _ (B_float a) (B_float b)) as (v & E1 & _ & V1 & V2).
  destruct (conj_accuracy 24 p24 rx rx_nearest (B a) (B b)) as (w & E2 & W).
  rewrite E1 in E, E2. injection E as E. injection E2 as <-. rewrite E. now repeat split; try apply V1.
Qed.
Lemma disj32_sound :
  fin (r0_disj32 a b) /\
  (0 < B (r0_disj32 a b) -> 0 < B a \/ 0 < B b) /\
  (B (r0_disj32 a b) < 0 -> B a < 0 /\ B b < 0) /\
  Rabs (B (r0_disj32 a b) - (B a + B b + sqrt (B a ^ 2 + B b ^ 2))) <= 6 * powerRZ 2 (- 24) * (Rabs (B a) + Rabs (B b)).
Proof.
  destruct disj_ok as [F E]. split; [exact F|].
  destruct (disj_sign 24 p24 rx rx_nearest _ _ (B_float a) (B_float b)) as (v & E1 & _ & V1 & V2).
  destruct (disj_accuracy 24 p24 rx rx_nearest (B a) (B b)) as (w & E2 & W).
  rewrite E1 in E, E2. injection E as E. injection E2 as <-. rewrite E. now repeat split; try apply V2.
Qed.
End Ops.
