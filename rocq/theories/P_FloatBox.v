(** Proofs: Hypercube.transform in float32. *)
From Coq Require Import Lia.
From Flocq Require Import Core Plus_error Relative.
From Flocq.IEEE754 Require Import BinarySingleNaN Binary Bits.
From Verif Require Import Base M_RFun M_Float S_Float P_Float P_Float2 P_Float3 M_FloatBox S_FloatBox.
Open Scope R_scope.
Local Instance P24' : Prec_gt_0 24. Proof. reflexivity. Qed.
Notation fx := (FLT_exp (-149) 24).

Lemma below_one y : F32 y -> y < 1 -> y <= 1 - bpow radix2 (-24).
Proof.
  intros Fy Y. replace (1 - bpow radix2 (-24)) with (pred radix2 fx 1).
  - apply pred_ge_gt; auto; [typeclasses eauto|]. change 1 with (bpow radix2 0). apply F32_bpow. lia.
  - change 1 with (bpow radix2 0). rewrite pred_bpow. reflexivity.
Qed.

Lemma scaled_below y D : F32 y -> 0 <= y < 1 -> 0 <= D -> (r32 D = rx D) ->
  (F32 D \/ bpow radix2 (-125) < Rabs D) -> r32 (y * r32 D) <= D.
Proof.
  intros Fy Y HD HR HS. set (w := r32 D).
  assert (W0 : 0 <= w) by (apply round_ge_generic; try typeclasses eauto; auto; apply generic_format_0).
  assert (Fw : F32 w) by (apply generic_format_round; typeclasses eauto).
  destruct (Rle_lt_dec w D) as [L|L].
  - apply Rle_trans with w; auto. rewrite <- (r32_id w Fw) at 2. apply round_le; try typeclasses eauto. nra.
  - destruct HS as [HS|HS]; [exfalso; unfold w in L; rewrite r32_id in L; auto; lra|].
    rewrite Rabs_right in HS by lra.
    assert (Wb : bpow radix2 (-125) <= w) by lra.
    assert (Wp : 0 < w) by (pose proof (bpow_gt_0 radix2 (-125)); lra).
    assert (PD : pred radix2 fx w <= D).
    { destruct (Rle_lt_dec (pred radix2 fx w) D) as [Q|Q]; auto. exfalso.
      assert (w <= pred radix2 fx w).
      { unfold w at 1. apply round_le_generic; try typeclasses eauto; [apply generic_format_pred; auto; typeclasses eauto|lra]. }
      pose proof (pred_lt_id radix2 fx w ltac:(lra)). lra. }
    apply Rle_trans with (pred radix2 fx w); auto.
    assert (M : y * w < (pred radix2 fx w + w) / 2).
    { assert (Y1 : y * w <= w - bpow radix2 (-24) * w).
      { pose proof (below_one y Fy ltac:(lra)). nra. }
      rewrite pred_eq_pos by lra. unfold pred_pos.
      assert (Mg : (-124 <= mag radix2 w)%Z).
      { apply (mag_ge_bpow radix2). rewrite Rabs_right by lra. exact Wb. }
      assert (Lo : bpow radix2 (mag radix2 w - 1) <= w).
      { pose proof (bpow_mag_le radix2 w ltac:(lra)) as Q. rewrite Rabs_right in Q by lra. exact Q. }
      case Req_bool_spec; intros E.
      - replace (fx (mag radix2 w - 1)) with (mag radix2 w - 1 + (-24))%Z by (unfold FLT_exp; lia).
        rewrite bpow_plus, <- E. pose proof (bpow_gt_0 radix2 (-24)). nra.
      - rewrite ulp_neq_0 by lra. unfold cexp. replace (fx (mag radix2 w)) with (1 + ((mag radix2 w - 1) + (-24)))%Z by (unfold FLT_exp; lia).
        rewrite !bpow_plus. change (bpow radix2 1) with 2. unfold Zminus in *. rewrite bpow_plus in *.
        assert (bpow radix2 (mag radix2 w) * bpow radix2 (-(1)) < w) by (rewrite <- bpow_plus in *; lra).
        pose proof (bpow_gt_0 radix2 (-24)). nra. }
    apply (round_N_le_midp radix2 fx (fun z => negb (Z.even z)) (pred radix2 fx w)).
    + apply generic_format_pred; auto; typeclasses eauto.
    + rewrite succ_pred; auto; typeclasses eauto.
Qed.

Lemma mul_small a b : fin a -> fin b -> Rabs (r32 (B a * B b)) < bpow radix2 128 -> fin (mul32 a b) /\ B (mul32 a b) = r32 (B a * B b).
Proof.
  intros Fa Fb X. pose proof (Bmult_correct 24 128 eq_refl eq_refl binop_nan_pl32 mode_NE a b) as C.
  change (round radix2 _ _ (B a * B b)) with (r32 (B a * B b)) in C. rewrite Rlt_bool_true in C by exact X.
  destruct C as (C1 & C2 & _). rewrite Fa, Fb in C2. split; [exact C2|exact C1].
Qed.
Lemma add_small a b : fin a -> fin b -> Rabs (r32 (B a + B b)) < bpow radix2 128 -> fin (add32 a b) /\ B (add32 a b) = r32 (B a + B b).
Proof.
  intros Fa Fb X. pose proof (Bplus_correct 24 128 eq_refl eq_refl binop_nan_pl32 mode_NE a b Fa Fb) as C.
  change (round radix2 _ _ (B a + B b)) with (r32 (B a + B b)) in C. rewrite Rlt_bool_true in C by exact X.
  destruct C as (C1 & C2 & _). split; [exact C2|exact C1].
Qed.
Lemma sub_finite a b : fin a -> fin b -> fin (sub32 a b) -> B (sub32 a b) = r32 (B a - B b).
Proof.
  intros Fa Fb X. pose proof (Bminus_correct 24 128 eq_refl eq_refl binop_nan_pl32 mode_NE a b Fa Fb) as C.
  change (round radix2 _ _ (B a - B b)) with (r32 (B a - B b)) in C.
  destruct (Rlt_bool _ _); [apply C|]. destruct C as [C _]. exfalso.
  change (Bminus _ _ _ _ _ _ a b) with (sub32 a b) in C. destruct (sub32 a b); try discriminate X; simpl in C; discriminate C.
Qed.

Lemma core32 y lb ub : edge sub32 lb ub -> fin y -> 0 <= B y < 1 ->
  fin (add32 (mul32 y (sub32 ub lb)) lb) /\ B lb <= B (add32 (mul32 y (sub32 ub lb)) lb) <= B ub.
Proof.
  intros [Fl Fu Ho Fd] Fy Y. pose proof (sub_finite ub lb Fu Fl Fd) as E.
  assert (D0 : 0 <= B ub - B lb) by lra.
  assert (S : F32 (B ub - B lb) \/ bpow radix2 (-125) < Rabs (B ub - B lb)).
  { destruct (Rle_lt_dec (Rabs (B ub - B lb)) (bpow radix2 (-125))) as [L|L]; [left|right; auto].
    unfold Rminus. apply (FLT_format_plus_small radix2 (-149) 24); [apply F32_B|apply generic_format_opp, F32_B|exact L]. }
  assert (W0 : 0 <= B (sub32 ub lb)) by (rewrite E; apply round_ge_generic; try typeclasses eauto; auto; apply generic_format_0).
  assert (K : r32 (B y * B (sub32 ub lb)) <= B ub - B lb).
  { rewrite E. apply scaled_below; auto; [apply F32_B|]. unfold Rminus. apply sum; [apply F32_B|apply generic_format_opp, F32_B]. }
  assert (K0 : 0 <= r32 (B y * B (sub32 ub lb))).
  { apply round_ge_generic; try typeclasses eauto; [apply generic_format_0|]. apply Rmult_le_pos; lra. }
  assert (K1 : r32 (B y * B (sub32 ub lb)) <= B (sub32 ub lb)).
  { rewrite <- (r32_id (B (sub32 ub lb)) (F32_B _)) at 2. apply round_le; try typeclasses eauto. nra. }
  pose proof (abs_B2R_lt_emax 24 128 (sub32 ub lb)) as T. rewrite Rabs_right in T by lra.
  destruct (mul_small y (sub32 ub lb) Fy Fd) as [M1 M2]; [rewrite Rabs_right; lra|].
  assert (A1 : B lb <= r32 (B (mul32 y (sub32 ub lb)) + B lb)).
  { apply round_ge_generic; try typeclasses eauto; [apply F32_B|]. rewrite M2. lra. }
  assert (A2 : r32 (B (mul32 y (sub32 ub lb)) + B lb) <= B ub).
  { apply round_le_generic; try typeclasses eauto; [apply F32_B|]. rewrite M2. lra. }
  pose proof (abs_B2R_lt_emax 24 128 ub) as T1. pose proof (abs_B2R_lt_emax 24 128 lb) as T2.
  apply Rabs_lt_inv in T1. apply Rabs_lt_inv in T2.
  destruct (add_small (mul32 y (sub32 ub lb)) lb M1 Fl) as [S1 S2]; [apply Rabs_lt; lra|].
  rewrite S2. auto.
Qed.

Lemma compare_val a b : fin a -> fin b -> b32_compare a b = Some (Rcompare (B a) (B b)).
Proof. intros Fa Fb. apply (Bcompare_correct 24 128); auto. Qed.
Lemma gt32_spec a b : fin a -> fin b -> gt32 a b = true <-> B b < B a.
Proof.
  intros Fa Fb. unfold gt32. rewrite compare_val by auto. destruct (Rcompare_spec (B a) (B b)); split; intros; auto; try lra; discriminate.
Qed.
Lemma le32_spec a b : fin a -> fin b -> le32 a b = true <-> B a <= B b.
Proof.
  intros Fa Fb. unfold le32. rewrite compare_val by auto. destruct (Rcompare_spec (B a) (B b)); split; intros; auto; try lra; discriminate.
Qed.

(** the remainder is the exact fractional part *)
Lemma frac32_val x : fin x -> 1 < B x -> fin (frac32 x) /\ B (frac32 x) = B x - IZR (Zfloor (B x)).
Proof.
  intros Fx X. destruct x as [s|s|s pl pe|s m e Q]; try discriminate Fx; [simpl in X; lra|].
  assert (s = false) as ->.
  { destruct s; auto. exfalso. simpl in X. assert (F2R (Float radix2 (Z.neg m) e) < 0) by (apply F2R_lt_0; reflexivity). lra. }
  assert (V : B (B754_finite 24 128 false m e Q) = IZR (Zpos m) * bpow radix2 e) by reflexivity.
  unfold frac32. destruct (Z.ltb_spec e 0) as [L|L].
  - assert (P : (0 < 2 ^ (- e))%Z) by (apply Z.pow_pos_nonneg; lia).
    assert (PB : IZR (2 ^ (- e)) = bpow radix2 (- e)) by (rewrite <- (IZR_Zpower radix2) by lia; reflexivity).
    assert (BB : bpow radix2 (- e) * bpow radix2 e = 1) by (rewrite <- bpow_plus; replace (- e + e)%Z with 0%Z by lia; reflexivity).
    pose proof (Z.mod_pos_bound (Zpos m) (2 ^ (- e)) P) as Mb.
    pose proof (Z.div_mod (Zpos m) (2 ^ (- e)) ltac:(lia)) as Dm.
    set (q := (Zpos m / 2 ^ (- e))%Z) in *. set (k := (Zpos m mod 2 ^ (- e))%Z) in *.
    assert (Xv : B (B754_finite 24 128 false m e Q) = IZR q + IZR k * bpow radix2 e).
    { rewrite V, Dm, plus_IZR, mult_IZR, PB. transitivity (IZR q * (bpow radix2 (- e) * bpow radix2 e) + IZR k * bpow radix2 e); [ring|]. rewrite BB. ring. }
    assert (Kb : 0 <= IZR k * bpow radix2 e < 1).
    { pose proof (bpow_gt_0 radix2 e). split; [apply Rmult_le_pos; [apply IZR_le; lia|lra]|].
      rewrite <- BB. apply Rmult_lt_compat_r; auto. rewrite <- PB. apply IZR_lt. lia. }
    assert (FQ : Zfloor (B (B754_finite 24 128 false m e Q)) = q).
    { apply Zfloor_imp. rewrite Xv, plus_IZR. lra. }
    assert (G : F32 (F2R (Float radix2 k e))).
    { pose proof (canonical_bounded 24 128 false m e Q) as Can. unfold canonical in Can. cbn [Fexp cond_Zopp] in Can.
      apply generic_format_F2R. intros K0. unfold cexp in *.
      assert (mag radix2 (F2R (Float radix2 k e)) <= mag radix2 (F2R (Float radix2 (Zpos m) e)))%Z.
      { apply mag_le; [apply F2R_gt_0; cbn; lia|]. apply F2R_le. pose proof (Z.mod_le (Zpos m) (2 ^ (- e)) ltac:(lia) P). fold k in H. lia. }
      change (SpecFloat.fexp 24 128) with fx in Can. unfold FLT_exp in *. lia. }
    pose proof (binary_normalize_correct 24 128 eq_refl eq_refl mode_NE k e false) as C. cbv zeta in C.
    change (round radix2 _ _ (F2R (Float radix2 k e))) with (r32 (F2R (Float radix2 k e))) in C.
    rewrite r32_id in C by exact G. change (F2R (Float radix2 k e)) with (IZR k * bpow radix2 e) in C.
    rewrite Rlt_bool_true in C.
    + destruct C as (C1 & C2 & _). split; [exact C2|]. rewrite FQ, Xv. rewrite C1. ring.
    + rewrite Rabs_right by lra. apply Rlt_trans with 1; [lra|]. change 1 with (bpow radix2 0). apply bpow_lt. lia.
  - split; [apply zero_val|]. rewrite (proj1 zero_val). rewrite V.
    assert (PB : bpow radix2 e = IZR (2 ^ e)) by (rewrite <- (IZR_Zpower radix2) by lia; reflexivity).
    rewrite PB, <- mult_IZR, Zfloor_IZR. ring.
Qed.

Lemma box32_inside x lb ub : edge sub32 lb ub -> fin x -> 0 <= B x -> B x <> 1 ->
  fin (box32 x lb ub) /\ B lb <= B (box32 x lb ub) <= B ub.
Proof.
  intros H Fx X0 X1. unfold box32. destruct one_val as [O1 O2].
  destruct (gt32 x one32) eqn:E.
  - apply gt32_spec in E; auto. rewrite O1 in E. destruct (frac32_val x Fx E) as [Ff Vf].
    apply core32; auto. rewrite Vf. pose proof (Zfloor_lb (B x)). pose proof (Zfloor_ub (B x)). lra.
  - apply core32; auto. split; auto. destruct (Rle_lt_dec 1 (B x)) as [L|L]; auto.
    exfalso. assert (gt32 x one32 = true) by (apply gt32_spec; auto; lra). congruence.
Qed.

(** *** accuracy *)
Lemma rx_rel x : Rabs (rx x - x) <= bpow radix2 (-24) * Rabs x.
Proof.
  pose proof (relative_error_N_FLX radix2 24 P24' (fun z => negb (Z.even z)) x) as E.
  eapply Rle_trans; [exact E|]. right. f_equal. change (-24 + 1)%Z with (1 + -24)%Z. rewrite bpow_plus. change (bpow radix2 1) with 2. change (- (24))%Z with (-24)%Z. field.
Qed.
Lemma r32_rel x : Rabs (r32 x - x) <= bpow radix2 (-24) * Rabs x + bpow radix2 (-150).
Proof.
  destruct (Rle_lt_dec (bpow radix2 (-126)) (Rabs x)) as [L|L].
  - rewrite (big x) by (right; exact L). pose proof (rx_rel x). pose proof (bpow_gt_0 radix2 (-150)). lra.
  - eapply Rle_trans; [apply error_le_half_ulp; typeclasses eauto|].
    rewrite ulp_FLT_small; [|typeclasses eauto|].
    + change (-150)%Z with (-1 + -149)%Z. rewrite bpow_plus. pose proof (bpow_ge_0 radix2 (-24)). pose proof (Rabs_pos x).
      assert (0 <= bpow radix2 (-24) * Rabs x) by nra. replace (bpow radix2 (-1)) with (/ 2) by (simpl; lra). lra.
    + eapply Rlt_le_trans; [exact L|]. apply bpow_le. lia.
Qed.
Lemma core32_accuracy y lb ub : edge sub32 lb ub -> fin y -> 0 <= B y < 1 ->
  Rabs (B (add32 (mul32 y (sub32 ub lb)) lb) - (B lb + B y * (B ub - B lb))) <=
  4 * bpow radix2 (-24) * (Rabs (B lb) + Rabs (B ub)) + bpow radix2 (-150).
Proof.
  intros H Fy Y. destruct (core32 y lb ub H Fy Y) as [Fv [Bv1 Bv2]]. destruct H as [Fl Fu Ho Fd].
  pose proof (sub_finite ub lb Fu Fl Fd) as E.
  assert (R1 : r32 (B ub - B lb) = rx (B ub - B lb)) by (unfold Rminus; apply sum; [apply F32_B|apply generic_format_opp, F32_B]).
  set (w := B (sub32 ub lb)) in *. set (S := Rabs (B lb) + Rabs (B ub)).
  assert (D : B ub - B lb <= S) by (unfold S; pose proof (Rle_abs (B ub)); pose proof (Rle_abs (- B lb)); rewrite Rabs_Ropp in *; lra).
  assert (S0 : 0 <= S) by (unfold S; pose proof (Rabs_pos (B lb)); pose proof (Rabs_pos (B ub)); lra).
  pose proof (rx_rel (B ub - B lb)) as E1. rewrite <- R1, <- E, (Rabs_right (B ub - B lb)) in E1 by lra.
  assert (U : 0 < bpow radix2 (-24) <= / 4).
  { split; [apply bpow_gt_0|]. replace (/ 4) with (bpow radix2 (-2)) by (simpl; lra). apply bpow_le. lia. }
  set (u := bpow radix2 (-24)) in *.
  assert (W0 : 0 <= w) by (rewrite E; apply round_ge_generic; try typeclasses eauto; [apply generic_format_0|lra]).
  assert (Wu : w <= (1 + u) * S).
  { apply Rabs_def2b in E1 || apply Rabs_le_inv in E1. nra. }
  assert (K1 : r32 (B y * w) <= w).
  { rewrite <- (r32_id w) at 2 by apply F32_B. apply round_le; try typeclasses eauto. nra. }
  assert (K0 : 0 <= r32 (B y * w)) by (apply round_ge_generic; try typeclasses eauto; [apply generic_format_0|nra]).
  pose proof (abs_B2R_lt_emax 24 128 (sub32 ub lb)) as T. fold w in T. rewrite Rabs_right in T by lra.
  destruct (mul_small y (sub32 ub lb) Fy Fd) as [M1 M2]; [fold w; rewrite Rabs_right; lra|]. fold w in M2.
  pose proof (r32_rel (B y * w)) as E2. fold u in E2. rewrite <- M2, (Rabs_right (B y * w)) in E2 by nra.
  set (p := B (mul32 y (sub32 ub lb))) in *.
  assert (Pb : B lb <= p + B lb <= B ub).
  { split; [rewrite M2; lra|]. assert (p <= B ub - B lb); [|lra]. rewrite M2, E. apply scaled_below; auto; [apply F32_B|lra|].
    destruct (Rle_lt_dec (Rabs (B ub - B lb)) (bpow radix2 (-125))) as [L|L]; [left|right; auto].
    unfold Rminus. apply (FLT_format_plus_small radix2 (-149) 24); [apply F32_B|apply generic_format_opp, F32_B|exact L]. }
  assert (V : B (add32 (mul32 y (sub32 ub lb)) lb) = r32 (p + B lb)).
  { pose proof (abs_B2R_lt_emax 24 128 ub) as T1. pose proof (abs_B2R_lt_emax 24 128 lb) as T2.
    apply Rabs_lt_inv in T1. apply Rabs_lt_inv in T2.
    assert (Q1 : B lb <= r32 (p + B lb)) by (apply round_ge_generic; try typeclasses eauto; [apply F32_B|lra]).
    assert (Q2 : r32 (p + B lb) <= B ub) by (apply round_le_generic; try typeclasses eauto; [apply F32_B|lra]).
    apply (add_small (mul32 y (sub32 ub lb)) lb M1 Fl). fold p. apply Rabs_lt; lra. }
  rewrite V. rewrite (sum p (B lb)) by apply F32_B.
  pose proof (rx_rel (p + B lb)) as E3. fold u in E3.
  assert (P3 : Rabs (p + B lb) <= S).
  { unfold S. pose proof (Rle_abs (B ub)). pose proof (Rle_abs (- B lb)). rewrite Rabs_Ropp in *. pose proof (Rabs_pos (B ub)). pose proof (Rabs_pos (B lb)).
    apply Rabs_le. lra. }
  set (v := rx (p + B lb)) in *.
  assert (E4 : Rabs (v - (p + B lb)) <= u * S) by (eapply Rle_trans; [exact E3|]; apply Rmult_le_compat_l; lra).
  apply Rabs_le_inv in E1. apply Rabs_le_inv in E2. apply Rabs_le_inv in E4.
  assert (E5 : u * (B ub - B lb) <= u * S) by (apply Rmult_le_compat_l; lra).
  assert (E6 : u * (B y * w) <= u * ((1 + u) * S)) by (apply Rmult_le_compat_l; [lra|]; nra).
  assert (E7 : u * ((1 + u) * S) <= 2 * (u * S)) by (assert (0 <= u * S) by nra; nra).
  assert (E8 : - (u * S) <= B y * (w - (B ub - B lb)) <= u * S).
  { assert (0 <= u * S) by nra. split; nra. }
  replace (v - (B lb + B y * (B ub - B lb))) with ((v - (p + B lb)) + (p - B y * w) + B y * (w - (B ub - B lb))) by ring.
  apply Rabs_le. lra.
Qed.

Lemma int_part_unique x k y : x = IZR k + y -> 0 <= y < 1 -> Zfloor x = k.
Proof. intros -> H. apply Zfloor_imp. rewrite plus_IZR. lra. Qed.
Lemma box32_accuracy x lb ub k y : edge sub32 lb ub -> fin x -> 0 <= B x -> B x <> 1 ->
  B x = IZR k + y -> 0 <= y < 1 ->
  Rabs (B (box32 x lb ub) - (B lb + y * (B ub - B lb))) <= 4 * powerRZ 2 (-24) * (Rabs (B lb) + Rabs (B ub)) + powerRZ 2 (-150).
Proof.
  intros H Fx X0 X1 Hk Hy. pose proof (int_part_unique _ _ _ Hk Hy) as Q.
  rewrite <- !(bpow_powerRZ radix2). unfold box32. destruct one_val as [O1 O2].
  destruct (gt32 x one32) eqn:E.
  - apply gt32_spec in E; auto. rewrite O1 in E. destruct (frac32_val x Fx E) as [Ff Vf]. rewrite Q in Vf.
    replace y with (B (frac32 x)) by lra. apply core32_accuracy; auto. lra.
  - assert (L : B x < 1).
    { destruct (Rle_lt_dec 1 (B x)) as [L|L]; auto.
      exfalso. assert (gt32 x one32 = true) by (apply gt32_spec; auto; lra). congruence. }
    rewrite (Zfloor_imp 0) in Q by (simpl; lra). subst k.
    replace y with (B x) by lra. apply core32_accuracy; auto.
Qed.

(** *** arrays *)
Lemma transform32_included lb ub x : Forall2 (edge sub32) lb ub -> length x = length lb ->
  Forall (fun a => fin a /\ 0 <= B a /\ B a <> 1) x ->
  exists s, transform32 lb ub x = Ok s /\ Forall (fun a => fin a) s /\ includes32 lb ub s = Ok (repeat true (length lb)).
Proof.
  intros H. revert x. induction H as [|l u lb ub E H IH]; intros [|a x] L F; try discriminate L.
  - exists []. auto.
  - inversion F as [|? ? [Fa [A0 A1]] F']; subst. destruct (IH x ltac:(simpl in L; lia) F') as (s & T & Fs & I).
    exists (box32 a l u :: s). cbn [transform32 includes32]. rewrite T. cbn [bind]. split; [reflexivity|].
    destruct (box32_inside a l u E Fa A0 A1) as [Fb [B1 B2]]. split; [constructor; auto|]. rewrite I. cbn [bind length repeat].
    destruct E as [Fl Fu _ _]. rewrite (proj2 (le32_spec _ _ Fl Fb) B1), (proj2 (le32_spec _ _ Fb Fu) B2). reflexivity.
Qed.

(** *** the sample 1 and edges that overflow *)
Lemma B_finite x s m e : B2FF 24 128 x = F754_finite s m e -> B x = F2R (Float radix2 (cond_Zopp s (Zpos m)) e).
Proof. destruct x; intros H; try discriminate H. injection H as -> -> ->. reflexivity. Qed.
Definition low : f32 := b32_of_bits 3212836864.
Definition high : f32 := b32_of_bits 2952790016.
Lemma low_val : B low = -1.
Proof. rewrite (B_finite low true 8388608 (-23)) by reflexivity. unfold F2R. simpl. lra. Qed.
Lemma high_val : B high = - powerRZ 2 (-31).
Proof.
  rewrite (B_finite high true 8388608 (-54)) by reflexivity. rewrite <- (bpow_powerRZ radix2). unfold F2R. cbn [Fnum Fexp cond_Zopp].
  change (-54)%Z with (-23 + -31)%Z. rewrite bpow_plus. replace (IZR (- (8388608))) with (- bpow radix2 23) by (simpl; lra).
  replace (- bpow radix2 23 * (bpow radix2 (-23) * bpow radix2 (-31))) with (- (bpow radix2 23 * bpow radix2 (-23) * bpow radix2 (-31))) by ring.
  rewrite <- bpow_plus. change (bpow radix2 (23 + -23)) with 1. ring.
Qed.
Lemma low_high_edge : edge sub32 low high.
Proof.
  split; try reflexivity. rewrite low_val, high_val. assert (powerRZ 2 (-31) <= 1); [|lra].
  rewrite <- (bpow_powerRZ radix2). change 1 with (bpow radix2 0). apply bpow_le. lia.
Qed.
Lemma one_outside : exists lb ub, edge sub32 lb ub /\ B ub < B (box32 one32 lb ub) /\
  exists s, transform32 [lb] [ub] [one32] = Ok s /\ includes32 [lb] [ub] s = Ok [false].
Proof.
  exists low, high. split; [exact low_high_edge|]. split.
  - rewrite high_val. assert (E : B2FF 24 128 (box32 one32 low high) = F754_zero false) by (vm_compute; reflexivity).
    destruct (box32 one32 low high); try discriminate E. cbn [B2R].
    assert (0 < powerRZ 2 (-31)); [|lra]. apply powerRZ_lt. lra.
  - eexists. split; [reflexivity|]. vm_compute. reflexivity.
Qed.
Definition most : f32 := b32_of_bits 2139095039.
Definition least : f32 := b32_of_bits 4286578687.
Lemma edge_overflow : exists lb ub, fin lb /\ fin ub /\ B lb <= B ub /\ is_nan 24 128 (box32 zero32 lb ub) = true /\
  B2FF 24 128 (box32 half32 lb ub) = F754_infinity false.
Proof.
  exists least, most. split; [reflexivity|]. split; [reflexivity|]. split; [|split; vm_compute; reflexivity].
  rewrite (B_finite least true 16777215 104), (B_finite most false 16777215 104) by reflexivity.
  apply F2R_le. simpl. lia.
Qed.
Lemma edge_example : edge sub32 low high /\ fin half32 /\ B low < B high.
Proof.
  split; [exact low_high_edge|]. split; [reflexivity|]. rewrite low_val, high_val.
  assert (powerRZ 2 (-31) < 1); [|lra]. rewrite <- (bpow_powerRZ radix2). change 1 with (bpow radix2 0). apply bpow_lt. lia.
Qed.
Lemma includes32_spec lb ub s : Forall (fun a => fin a) lb -> Forall (fun a => fin a) ub -> Forall (fun a => fin a) s ->
  length lb = length ub -> length s = length ub ->
  exists l, includes32 lb ub s = Ok l /\ length l = length ub /\
  forall i, (i < length ub)%nat -> nth i l false = true <-> B (nth i lb zero32) <= B (nth i s zero32) <= B (nth i ub zero32).
Proof.
  revert ub s. induction lb as [|a lb IH]; intros [|b ub] [|c s] Fl Fu Fs L1 L2; try discriminate L1; try discriminate L2.
  - exists []. split; [reflexivity|]. split; [reflexivity|]. simpl. intros; lia.
  - inversion Fl; inversion Fu; inversion Fs; subst. destruct (IH ub s) as (l & E & Ll & H); auto.
    exists ((le32 a c && le32 c b)%bool :: l). cbn [includes32]. rewrite E. cbn [bind]. split; [reflexivity|]. split; [simpl; auto|].
    intros [|i] Hi; [|apply H; simpl in Hi; lia]. cbn [nth]. rewrite Bool.andb_true_iff, !le32_spec by auto. reflexivity.
Qed.
