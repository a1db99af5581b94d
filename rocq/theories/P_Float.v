(** Proofs about RAlpha with rounded arithmetic. *)
From Coq Require Import Lia.
From Flocq Require Import Core Relative.
From Verif Require Import Base M_RFun M_Float.
Open Scope R_scope.

Section FLX.
Variable prec : Z.
Hypothesis Hp : (4 <= prec)%Z.
Variable rnd : R -> R.
Instance prec_pos : Prec_gt_0 prec. Proof. red; lia. Qed.
Notation fexp := (FLX_exp prec).
Notation F := (generic_format radix2 fexp).
Hypothesis N : forall x, Rnd_N_pt F x (rnd x).
Notation u := (u_ro radix2 prec).
Notation ulp := (ulp radix2 fexp).

Lemma u_bpow : u = bpow radix2 (- prec).
Proof.
  unfold u_ro. rewrite bpow_plus. change (bpow radix2 1) with 2. lra.
Qed.
Lemma u_bound : 0 < u <= / 16.
Proof.
  rewrite u_bpow. split; [apply bpow_gt_0|].
  replace (/ 16) with (bpow radix2 (-4)) by (simpl; lra). apply bpow_le. lia.
Qed.
Lemma rnd_le x y : x <= y -> rnd x <= rnd y.
Proof.
  intros [L| ->]; [|lra]. exact (Rnd_N_pt_monotone _ _ _ _ _ (N x) (N y) L).
Qed.
Lemma rnd_F x : F (rnd x).
Proof. apply N. Qed.
Lemma rnd_id x : F x -> rnd x = x.
Proof. intros X. exact (Rnd_N_pt_idempotent _ _ _ (N x) X). Qed.
Lemma rnd_0 : rnd 0 = 0.
Proof. apply rnd_id, generic_format_0. Qed.
Lemma rnd_pos x : 0 <= x -> 0 <= rnd x.
Proof. intros. rewrite <- rnd_0. now apply rnd_le. Qed.
Lemma rnd_neg x : x <= 0 -> rnd x <= 0.
Proof. intros. rewrite <- rnd_0. now apply rnd_le. Qed.
Lemma rnd_rel x : Rabs (rnd x - x) <= u / (1 + u) * Rabs x.
Proof.
  eapply Rle_trans; [|apply (relative_error_N_FLX' radix2 prec prec_pos (fun n => negb (Z.even n)) x)].
  apply (proj2 (N x)). apply generic_format_round; typeclasses eauto.
Qed.
Lemma rnd_err x : 0 <= x -> x - u / (1 + u) * x <= rnd x <= x + u / (1 + u) * x.
Proof.
  intros X. pose proof (rnd_rel x) as E. rewrite (Rabs_right x) in E by lra.
  apply Rabs_def2b in E || apply Rabs_le_inv in E. lra.
Qed.
Lemma w_bound : 0 < u / (1 + u) /\ u / (1 + u) < u /\ u / (1 + u) <= u - u * u + u * u * u.
Proof.
  pose proof u_bound. assert (u * u > 0) by nra. repeat split.
  - apply Rdiv_lt_0_compat; lra.
  - apply (Rmult_lt_reg_r (1 + u)); [lra|]. field_simplify; nra.
  - apply (Rmult_le_reg_r (1 + u)); [lra|]. unfold Rdiv. rewrite Rmult_assoc, Rinv_l by lra. nra.
Qed.
Lemma ulp_gt x : 0 < x -> u * x < ulp x.
Proof.
  intros X. rewrite ulp_neq_0 by lra. unfold cexp, FLX_exp, Zminus. rewrite bpow_plus, <- u_bpow, Rmult_comm.
  apply Rmult_lt_compat_r; [apply u_bound|]. pose proof (bpow_mag_gt radix2 x) as E.
  rewrite Rabs_right in E by lra. exact E.
Qed.
Lemma ulp_le x : 0 < x -> ulp x <= 2 * u * x.
Proof.
  intros X. pose proof (ulp_FLX_le radix2 prec x) as E. rewrite Rabs_right in E by lra.
  unfold Zminus in E. rewrite bpow_plus, <- u_bpow in E. change (bpow radix2 1) with 2 in E. nra.
Qed.

(** rounding back to a *)
Lemma mid_up a v : F a -> v < (a + succ radix2 fexp a) / 2 -> rnd v <= a.
Proof.
  intros Fa V. destruct (Rle_lt_dec v a) as [C|C].
  - rewrite <- (rnd_id a Fa) at 1. now apply rnd_le.
  - destruct (Rle_lt_dec (rnd v) a) as [D|D]; [trivial|exfalso].
    pose proof (proj2 (N v) a Fa) as B.
    assert (SS : succ radix2 fexp a <= rnd v) by (apply succ_le_lt; [typeclasses eauto|exact Fa|apply rnd_F|exact D]).
    rewrite (Rabs_left1 (a - v)) in B by lra. rewrite (Rabs_right (rnd v - v)) in B by lra. lra.
Qed.
Lemma mid_down a v : F a -> (a + pred radix2 fexp a) / 2 < v -> a <= rnd v.
Proof.
  intros Fa V. destruct (Rle_lt_dec a v) as [C|C].
  - rewrite <- (rnd_id a Fa) at 1. now apply rnd_le.
  - destruct (Rle_lt_dec a (rnd v)) as [D|D]; [trivial|exfalso].
    pose proof (proj2 (N v) a Fa) as B.
    assert (SS : rnd v <= pred radix2 fexp a) by (apply pred_ge_gt; [typeclasses eauto|apply rnd_F|exact Fa|exact D]).
    rewrite (Rabs_right (a - v)) in B by lra. rewrite (Rabs_left1 (rnd v - v)) in B by lra. lra.
Qed.
Lemma rnd_up a v : F a -> 0 < a -> v < a + / 2 * ulp a -> rnd v <= a.
Proof.
  intros Fa A V. apply mid_up; [exact Fa|]. rewrite succ_eq_pos by lra. lra.
Qed.
Lemma sqrt_up a q : F a -> 0 < a -> q < a * a + a * ulp a -> rnd (sqrt q) <= a.
Proof.
  intros Fa A Q. apply rnd_up; trivial. pose proof (ulp_gt a A). pose proof u_bound.
  assert (0 < ulp a) by nra.
  rewrite <- (sqrt_square (a + / 2 * ulp a)) by lra.
  destruct (Rle_lt_dec 0 q) as [Q0|Q0].
  - apply sqrt_lt_1_alt. split; [trivial|nra].
  - rewrite sqrt_neg by lra. apply sqrt_lt_R0. nra.
Qed.

(** sqrt (a * a) = a *)
Lemma sqrt_down a : F a -> 0 < a -> a <= rnd (sqrt (rnd (a * a))).
Proof.
  intros Fa A.
  destruct (Req_dec a (bpow radix2 (mag radix2 a - 1))) as [E|E].
  - assert (Fq : F (a * a)).
    { assert (E2 : a * a = bpow radix2 ((mag radix2 a - 1) + (mag radix2 a - 1))) by now rewrite bpow_plus, <- E.
      rewrite E2. apply generic_format_bpow. unfold FLX_exp. lia. }
    rewrite (rnd_id _ Fq), sqrt_square by lra. rewrite rnd_id by trivial. lra.
  - apply mid_down; [exact Fa|].
    rewrite pred_eq_pos by lra. unfold pred_pos. rewrite Req_bool_false by exact E.
    pose proof (ulp_gt a A) as U1. pose proof (ulp_le a A) as U2. pose proof u_bound as U.
    destruct w_bound as (W1 & W2 & W3).
    assert (AA : 0 <= a * a) by nra. pose proof (proj1 (rnd_err (a * a) AA)) as L.
    replace ((a + (a - ulp a)) / 2) with (a - / 2 * ulp a) by lra.
    assert (P : 0 <= a - / 2 * ulp a) by nra.
    rewrite <- (sqrt_square (a - / 2 * ulp a)) by lra. apply sqrt_lt_1_alt. split; [nra|].
    assert (X : a * ulp a - / 4 * (ulp a * ulp a) > u / (1 + u) * (a * a)); [|nra].
    (* (ulp - u a) * a >= ... : the left side increases in ulp up to 2 a *)
    assert (Y : a * ulp a - / 4 * (ulp a * ulp a) >= u * (a * a) - / 4 * (u * u) * (a * a)).
    { assert (0 <= (ulp a - u * a) * (a - / 4 * (ulp a + u * a))); [|nra].
      apply Rmult_le_pos; nra. }
    assert (Z : u - / 4 * (u * u) > u / (1 + u)) by nra. nra.
Qed.
Lemma sqrt_exact a : F a -> 0 <= a -> rnd (sqrt (rnd (a * a))) = a.
Proof.
  intros Fa [A|<-].
  - apply Rle_antisym; [|now apply sqrt_down]. apply sqrt_up; trivial.
    pose proof (ulp_gt a A). pose proof u_bound. destruct w_bound as (W1 & W2 & W3).
    assert (AA : 0 <= a * a) by nra. pose proof (proj2 (rnd_err (a * a) AA)). nra.
  - rewrite Rmult_0_l, rnd_0, sqrt_0. apply rnd_0.
Qed.

(** the rounded length of (a, b) *)
Definition len a b := rnd (sqrt (rnd (rnd (a * a) + rnd (b * b)))).
Lemma sq_F a : F (rnd (a * a)) /\ 0 <= rnd (a * a).
Proof. split; [apply rnd_F|]. apply rnd_pos. nra. Qed.
Lemma len_sym a b : len a b = len b a.
Proof. unfold len. now rewrite Rplus_comm. Qed.
Lemma len_opp a b : len (- a) b = len a b.
Proof. unfold len. now replace (- a * - a) with (a * a) by ring. Qed.
Lemma len_pos a b : 0 <= len a b.
Proof. apply rnd_pos, sqrt_pos. Qed.
Lemma len_ge_l a b : F a -> 0 <= a -> a <= len a b.
Proof.
  intros Fa A. destruct (sq_F a) as [FA PA], (sq_F b) as [FB PB].
  rewrite <- (sqrt_exact a Fa A) at 1. apply rnd_le, sqrt_le_1_alt.
  rewrite <- (rnd_id _ FA) at 1. apply rnd_le. lra.
Qed.
Lemma len_ge_abs a b : F a -> Rabs a <= len a b.
Proof.
  intros Fa. destruct (Rle_lt_dec 0 a) as [A|A].
  - rewrite Rabs_right by lra. now apply len_ge_l.
  - rewrite Rabs_left by lra. rewrite <- len_opp. apply len_ge_l; [now apply generic_format_opp|lra].
Qed.
Lemma len_0 b : F b -> len 0 b = Rabs b.
Proof.
  intros Fb. unfold len. rewrite Rmult_0_l, rnd_0, Rplus_0_l. destruct (sq_F b) as [FB _]. rewrite (rnd_id _ FB).
  destruct (Rle_lt_dec 0 b) as [B|B].
  - rewrite Rabs_right by lra. now apply sqrt_exact.
  - rewrite Rabs_left by lra. replace (b * b) with (- b * - b) by ring.
    apply sqrt_exact; [now apply generic_format_opp|lra].
Qed.

(** the triangle inequality survives rounding *)
Lemma len_le_sum_ordered a b : F a -> F b -> 0 < b -> b <= a -> forall g, Rnd_N_pt F (a + b) g -> len a b <= g.
Proof.
  intros Fa Fb B AB g Hg. pose proof u_bound as U. destruct w_bound as (W1 & W2 & W3).
  assert (AA : 0 <= a * a) by nra. assert (BB : 0 <= b * b) by nra.
  pose proof (rnd_err _ AA) as EA. pose proof (rnd_err _ BB) as EB.
  destruct (Rle_lt_dec (2 * u * a) b) as [C|C].
  - apply (Rnd_N_pt_monotone _ _ _ _ _ (N _) Hg). rewrite <- (sqrt_square (a + b)) by lra.
    apply sqrt_lt_1_alt. split; [apply rnd_pos; nra|].
    set (q := rnd (a * a) + rnd (b * b)) in *.
    assert (Q : 0 <= q) by (unfold q; nra). pose proof (proj2 (rnd_err _ Q)) as EQ.
    assert (Q2 : q <= (1 + u) * (a * a + b * b)) by (unfold q; nra).
    apply (Rle_lt_trans _ ((1 + u) * ((1 + u) * (a * a + b * b)))); [nra|].
    assert (K : (2 * u + u * u) * (a * a + b * b) < 2 * (a * b)); [|nra].
    (* (b - 2 u a) (a - 2 u b) >= 0 *)
    assert (0 <= (b - 2 * u * a) * (a - 2 * u * b)) by (apply Rmult_le_pos; nra).
    assert (2 * u * (a * a + b * b) <= (1 + 4 * (u * u)) * (a * b)) by nra.
    assert (0 < a * b) by nra.
    assert (E1 : (2 * u + u * u) * (a * a + b * b) = (1 + / 2 * u) * (2 * u * (a * a + b * b))) by field.
    rewrite E1. apply (Rle_lt_trans _ ((1 + / 2 * u) * ((1 + 4 * (u * u)) * (a * b)))).
    + apply Rmult_le_compat_l; lra.
    + assert ((1 + / 2 * u) * (1 + 4 * (u * u)) < 2) by nra. nra.
  - apply (Rle_trans _ a).
    + apply sqrt_up; trivial; [lra|].
      assert (A : 0 < a) by lra. pose proof (ulp_gt a A).
      apply (Rle_lt_trans _ (rnd (a * a))); [|nra].
      assert (PA : 0 < rnd (a * a)).
      { assert (0 < a * a) by nra. nra. }
      apply rnd_up; [apply rnd_F|exact PA|].
      pose proof (ulp_gt _ PA).
      assert (b * b <= (2 * u * a) * (2 * u * a)) by (apply Rmult_le_compat; lra).
      assert (rnd (b * b) <= (1 + u) * (4 * (u * u) * (a * a))) by nra.
      assert (rnd (a * a) >= (1 - u) * (a * a)) by nra.
      assert ((1 + u) * (4 * (u * u) * (a * a)) <= / 2 * (u * ((1 - u) * (a * a)))); [|nra].
      assert ((1 + u) * (4 * u) <= / 2 * (1 - u)) by nra.
      assert (0 <= u * (a * a)) by nra. nra.
    + apply (Rnd_N_pt_monotone F a (a + b) a g); [now apply Rnd_N_pt_refl|exact Hg|lra].
Qed.
Lemma len_le_sum_any a b g : F a -> F b -> 0 <= a -> 0 <= b -> Rnd_N_pt F (a + b) g -> len a b <= g.
Proof.
  intros Fa Fb [A|<-] [B|<-] Hg.
  - destruct (Rle_lt_dec b a).
    + now apply len_le_sum_ordered.
    + rewrite len_sym. rewrite Rplus_comm in Hg. apply len_le_sum_ordered; trivial. lra.
  - rewrite Rplus_0_r in Hg. rewrite (Rnd_N_pt_idempotent _ _ _ Hg Fa).
    rewrite len_sym, len_0, Rabs_right by (trivial; lra). lra.
  - rewrite Rplus_0_l in Hg. rewrite (Rnd_N_pt_idempotent _ _ _ Hg Fb).
    rewrite len_0, Rabs_right by (trivial; lra). lra.
  - rewrite Rplus_0_l in Hg. rewrite (Rnd_N_pt_idempotent _ _ _ Hg Fb).
    rewrite len_0, Rabs_R0 by trivial. lra.
Qed.
Lemma len_le_sum a b : F a -> F b -> 0 <= a -> 0 <= b -> len a b <= rnd (a + b).
Proof. intros. now apply len_le_sum_any. Qed.
Lemma len_le_neg_sum a b : F a -> F b -> a <= 0 -> b <= 0 -> len a b <= - rnd (a + b).
Proof.
  intros Fa Fb A B. rewrite <- len_opp, len_sym, <- len_opp, len_sym.
  apply len_le_sum_any; try (now apply generic_format_opp); try lra.
  replace (- a + - b) with (- (a + b)) by ring. apply Rnd_N_pt_opp_inv; [intros; now apply generic_format_opp|].
  rewrite !Ropp_involutive. apply N.
Qed.
(** and so does |a + b| <= the length for signs that differ *)
Lemma sum_le_len a b : F a -> F b -> a <= 0 \/ b <= 0 -> rnd (a + b) <= len a b.
Proof.
  intros Fa Fb S. destruct S as [S|S].
  - apply (Rle_trans _ b).
    + rewrite <- (rnd_id b Fb) at 2. apply rnd_le. lra.
    + rewrite len_sym. pose proof (len_ge_abs b a Fb). pose proof (Rle_abs b). lra.
  - apply (Rle_trans _ a).
    + rewrite <- (rnd_id a Fa) at 2. apply rnd_le. lra.
    + pose proof (len_ge_abs a b Fa). pose proof (Rle_abs a). lra.
Qed.
End FLX.
