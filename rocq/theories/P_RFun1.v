(** Proofs about the R-function systems. *)
From Coquelicot Require Import Coquelicot.
From Verif Require Import Base BaseFacts M_RFun S_RFun.

Lemma sg_pos x : 0 < x -> sg x = 1%Z.
Proof. intros H. unfold sg. destruct (Rlt_dec 0 x); [reflexivity|lra]. Qed.
Lemma sg_neg x : x < 0 -> sg x = (-1)%Z.
Proof. intros H. unfold sg. destruct (Rlt_dec 0 x); [lra|]. destruct (Rlt_dec x 0); [reflexivity|lra]. Qed.
Lemma sg_zero x : x = 0 -> sg x = 0%Z.
Proof. intros ->. unfold sg. destruct (Rlt_dec 0 0); [lra|reflexivity]. Qed.
Lemma sg_cases x : (0 < x /\ sg x = 1%Z) \/ (x = 0 /\ sg x = 0%Z) \/ (x < 0 /\ sg x = (-1)%Z).
Proof.
  destruct (Rtotal_order 0 x) as [H|[H|H]].
  - left; split; [auto|apply sg_pos; auto].
  - right; left; split; [auto|apply sg_zero; auto].
  - right; right; split; [auto|apply sg_neg; auto].
Qed.
Lemma sg_pos_iff x : sg x = 1%Z <-> 0 < x.
Proof. destruct (sg_cases x) as [[H E]|[[H E]|[H E]]]; rewrite E; split; intros; auto; try lra; try discriminate. Qed.
Lemma sg_neg_iff x : sg x = (-1)%Z <-> x < 0.
Proof. destruct (sg_cases x) as [[H E]|[[H E]|[H E]]]; rewrite E; split; intros; auto; try lra; try discriminate. Qed.
Lemma sg_zero_iff x : sg x = 0%Z <-> x = 0.
Proof. destruct (sg_cases x) as [[H E]|[[H E]|[H E]]]; rewrite E; split; intros; auto; try lra; try discriminate. Qed.
Lemma sg_opp x : sg (- x) = (- sg x)%Z.
Proof.
  destruct (sg_cases x) as [[H E]|[[H E]|[H E]]]; rewrite E.
  - rewrite sg_neg by lra; reflexivity.
  - rewrite sg_zero by lra; reflexivity.
  - rewrite sg_pos by lra; reflexivity.
Qed.
Lemma sg_mult_pos c x : 0 < c -> sg (c * x) = sg x.
Proof.
  intros Hc. destruct (sg_cases x) as [[H E]|[[H E]|[H E]]]; rewrite E.
  - apply sg_pos; nra.
  - apply sg_zero; nra.
  - apply sg_neg; nra.
Qed.

(** The sign computation shared by all systems. *)
Lemma sign_core a b s : 0 <= s ->
  (0 < a * b -> s < Rabs (a + b)) -> (a * b = 0 -> s = Rabs (a + b)) ->
  (a * b < 0 -> Rabs (a + b) < s) ->
  sg (a + b - s) = Z.min (sg a) (sg b) /\ sg (a + b + s) = Z.max (sg a) (sg b).
Proof.
  intros Hs Hp Hz Hn.
  destruct (sg_cases a) as [[Ha Ea]|[[Ha Ea]|[Ha Ea]]], (sg_cases b) as [[Hb Eb]|[[Hb Eb]|[Hb Eb]]];
    rewrite Ea, Eb; simpl.
  - assert (H : 0 < a * b) by nra. specialize (Hp H). rewrite Rabs_right in Hp by lra.
    split; [apply sg_pos|apply sg_pos]; lra.
  - assert (H : a * b = 0) by nra. specialize (Hz H). rewrite Rabs_right in Hz by lra.
    split; [apply sg_zero|apply sg_pos]; lra.
  - assert (H : a * b < 0) by nra. specialize (Hn H). apply Rabs_def2 in Hn.
    split; [apply sg_neg|apply sg_pos]; lra.
  - assert (H : a * b = 0) by nra. specialize (Hz H). rewrite Rabs_right in Hz by lra.
    split; [apply sg_zero|apply sg_pos]; lra.
  - assert (H : a * b = 0) by nra. specialize (Hz H). rewrite Rabs_right in Hz by lra.
    split; apply sg_zero; lra.
  - assert (H : a * b = 0) by nra. specialize (Hz H). rewrite Rabs_left in Hz by lra.
    split; [apply sg_neg|apply sg_zero]; lra.
  - assert (H : a * b < 0) by nra. specialize (Hn H). apply Rabs_def2 in Hn.
    split; [apply sg_neg|apply sg_pos]; lra.
  - assert (H : a * b = 0) by nra. specialize (Hz H). rewrite Rabs_left in Hz by lra.
    split; [apply sg_neg|apply sg_zero]; lra.
  - assert (H : 0 < a * b) by nra. specialize (Hp H). rewrite Rabs_left in Hp by lra.
    split; [apply sg_neg|apply sg_neg]; lra.
Qed.

(** *** RAlpha *)
Definition Dalpha (alpha a b : R) := a ^ 2 + b ^ 2 - 2 * alpha * a * b.
Lemma Dalpha_nonneg alpha a b : -1 < alpha <= 1 -> 0 <= Dalpha alpha a b.
Proof.
  intros H. unfold Dalpha.
  replace (a ^ 2 + b ^ 2 - 2 * alpha * a * b) with
    ((1 + alpha) / 2 * (a - b) ^ 2 + (1 - alpha) / 2 * (a + b) ^ 2) by field.
  pose proof (pow2_ge_0 (a - b)). pose proof (pow2_ge_0 (a + b)). nra.
Qed.

Lemma lt_of_sq x y : 0 <= y -> x * x < y * y -> x < y.
Proof. intros; nra. Qed.

Lemma alpha_root_core alpha a b : -1 < alpha <= 1 ->
  sg (a + b - sqrt (Dalpha alpha a b)) = Z.min (sg a) (sg b) /\
  sg (a + b + sqrt (Dalpha alpha a b)) = Z.max (sg a) (sg b).
Proof.
  intros H. pose proof (Dalpha_nonneg alpha a b H) as HD.
  pose proof (sqrt_pos (Dalpha alpha a b)) as Hs.
  pose proof (sqrt_sqrt _ HD) as Hq.
  assert (E : Dalpha alpha a b = (a + b) * (a + b) - 2 * (1 + alpha) * (a * b)) by (unfold Dalpha; ring).
  set (s := sqrt (Dalpha alpha a b)) in *. rewrite E in Hq.
  assert (Eabs : Rabs (a + b) * Rabs (a + b) = (a + b) * (a + b))
    by (rewrite <- Rabs_mult; apply Rabs_right, Rle_ge, Rle_0_sqr).
  pose proof (Rabs_pos (a + b)) as Hab.
  apply sign_core; auto.
  - intros P. apply lt_of_sq; auto. rewrite Eabs, Hq. nra.
  - intros Z0. rewrite Z0 in Hq. apply Rsqr_inj; auto. unfold Rsqr. rewrite Eabs, Hq. ring.
  - intros N. apply lt_of_sq; auto. rewrite Eabs, Hq. nra.
Qed.

Definition ralpha_conj_v alpha a b := 1 / (1 + alpha) * (a + b - sqrt (Dalpha alpha a b)).
Definition ralpha_disj_v alpha a b := 1 / (1 + alpha) * (a + b + sqrt (Dalpha alpha a b)).

Lemma ralpha_conj_ok alpha a b : -1 < alpha <= 1 -> ralpha_conj alpha a b = Ok (ralpha_conj_v alpha a b).
Proof.
  intros H. unfold ralpha_conj. rewrite fdiv_ok by lra. cbn [bind].
  rewrite fsqrt_ok by (apply Dalpha_nonneg; auto). reflexivity.
Qed.
Lemma ralpha_disj_ok alpha a b : -1 < alpha <= 1 -> ralpha_disj alpha a b = Ok (ralpha_disj_v alpha a b).
Proof.
  intros H. unfold ralpha_disj. rewrite fdiv_ok by lra. cbn [bind].
  rewrite fsqrt_ok by (apply Dalpha_nonneg; auto). reflexivity.
Qed.

Lemma RAlpha_ok alpha s : RAlpha alpha = Ok s ->
  -1 < alpha <= 1 /\ s = mkRsys (ralpha_conj alpha) (ralpha_disj alpha).
Proof.
  unfold RAlpha. destruct (Rltb (-1) alpha) eqn:E1, (Rleb alpha 1) eqn:E2; simpl; try discriminate.
  intros H. injection H as <-. apply Rltb_true in E1. apply Rleb_true in E2. auto.
Qed.
Lemma RAlpha_accepts alpha : -1 < alpha <= 1 <-> exists s, RAlpha alpha = Ok s.
Proof.
  split; [|intros [s H]; apply RAlpha_ok in H; tauto].
  intros [H1 H2]. unfold RAlpha. rewrite (proj2 (Rltb_true _ _) H1), (proj2 (Rleb_true _ _) H2).
  simpl. eexists; reflexivity.
Qed.
Lemma RAlpha_rejects alpha : ~ (-1 < alpha <= 1) <-> RAlpha alpha = Err AssertionError.
Proof.
  unfold RAlpha. destruct (Rltb (-1) alpha) eqn:E1, (Rleb alpha 1) eqn:E2; simpl;
    rewrite ?Rltb_true, ?Rltb_false, ?Rleb_true, ?Rleb_false in *; split; intros;
    auto; try discriminate; try lra.
Qed.

Lemma RAlpha_sign_correct alpha s : RAlpha alpha = Ok s -> sign_correct s.
Proof.
  intros H. apply RAlpha_ok in H as [Ha ->]. intros a b.
  destruct (alpha_root_core alpha a b Ha) as [Hc Hd].
  assert (0 < 1 / (1 + alpha)) by (apply Rdiv_lt_0_compat; lra).
  split; eexists; cbn [conj_ disj_].
  - split; [apply ralpha_conj_ok; auto|]. unfold ralpha_conj_v. rewrite sg_mult_pos; auto.
  - split; [apply ralpha_disj_ok; auto|]. unfold ralpha_disj_v. rewrite sg_mult_pos; auto.
Qed.

(** *** RAlphaM *)
Lemma fpow_pos x y : 0 < x -> fpow x y = Ok (Rpower x y) /\ 0 < Rpower x y.
Proof.
  intros H. unfold fpow. destruct (Rlt_dec x 0); [lra|]. destruct (Req_EM_T x 0); [lra|].
  split; [reflexivity|]. apply exp_pos.
Qed.

Lemma RAlphaM_ok m alpha s : RAlphaM m alpha = Ok s ->
  -1 < alpha <= 1 /\ s = mkRsys (ralpham_conj m alpha) (ralpham_disj m alpha).
Proof.
  unfold RAlphaM. destruct (Rltb (-1) alpha) eqn:E1, (Rleb alpha 1) eqn:E2; simpl; try discriminate.
  intros H. injection H as <-. apply Rltb_true in E1. apply Rleb_true in E2. auto.
Qed.

Lemma RAlphaM_sign_correct m alpha s a b : RAlphaM m alpha = Ok s ->
  0 <= m \/ a <> 0 \/ b <> 0 -> sign_correct_at s a b.
Proof.
  intros H Hm. apply RAlphaM_ok in H as [Ha ->].
  destruct (alpha_root_core alpha a b Ha) as [Hc Hd].
  pose proof (Dalpha_nonneg alpha a b Ha) as HD.
  assert (0 < 1 / (1 + alpha)) by (apply Rdiv_lt_0_compat; lra).
  unfold sign_correct_at, ralpham_conj, ralpham_disj. cbn [conj_ disj_]. cbv zeta.
  rewrite fdiv_ok by lra. cbn [bind]. rewrite fsqrt_ok by exact HD. cbn [bind].
  fold (Dalpha alpha a b).
  destruct (Rle_lt_or_eq_dec 0 (a ^ 2 + b ^ 2)) as [Hr|Hr].
  { pose proof (pow2_ge_0 a). pose proof (pow2_ge_0 b). lra. }
  - destruct (fpow_pos _ (m / 2) Hr) as [E P]. rewrite E. cbn [bind].
    set (q := Rpower _ _) in *.
    split; eexists; (split; [reflexivity|]).
    + replace (1 / (1 + alpha) * (a + b - sqrt (Dalpha alpha a b)) * q) with
        ((1 / (1 + alpha) * q) * (a + b - sqrt (Dalpha alpha a b))) by ring.
      rewrite sg_mult_pos; auto. apply Rmult_lt_0_compat; auto.
    + replace (1 / (1 + alpha) * (a + b + sqrt (Dalpha alpha a b)) * q) with
        ((1 / (1 + alpha) * q) * (a + b + sqrt (Dalpha alpha a b))) by ring.
      rewrite sg_mult_pos; auto. apply Rmult_lt_0_compat; auto.
  - assert (a = 0) by nra. assert (b = 0) by nra. subst a b.
    assert (0 <= m) by (destruct Hm as [|[Hx|Hx]]; [auto|lra|lra]).
    rewrite <- Hr.
    assert (exists q, fpow 0 (m / 2) = Ok q) as [q ->].
    { unfold fpow. destruct (Rlt_dec 0 0); [lra|]. destruct (Req_EM_T 0 0); [|lra].
      destruct (Req_EM_T (m / 2) 0); [eexists; reflexivity|].
      destruct (Rlt_dec (m / 2) 0); [lra|eexists; reflexivity]. }
    cbn [bind].
    assert (D0 : Dalpha alpha 0 0 = 0) by (unfold Dalpha; ring).
    rewrite D0, sqrt_0, (sg_zero 0) by reflexivity.
    split; eexists; (split; [reflexivity|]); simpl; apply sg_zero; ring.
Qed.

Lemma RAlphaM_origin m alpha s : RAlphaM m alpha = Ok s -> m < 0 -> conj_ s 0 0 = Err NonFinite.
Proof.
  intros H Hm. apply RAlphaM_ok in H as [Ha ->]. cbn [conj_]. unfold ralpham_conj. cbv zeta.
  rewrite fdiv_ok by lra. cbn [bind].
  rewrite fsqrt_ok by (apply Req_le_sym; ring). cbn [bind].
  replace (0 ^ 2 + 0 ^ 2) with 0 by ring. unfold fpow.
  destruct (Rlt_dec 0 0); [lra|]. destruct (Req_EM_T 0 0); [|lra].
  destruct (Req_EM_T (m / 2) 0); [lra|]. destruct (Rlt_dec (m / 2) 0); [reflexivity|lra].
Qed.

(** *** RP *)
Lemma even_pow_abs n x : Rabs x ^ (2 * n) = x ^ (2 * n).
Proof. rewrite !pow_mult. f_equal. rewrite RPow_abs. apply Rabs_right. apply Rle_ge, pow2_ge_0. Qed.

Lemma pow_lt_inv x y n : 0 <= x -> 0 <= y -> x ^ n < y ^ n -> x < y.
Proof.
  intros Hx Hy H. destruct (Rlt_le_dec x y) as [L|L]; [auto|].
  exfalso. pose proof (pow_incr y x n (conj Hy L)). lra.
Qed.
Lemma pow_inj x y n : (1 <= n)%nat -> 0 <= x -> 0 <= y -> x ^ n = y ^ n -> x = y.
Proof.
  intros Hn Hx Hy H. destruct (Rtotal_order x y) as [L|[L|L]]; auto; exfalso.
  - assert (x ^ n < y ^ n); [|lra]. destruct n; [lia|]. clear H Hn. induction n; [simpl; lra|].
    change (x * x ^ S n < y * y ^ S n). apply Rle_lt_trans with (x * y ^ S n).
    + apply Rmult_le_compat_l; lra.
    + apply Rmult_lt_compat_r; [apply pow_lt|]; lra.
  - assert (y ^ n < x ^ n); [|lra]. destruct n; [lia|]. clear H Hn. induction n; [simpl; lra|].
    change (y * y ^ S n < x * x ^ S n). apply Rle_lt_trans with (y * x ^ S n).
    + apply Rmult_le_compat_l; lra.
    + apply Rmult_lt_compat_r; [apply pow_lt|]; lra.
Qed.
Lemma pow_lt_compat x y n : (1 <= n)%nat -> 0 <= x < y -> x ^ n < y ^ n.
Proof.
  intros Hn [Hx Hxy]. destruct (Rle_lt_or_eq_dec (x ^ n) (y ^ n)) as [L|L]; auto.
  - apply pow_incr; lra.
  - exfalso. apply pow_inj in L; auto; lra.
Qed.

(** (a+b)^n > a^n + b^n for n >= 2 *)
Lemma pow_super a b n : (2 <= n)%nat -> 0 < a -> 0 < b -> a ^ n + b ^ n < (a + b) ^ n.
Proof.
  intros Hn Ha Hb. induction Hn as [|n Hn IH].
  - simpl. nra.
  - simpl. assert (0 < a ^ n) by (apply pow_lt; auto). assert (0 < b ^ n) by (apply pow_lt; auto). nra.
Qed.

(** The p-norm root: the unique s >= 0 with s^p = a^p + b^p. *)
Lemma rp_root_spec n a b : (1 <= n)%nat ->
  exists s, rp_root (2 * Z.of_nat n) a b = Ok s /\ 0 <= s /\ s ^ (2 * n) = a ^ (2 * n) + b ^ (2 * n).
Proof.
  intros Hn. unfold rp_root.
  assert (HZ : IZR (2 * Z.of_nat n) = INR (2 * n)).
  { rewrite INR_IZR_INZ. f_equal. lia. }
  assert (HP : 0 < INR (2 * n)) by (apply lt_0_INR; lia).
  rewrite pydiv_ok by (rewrite HZ; lra). cbn [bind].
  destruct (Z_lt_dec (2 * Z.of_nat n) 0); [lia|].
  assert (E : forall x, powerRZ x (2 * Z.of_nat n) = x ^ (2 * n)).
  { intros x. replace (2 * Z.of_nat n)%Z with (Z.of_nat (2 * n)) by lia. symmetry. apply pow_powerRZ. }
  rewrite !E, HZ.
  assert (Hs : 0 <= a ^ (2 * n) + b ^ (2 * n)).
  { rewrite <- (even_pow_abs n a), <- (even_pow_abs n b). apply Rplus_le_le_0_compat; apply pow_le, Rabs_pos. }
  unfold fpow. destruct (Rlt_dec (a ^ (2 * n) + b ^ (2 * n)) 0); [lra|].
  destruct (Req_EM_T (a ^ (2 * n) + b ^ (2 * n)) 0) as [Z0|NZ].
  - destruct (Req_EM_T (1 / INR (2 * n)) 0) as [C|C].
    { assert (0 < 1 / INR (2 * n)) by (apply Rdiv_lt_0_compat; lra). lra. }
    destruct (Rlt_dec (1 / INR (2 * n)) 0) as [C'|C'].
    { assert (0 < 1 / INR (2 * n)) by (apply Rdiv_lt_0_compat; lra). lra. }
    exists 0. split; [reflexivity|]. split; [lra|]. rewrite Z0. apply pow_i. lia.
  - eexists; split; [reflexivity|]. split; [left; apply exp_pos|].
    rewrite <- Rpower_pow by apply exp_pos. rewrite Rpower_mult.
    replace (1 / INR (2 * n) * INR (2 * n)) with 1 by (field; lra). apply Rpower_1. lra.
Qed.

Lemma mul_pos_cases a b : 0 < a * b -> (0 < a /\ 0 < b) \/ (a < 0 /\ b < 0).
Proof.
  intros H. destruct (Rtotal_order a 0) as [A|[A|A]]; [right|subst; lra|left]; split; auto.
  - destruct (Rlt_le_dec b 0); auto. assert (a * b <= 0) by (apply Rmult_le_0_r; lra). lra.
  - destruct (Rlt_le_dec 0 b); auto. assert (a * b <= 0) by (apply Rmult_le_0_l; lra). lra.
Qed.
Lemma mul_neg_cases a b : a * b < 0 -> (0 < a /\ b < 0) \/ (a < 0 /\ 0 < b).
Proof.
  intros H. destruct (mul_pos_cases a (- b)) as [[A B]|[A B]]; [|left|right]; lra.
Qed.

Lemma rp_core n a b s : (1 <= n)%nat -> 0 <= s -> s ^ (2 * n) = a ^ (2 * n) + b ^ (2 * n) ->
  sg (a + b - s) = Z.min (sg a) (sg b) /\ sg (a + b + s) = Z.max (sg a) (sg b).
Proof.
  intros Hn Hs E. rewrite <- (even_pow_abs n a), <- (even_pow_abs n b) in E.
  pose proof (Rabs_pos a) as Pa. pose proof (Rabs_pos b) as Pb.
  assert (N1 : (1 <= 2 * n)%nat) by lia.
  apply sign_core; auto.
  - intros P. assert (Hab : Rabs (a + b) = Rabs a + Rabs b).
    { destruct (mul_pos_cases a b P) as [[A B]|[A B]].
      - rewrite !Rabs_right by lra. lra.
      - rewrite !Rabs_left by lra. lra. }
    apply pow_lt_inv with (2 * n)%nat; [auto|apply Rabs_pos|]. rewrite E, Hab.
    apply pow_super; [lia| |]; apply Rabs_pos_lt; intros ->; lra.
  - intros Z0. apply pow_inj with (2 * n)%nat; auto; [apply Rabs_pos|]. rewrite E.
    apply Rmult_integral in Z0 as [->| ->].
    + rewrite Rabs_R0, Rplus_0_l, pow_i by lia. ring.
    + rewrite Rabs_R0, Rplus_0_r, (pow_i (2 * n)) by lia. ring.
  - intros N. assert (Hab : Rabs (a + b) < Rmax (Rabs a) (Rabs b)).
    { destruct (mul_neg_cases a b N) as [[A B]|[A B]]; apply Rabs_def1.
      - apply Rlt_le_trans with (Rabs a); [|apply Rmax_l]. rewrite Rabs_right by lra. lra.
      - apply Rle_lt_trans with (- Rabs b); [apply Ropp_le_contravar, Rmax_r|]. rewrite Rabs_left by lra. lra.
      - apply Rlt_le_trans with (Rabs b); [|apply Rmax_r]. rewrite Rabs_right by lra. lra.
      - apply Rle_lt_trans with (- Rabs a); [apply Ropp_le_contravar, Rmax_l|]. rewrite Rabs_left by lra. lra. }
    eapply Rlt_le_trans; [exact Hab|].
    assert (Qa : 0 <= Rabs a ^ (2 * n)) by (apply pow_le; auto).
    assert (Qb : 0 <= Rabs b ^ (2 * n)) by (apply pow_le; auto).
    destruct (Rle_lt_dec (Rmax (Rabs a) (Rabs b)) s) as [L|L]; auto. exfalso.
    unfold Rmax in L. destruct (Rle_dec (Rabs a) (Rabs b));
      assert (X := pow_lt_compat s _ (2 * n) N1 (conj Hs L)); lra.
Qed.

Lemma RP_ok p s : RP p = Ok s -> Z.even p = true /\ s = mkRsys (rp_conj p) (rp_disj p).
Proof.
  unfold RP. destruct (Z.eqb_spec (p mod 2) 0) as [E|E]; simpl; [|discriminate].
  intros H; injection H as <-. split; [|reflexivity]. rewrite Zeven_mod. unfold Zeq_bool. rewrite E. reflexivity.
Qed.
Lemma RP_accepts p : Z.even p = true -> RP p = Ok (mkRsys (rp_conj p) (rp_disj p)).
Proof.
  intros E. rewrite Zeven_mod in E. apply Zeq_bool_eq in E. unfold RP. rewrite E. reflexivity.
Qed.
Lemma RP_rejects p : Z.even p = false -> RP p = Err AssertionError.
Proof.
  intros E. rewrite Zeven_mod in E. apply Zeq_bool_neq in E. unfold RP.
  destruct (Z.eqb_spec (p mod 2) 0); [contradiction|reflexivity].
Qed.
Lemma even_nat p : (2 <= p)%Z -> Z.even p = true -> exists n, (1 <= n)%nat /\ p = (2 * Z.of_nat n)%Z.
Proof.
  intros H E. apply Z.even_spec in E as [k Hk]. exists (Z.to_nat k). split; lia.
Qed.

Lemma RP_sign_correct p s : RP p = Ok s -> (2 <= p)%Z -> sign_correct s.
Proof.
  intros H Hp. apply RP_ok in H as [Ev ->]. destruct (even_nat p Hp Ev) as (n & Hn & ->).
  intros a b. destruct (rp_root_spec n a b Hn) as (s & Es & Hs & Hpow).
  destruct (rp_core n a b s Hn Hs Hpow) as [Hc Hd].
  unfold sign_correct_at, rp_conj, rp_disj. cbn [conj_ disj_]. rewrite Es. cbn [bind].
  split; eexists; split; eauto.
Qed.

Lemma RP_zero_raises s : RP 0 = Ok s -> forall a b, conj_ s a b = Err ZeroDivisionError.
Proof.
  intros H a b. apply RP_ok in H as [_ ->]. cbn [conj_]. unfold rp_conj, rp_root, pydiv.
  destruct (Req_EM_T (IZR 0) 0); [reflexivity|]. exfalso; auto.
Qed.

(** conj for p = -2 is positive although the first operand is negative *)
Lemma RP_m2_value s : RP (-2) = Ok s ->
  exists c, conj_ s (-1) 2 = Ok c /\ 0 < c.
Proof.
  intros H. apply RP_ok in H as [_ ->]. cbn [conj_]. unfold rp_conj, rp_root.
  rewrite pydiv_ok by lra. cbn [bind]. destruct (Z_lt_dec (-2) 0); [|lia].
  destruct (Req_EM_T (-1) 0); [lra|]. destruct (Req_EM_T 2 0); [lra|].
  assert (E : powerRZ (-1) (-2) + powerRZ 2 (-2) = 5 / 4) by (simpl; field). rewrite E.
  destruct (fpow_pos (5 / 4) (1 / -2)) as [E1 P1]; [lra|]. rewrite E1. cbn [bind].
  eexists; split; [reflexivity|].
  assert (Rpower (5 / 4) (1 / -2) < 1).
  { apply Rlt_le_trans with (Rpower (5 / 4) 0); [apply Rpower_lt; lra|rewrite Rpower_O; lra]. }
  lra.
Qed.

(** *** RhoBlending *)
Definition rho_term rho a b :=
  a ^ 2 + b ^ 2 + 1 / (8 * rho) * (a ^ 2 + b ^ 2 - rho ^ 2) * (a ^ 2 + b ^ 2 - rho ^ 2 - Rabs (a ^ 2 + b ^ 2 - rho ^ 2)).
Lemma rho_term_ge rho a b : 0 < rho -> a ^ 2 + b ^ 2 <= rho_term rho a b.
Proof.
  intros H. unfold rho_term. set (s := a ^ 2 + b ^ 2 - rho ^ 2).
  assert (0 < 1 / (8 * rho)) by (apply Rdiv_lt_0_compat; lra).
  destruct (Rcase_abs s) as [N|N].
  - rewrite Rabs_left by auto. nra.
  - rewrite Rabs_right by auto. nra.
Qed.
Lemma rho_root_ok rho a b : 0 < rho -> rho_root rho a b = Ok (sqrt (rho_term rho a b)).
Proof.
  intros H. unfold rho_root. cbv zeta. rewrite pydiv_ok by lra. cbn [bind].
  apply fsqrt_ok. fold (rho_term rho a b).
  pose proof (rho_term_ge rho a b H). pose proof (pow2_ge_0 a). pose proof (pow2_ge_0 b). lra.
Qed.
Lemma rho_term_eq rho a b : rho ^ 2 <= a ^ 2 + b ^ 2 -> rho_term rho a b = a ^ 2 + b ^ 2.
Proof.
  intros H. unfold rho_term. rewrite Rabs_right by lra. ring.
Qed.
Lemma D0 a b : Dalpha 0 a b = a ^ 2 + b ^ 2.
Proof. unfold Dalpha. ring. Qed.

Lemma rho_props rho a b : 0 < rho ->
  exists c d c0 d0, rho_conj rho a b = Ok c /\ rho_disj rho a b = Ok d /\
    ralpha_conj 0 a b = Ok c0 /\ ralpha_disj 0 a b = Ok d0 /\
    c <= c0 /\ d0 <= d /\ (rho ^ 2 <= a ^ 2 + b ^ 2 -> c = c0 /\ d = d0) /\
    (0 < c -> 0 < a /\ 0 < b) /\ (d < 0 -> a < 0 /\ b < 0).
Proof.
  intros H. assert (H01 : -1 < 0 <= 1) by lra.
  destruct (alpha_root_core 0 a b H01) as [Sc Sd]. rewrite D0 in *.
  pose proof (sqrt_le_1_alt _ _ (rho_term_ge rho a b H)) as Hle.
  unfold rho_conj, rho_disj. rewrite rho_root_ok by auto. cbn [bind].
  rewrite ralpha_conj_ok, ralpha_disj_ok by auto. unfold ralpha_conj_v, ralpha_disj_v. rewrite D0.
  do 4 eexists. do 4 (split; [reflexivity|]).
  replace (1 / (1 + 0)) with 1 by field. rewrite !Rmult_1_l.
  split; [lra|]. split; [lra|]. split.
  { intros G. rewrite rho_term_eq by auto. split; reflexivity. }
  split.
  - intros Hc. assert (P : 0 < a + b - sqrt (a ^ 2 + b ^ 2)) by lra.
    apply sg_pos in P. rewrite Sc in P.
    destruct (sg_cases a) as [[Ha Ea]|[[Ha Ea]|[Ha Ea]]], (sg_cases b) as [[Hb Eb]|[[Hb Eb]|[Hb Eb]]];
      rewrite Ea, Eb in P; simpl in P; try discriminate; auto.
  - intros Hd. assert (P : a + b + sqrt (a ^ 2 + b ^ 2) < 0) by lra.
    apply sg_neg in P. rewrite Sd in P.
    destruct (sg_cases a) as [[Ha Ea]|[[Ha Ea]|[Ha Ea]]], (sg_cases b) as [[Hb Eb]|[[Hb Eb]|[Hb Eb]]];
      rewrite Ea, Eb in P; simpl in P; try discriminate; auto.
Qed.

(** *** Identities *)
Lemma r1_min_max s : r1 = Ok s -> forall a b,
  conj_ s a b = Ok (Rmin a b) /\ disj_ s a b = Ok (Rmax a b).
Proof.
  intros H a b. apply RAlpha_ok in H as [Ha ->]. cbn [conj_ disj_].
  rewrite ralpha_conj_ok, ralpha_disj_ok by auto. unfold ralpha_conj_v, ralpha_disj_v.
  replace (Dalpha 1 a b) with (Rsqr (a - b)) by (unfold Dalpha, Rsqr; ring).
  rewrite sqrt_Rsqr_abs. unfold Rmin, Rmax.
  destruct (Rle_dec a b).
  - rewrite Rabs_left1 by lra. split; f_equal; field.
  - rewrite Rabs_right by lra. split; f_equal; field.
Qed.

Lemma rp2_r0 s s' : rp2 = Ok s -> r0 = Ok s' -> forall a b,
  conj_ s a b = conj_ s' a b /\ disj_ s a b = disj_ s' a b.
Proof.
  intros H H' a b. apply RP_ok in H as [_ ->]. apply RAlpha_ok in H' as [Ha ->].
  cbn [conj_ disj_]. rewrite ralpha_conj_ok, ralpha_disj_ok by auto.
  unfold ralpha_conj_v, ralpha_disj_v, rp_conj, rp_disj. rewrite D0.
  assert (E : rp_root 2 a b = Ok (sqrt (a ^ 2 + b ^ 2))).
  { destruct (rp_root_spec 1 a b) as (s & Es & Hs & Hpow); [lia|].
    change (2 * Z.of_nat 1)%Z with 2%Z in Es. rewrite Es. f_equal.
    change (2 * 1)%nat with 2%nat in Hpow. rewrite <- Hpow. symmetry.
    replace (s ^ 2) with (Rsqr s) by (unfold Rsqr; ring). apply sqrt_Rsqr; auto. }
  rewrite E. cbn [bind]. split; f_equal; field.
Qed.

Lemma Dalpha_neg alpha a b : Dalpha alpha (- a) (- b) = Dalpha alpha a b.
Proof. unfold Dalpha; ring. Qed.
Lemma Dalpha_comm alpha a b : Dalpha alpha b a = Dalpha alpha a b.
Proof. unfold Dalpha; ring. Qed.

Lemma RAlpha_demorgan alpha s : RAlpha alpha = Ok s -> demorgan s /\ commutative s.
Proof.
  intros H. apply RAlpha_ok in H as [Ha ->]. split; intros a b; cbn [conj_ disj_];
    rewrite !ralpha_conj_ok, !ralpha_disj_ok by auto; unfold ralpha_conj_v, ralpha_disj_v, neg_res;
    cbn [bind]; rewrite ?Dalpha_neg, ?(Dalpha_comm alpha b a), ?(Dalpha_comm alpha a b);
    split; f_equal; ring.
Qed.

Lemma RAlpha_sum alpha s : RAlpha alpha = Ok s -> forall a b, exists c d,
  conj_ s a b = Ok c /\ disj_ s a b = Ok d /\ c + d = 2 * (a + b) / (1 + alpha).
Proof.
  intros H a b. apply RAlpha_ok in H as [Ha ->]. cbn [conj_ disj_].
  rewrite ralpha_conj_ok, ralpha_disj_ok by auto. unfold ralpha_conj_v, ralpha_disj_v.
  do 2 eexists. repeat split. field. lra.
Qed.

Lemma RAlphaM_demorgan m alpha s : RAlphaM m alpha = Ok s -> demorgan s /\ commutative s.
Proof.
  intros H. apply RAlphaM_ok in H as [Ha ->].
  split; intros a b; cbn [conj_ disj_]; unfold ralpham_conj, ralpham_disj, neg_res; cbv zeta;
    rewrite !fdiv_ok by lra; cbn [bind].
  - replace ((- a) ^ 2 + (- b) ^ 2) with (a ^ 2 + b ^ 2) by ring.
    replace (a ^ 2 + b ^ 2 - 2 * alpha * - a * - b) with (a ^ 2 + b ^ 2 - 2 * alpha * a * b) by ring.
    rewrite fsqrt_ok by (apply Dalpha_nonneg; auto). cbn [bind].
    destruct (fpow _ _); cbn [bind]; split; try reflexivity; f_equal; ring.
  - replace (b ^ 2 + a ^ 2) with (a ^ 2 + b ^ 2) by ring.
    replace (a ^ 2 + b ^ 2 - 2 * alpha * b * a) with (a ^ 2 + b ^ 2 - 2 * alpha * a * b) by ring.
    rewrite fsqrt_ok by (apply Dalpha_nonneg; auto). cbn [bind].
    destruct (fpow _ _); cbn [bind]; split; try reflexivity; f_equal; ring.
Qed.

Lemma powerRZ_even_opp x p : Z.even p = true -> powerRZ (- x) p = powerRZ x p.
Proof.
  intros E. apply Z.even_spec in E as [k ->].
  assert (P : forall y n, powerRZ y (Z.of_nat (2 * n)) = (y * y) ^ n).
  { intros y n. rewrite <- pow_powerRZ, pow_mult. f_equal. simpl. ring. }
  destruct (Z.le_gt_cases 0 k) as [H|H].
  - replace (2 * k)%Z with (Z.of_nat (2 * Z.to_nat k)) by lia. rewrite !P. f_equal. ring.
  - replace (2 * k)%Z with (- Z.of_nat (2 * Z.to_nat (- k)))%Z by lia. rewrite !powerRZ_neg'.
    rewrite !P. do 2 f_equal. ring.
Qed.

Lemma rp_root_neg p a b : Z.even p = true -> rp_root p (- a) (- b) = rp_root p a b.
Proof.
  intros E. unfold rp_root. rewrite !powerRZ_even_opp by auto.
  destruct (Req_EM_T (- a) 0), (Req_EM_T a 0); try lra; destruct (Req_EM_T (- b) 0), (Req_EM_T b 0);
    try lra; reflexivity.
Qed.
Lemma rp_root_comm p a b : rp_root p b a = rp_root p a b.
Proof.
  unfold rp_root. rewrite (Rplus_comm (powerRZ b p)).
  destruct (Req_EM_T a 0), (Req_EM_T b 0); reflexivity.
Qed.
Lemma RP_demorgan p s : RP p = Ok s -> demorgan s /\ commutative s.
Proof.
  intros H. apply RP_ok in H as [Ev ->].
  split; intros a b; cbn [conj_ disj_]; unfold rp_conj, rp_disj, neg_res.
  - rewrite rp_root_neg by auto. destruct (rp_root p a b); cbn [bind]; split; try reflexivity; f_equal; ring.
  - rewrite (rp_root_comm p a b). destruct (rp_root p a b); cbn [bind]; split; try reflexivity; f_equal; ring.
Qed.
Lemma RhoBlending_demorgan rho s : RhoBlending rho = Ok s -> demorgan s /\ commutative s.
Proof.
  intros H. injection H as <-.
  split; intros a b; cbn [conj_ disj_]; unfold rho_conj, rho_disj, rho_root, neg_res; cbv zeta.
  - replace ((- a) ^ 2 + (- b) ^ 2) with (a ^ 2 + b ^ 2) by ring.
    destruct (pydiv 1 (8 * rho)); cbn [bind]; [|split; reflexivity].
    destruct (fsqrt _); cbn [bind]; split; try reflexivity; f_equal; ring.
  - replace (b ^ 2 + a ^ 2) with (a ^ 2 + b ^ 2) by ring.
    destruct (pydiv 1 (8 * rho)); cbn [bind]; [|split; reflexivity].
    destruct (fsqrt _); cbn [bind]; split; try reflexivity; f_equal; ring.
Qed.

(** *** Normalization *)
Lemma ralpha_deriv alpha b : -1 < alpha <= 1 -> b <> 0 ->
  (0 < b -> is_derive (fun t => ralpha_conj_v alpha t b) 0 1 /\
            is_derive (fun t => ralpha_conj_v alpha 0 t) b 0) /\
  (b < 0 -> is_derive (fun t => ralpha_disj_v alpha t b) 0 1 /\
            is_derive (fun t => ralpha_disj_v alpha 0 t) b 0).
Proof.
  intros Ha Hb.
  assert (Eb : sqrt (0 * (0 * 1) + b * (b * 1) + - (2 * alpha * 0 * b)) = Rabs b).
  { replace (0 * (0 * 1) + b * (b * 1) + - (2 * alpha * 0 * b)) with (Rsqr b) by (unfold Rsqr; ring).
    apply sqrt_Rsqr_abs. }
  assert (P : 0 < 0 * (0 * 1) + b * (b * 1) + - (2 * alpha * 0 * b)) by nra.
  split; intros Hs.
  - rewrite Rabs_right in Eb by lra. unfold ralpha_conj_v, Dalpha. split.
    + auto_derive; [repeat split; try lra; auto|]. rewrite Eb. field. lra.
    + auto_derive; [repeat split; try lra; auto|]. rewrite Eb. field. lra.
  - rewrite Rabs_left in Eb by lra. unfold ralpha_disj_v, Dalpha. split.
    + auto_derive; [repeat split; try lra; auto|]. rewrite Eb. field. lra.
    + auto_derive; [repeat split; try lra; auto|]. rewrite Eb. field. lra.
Qed.

Lemma ralpha_norm alpha s b : RAlpha alpha = Ok s ->
  exists c d : R -> R -> R, (forall x y, conj_ s x y = Ok (c x y)) /\ (forall x y, disj_ s x y = Ok (d x y)) /\
  (0 < b -> is_derive (fun t => c t b) 0 1 /\ is_derive (fun t => c 0 t) b 0 /\
            is_derive (fun t => c b t) 0 1 /\ is_derive (fun t => c t 0) b 0) /\
  (b < 0 -> is_derive (fun t => d t b) 0 1 /\ is_derive (fun t => d 0 t) b 0 /\
            is_derive (fun t => d b t) 0 1 /\ is_derive (fun t => d t 0) b 0).
Proof.
  intros H. apply RAlpha_ok in H as [Ha ->].
  exists (ralpha_conj_v alpha), (ralpha_disj_v alpha). cbn [conj_ disj_].
  split; [intros; apply ralpha_conj_ok; auto|]. split; [intros; apply ralpha_disj_ok; auto|].
  assert (Cc : forall x y, ralpha_conj_v alpha x y = ralpha_conj_v alpha y x).
  { intros. unfold ralpha_conj_v. rewrite Dalpha_comm. ring. }
  assert (Cd : forall x y, ralpha_disj_v alpha x y = ralpha_disj_v alpha y x).
  { intros. unfold ralpha_disj_v. rewrite Dalpha_comm. ring. }
  split; intros Hb.
  - assert (Hb0 : b <> 0) by lra. destruct (ralpha_deriv alpha b Ha Hb0) as [H _]. destruct (H Hb) as [H1 H2].
    split; [auto|split; [auto|split]].
    + eapply is_derive_ext; [intros t; apply Cc|exact H1].
    + eapply is_derive_ext; [intros t; apply Cc|exact H2].
  - assert (Hb0 : b <> 0) by lra. destruct (ralpha_deriv alpha b Ha Hb0) as [_ H]. destruct (H Hb) as [H1 H2].
    split; [auto|split; [auto|split]].
    + eapply is_derive_ext; [intros t; apply Cd|exact H1].
    + eapply is_derive_ext; [intros t; apply Cd|exact H2].
Qed.

(** RP: quantitative normalization, conj(a,b) = a + O(a^p) *)
Lemma bernoulli_shift b e n : 0 < b -> 0 <= e -> (1 <= n)%nat ->
  b ^ n + INR n * e * b ^ (n - 1) <= (b + e) ^ n.
Proof.
  intros Hb He Hn. induction Hn as [|n Hn IH].
  - simpl. lra.
  - replace (S n - 1)%nat with (S (n - 1)) by lia. rewrite S_INR.
    assert (Ebn : b ^ n = b * b ^ (n - 1)).
    { replace n with (S (n - 1)) at 1 by lia. reflexivity. }
    assert (P : 0 < b ^ (n - 1)) by (apply pow_lt; auto).
    change ((b + e) ^ S n) with ((b + e) * (b + e) ^ n). change (b ^ S n) with (b * b ^ n).
    change (b ^ S (n - 1)) with (b * b ^ (n - 1)).
    apply Rle_trans with ((b + e) * (b ^ n + INR n * e * b ^ (n - 1))).
    + rewrite Ebn. pose proof (pos_INR n). assert (0 <= INR n * e * e * b ^ (n - 1)) by (repeat apply Rmult_le_pos; lra).
      nra.
    + apply Rmult_le_compat_l; lra.
Qed.

Lemma rp_root_bounds n a b s : (1 <= n)%nat -> 0 < b -> 0 <= s ->
  s ^ (2 * n) = a ^ (2 * n) + b ^ (2 * n) ->
  b <= s <= b + a ^ (2 * n) / (INR (2 * n) * b ^ (2 * n - 1)).
Proof.
  intros Hn Hb Hs E.
  assert (Qa : 0 <= a ^ (2 * n)) by (rewrite <- even_pow_abs; apply pow_le, Rabs_pos).
  assert (HP : 0 < INR (2 * n)) by (apply lt_0_INR; lia).
  assert (Pb : 0 < b ^ (2 * n - 1)) by (apply pow_lt; auto).
  assert (N1 : (1 <= 2 * n)%nat) by lia.
  split.
  - destruct (Rle_lt_dec b s) as [L|L]; auto. exfalso.
    pose proof (pow_lt_compat s b (2 * n) N1 (conj Hs L)). lra.
  - set (e := a ^ (2 * n) / (INR (2 * n) * b ^ (2 * n - 1))).
    assert (He : 0 <= e).
    { unfold e. apply Rmult_le_pos; auto. apply Rlt_le, Rinv_0_lt_compat. nra. }
    pose proof (bernoulli_shift b e (2 * n) Hb He N1) as B.
    assert (Ee : INR (2 * n) * e * b ^ (2 * n - 1) = a ^ (2 * n)) by (unfold e; field; split; lra).
    rewrite Ee in B.
    destruct (Rle_lt_dec s (b + e)) as [L|L]; auto. exfalso.
    assert (0 <= b + e < s) by lra. pose proof (pow_lt_compat _ _ (2 * n) N1 H). lra.
Qed.

Lemma RP_normal_order p s : RP p = Ok s -> (2 <= p)%Z -> forall a b, 0 < b ->
  exists c, conj_ s a b = Ok c /\
    a - a ^ Z.to_nat p / (IZR p * b ^ (Z.to_nat p - 1)) <= c <= a.
Proof.
  intros H Hp a b Hb. apply RP_ok in H as [Ev ->]. destruct (even_nat p Hp Ev) as (n & Hn & ->).
  destruct (rp_root_spec n a b Hn) as (s & Es & Hs & Hpow).
  destruct (rp_root_bounds n a b s Hn Hb Hs Hpow) as [L U].
  cbn [conj_]. unfold rp_conj. rewrite Es. cbn [bind]. eexists; split; [reflexivity|].
  replace (Z.to_nat (2 * Z.of_nat n)) with (2 * n)%nat by lia.
  replace (IZR (2 * Z.of_nat n)) with (INR (2 * n)) by (rewrite INR_IZR_INZ; f_equal; lia).
  split; lra.
Qed.
Lemma RP_normal_order_disj p s : RP p = Ok s -> (2 <= p)%Z -> forall a b, b < 0 ->
  exists d, disj_ s a b = Ok d /\
    a <= d <= a + a ^ Z.to_nat p / (IZR p * (- b) ^ (Z.to_nat p - 1)).
Proof.
  intros H Hp a b Hb. destruct (RP_demorgan _ _ H) as [DM _]. destruct (DM a b) as [-> _].
  destruct (RP_normal_order p s H Hp (- a) (- b)) as (c & Ec & B); [lra|].
  rewrite Ec. unfold neg_res. cbn [bind]. eexists; split; [reflexivity|].
  apply RP_ok in H as [Ev ->]. destruct (even_nat p Hp Ev) as (n & Hn & ->).
  replace (Z.to_nat (2 * Z.of_nat n)) with (2 * n)%nat in * by lia.
  rewrite <- (even_pow_abs n (- a)), Rabs_Ropp, even_pow_abs in B. lra.
Qed.

(** derivative 1 and 0 for RP, from the quantitative bound *)
Lemma is_derive_sandwich (f : R -> R) (K : R) : f 0 = 0 -> 0 <= K ->
  (forall t, Rabs t <= 1 -> Rabs (f t - t) <= K * (t * t)) -> is_derive f 0 1.
Proof.
  intros F0 HK H. apply is_derive_Reals. intros eps Heps.
  assert (Hd : 0 < Rmin 1 (eps / (K + 1))).
  { apply Rmin_pos; [lra|apply Rdiv_lt_0_compat; lra]. }
  exists (mkposreal _ Hd). intros h Hh Hlt. simpl in Hlt.
  rewrite Rplus_0_l, F0, Rminus_0_r.
  assert (Hh1 : Rabs h <= 1) by (apply Rlt_le, Rlt_le_trans with (1 := Hlt), Rmin_l).
  assert (Hh2 : Rabs h < eps / (K + 1)) by (apply Rlt_le_trans with (1 := Hlt), Rmin_r).
  specialize (H h Hh1). replace (f h / h - 1) with ((f h - h) / h) by (field; auto).
  unfold Rdiv. rewrite Rabs_mult, Rabs_inv.
  assert (Ph : 0 < Rabs h) by (apply Rabs_pos_lt; auto).
  apply Rle_lt_trans with (K * Rabs h).
  - apply Rmult_le_reg_r with (Rabs h); auto. rewrite Rmult_assoc, Rinv_l, Rmult_1_r by lra.
    replace (K * Rabs h * Rabs h) with (K * (h * h)); auto.
    rewrite Rmult_assoc, <- Rabs_mult, (Rabs_right (h * h)); nra.
  - apply Rle_lt_trans with ((K + 1) * Rabs h); [nra|].
    apply Rmult_lt_compat_l with (r := K + 1) in Hh2; [|lra].
    replace ((K + 1) * (eps / (K + 1))) with eps in Hh2 by (field; lra). lra.
Qed.

Lemma pow_S_le q n : 0 <= q <= 1 -> q ^ S n <= q.
Proof.
  intros H. induction n as [|n IH]; [simpl; lra|].
  change (q ^ S (S n)) with (q * q ^ S n). assert (0 <= q ^ S n) by (apply pow_le; lra). nra.
Qed.
Lemma pow_even_le_sq t n : (1 <= n)%nat -> Rabs t <= 1 -> t ^ (2 * n) <= t * t.
Proof.
  intros Hn Ht. rewrite pow_mult. replace (t * t) with (t ^ 2) by ring.
  destruct n; [lia|]. apply pow_S_le. split; [apply pow2_ge_0|]. apply Rabs_le_between in Ht. nra.
Qed.

Lemma rp_norm p s b : RP p = Ok s -> (2 <= p)%Z ->
  exists c d : R -> R -> R, (forall x y, conj_ s x y = Ok (c x y)) /\ (forall x y, disj_ s x y = Ok (d x y)) /\
  (0 < b -> is_derive (fun t => c t b) 0 1 /\ is_derive (fun t => c 0 t) b 0 /\
            is_derive (fun t => c b t) 0 1 /\ is_derive (fun t => c t 0) b 0) /\
  (b < 0 -> is_derive (fun t => d t b) 0 1 /\ is_derive (fun t => d 0 t) b 0 /\
            is_derive (fun t => d b t) 0 1 /\ is_derive (fun t => d t 0) b 0).
Proof.
  intros H Hp. pose proof (RP_sign_correct p s H Hp) as SC. destruct (RP_demorgan _ _ H) as [DM CM].
  set (val := fun (r : res R) => match r with Ok x => x | Err _ => 0 end).
  set (c := fun x y => val (conj_ s x y)). set (d := fun x y => val (disj_ s x y)).
  assert (Hc : forall x y, conj_ s x y = Ok (c x y)).
  { intros x y. destruct (SC x y) as [(v & E & _) _]. unfold c. rewrite E. reflexivity. }
  assert (Hd : forall x y, disj_ s x y = Ok (d x y)).
  { intros x y. destruct (SC x y) as [_ (v & E & _)]. unfold d. rewrite E. reflexivity. }
  exists c, d. split; [exact Hc|]. split; [exact Hd|].
  assert (Cc : forall x y, c x y = c y x).
  { intros x y. destruct (CM x y) as [E _]. rewrite !Hc in E. apply ok_inj; auto. }
  assert (Dn : forall x y, d x y = - c (- x) (- y)).
  { intros x y. destruct (DM x y) as [E _]. rewrite Hd, Hc in E. apply ok_inj in E. exact E. }
  pose proof (RP_normal_order p s H Hp) as NO.
  apply RP_ok in H as [Ev ->]. destruct (even_nat p Hp Ev) as (n & Hn & ->).
  assert (Ep : Z.to_nat (2 * Z.of_nat n) = (2 * n)%nat) by lia.
  assert (EI : IZR (2 * Z.of_nat n) = INR (2 * n)) by (rewrite INR_IZR_INZ; f_equal; lia).
  assert (HP : 0 < INR (2 * n)) by (apply lt_0_INR; lia).
  assert (D1 : forall y, 0 < y -> is_derive (fun t => c t y) 0 1).
  { intros y Hy. assert (Py : 0 < INR (2 * n) * y ^ (2 * n - 1)) by (apply Rmult_lt_0_compat; [|apply pow_lt]; auto).
    apply is_derive_sandwich with (/ (INR (2 * n) * y ^ (2 * n - 1))).
    - destruct (NO 0 y Hy) as (v & E & B). rewrite Hc in E. apply ok_inj in E. rewrite E.
      rewrite Ep, pow_i in B by lia. unfold Rdiv in B. rewrite Rmult_0_l in B. lra.
    - apply Rlt_le, Rinv_0_lt_compat; auto.
    - intros t Ht. destruct (NO t y Hy) as (v & E & B). rewrite Hc in E. apply ok_inj in E. rewrite E.
      rewrite Ep, EI in B. pose proof (pow_even_le_sq t n Hn Ht) as Q.
      assert (t ^ (2 * n) / (INR (2 * n) * y ^ (2 * n - 1)) <= / (INR (2 * n) * y ^ (2 * n - 1)) * (t * t)).
      { unfold Rdiv. rewrite Rmult_comm. apply Rmult_le_compat_l; auto.
        apply Rlt_le, Rinv_0_lt_compat; auto. }
      rewrite Rabs_left1; lra. }
  assert (D2 : forall y, 0 < y -> is_derive (fun t => c 0 t) y 0).
  { intros y Hy. apply is_derive_ext_loc with (fun _ => 0).
    - exists (mkposreal y Hy). intros z Hz. simpl in *.
      assert (0 < z).
      { unfold ball in Hz. simpl in Hz. unfold AbsRing_ball, abs, minus, plus, opp in Hz. simpl in Hz.
        apply Rabs_def2 in Hz. lra. }
      destruct (NO 0 z H) as (v & E & B). rewrite Hc in E. apply ok_inj in E. rewrite E.
      rewrite Ep, pow_i in B by lia. unfold Rdiv in B. rewrite Rmult_0_l in B. lra.
    - apply @is_derive_const. }
  split; intros Hb.
  - split; [auto|split; [auto|split]].
    + eapply is_derive_ext; [intros t; apply Cc|auto].
    + eapply is_derive_ext; [intros t; apply Cc|auto].
  - assert (Hb' : 0 < - b) by lra. specialize (D1 (- b) Hb'). specialize (D2 (- b) Hb').
    assert (G1 : is_derive (fun t => - c (- t) (- b)) 0 1).
    { evar_last.
      - apply (is_derive_opp (fun t => c (- t) (- b))).
        apply (is_derive_comp (fun t => c t (- b)) Ropp 0 1 (-1)).
        + rewrite Ropp_0. exact D1.
        + auto_derive; auto.
      - unfold opp, scal, mult; simpl; unfold mult; simpl; ring. }
    assert (G2 : is_derive (fun t => - c 0 (- t)) b 0).
    { evar_last.
      - apply (is_derive_opp (fun t => c 0 (- t))).
        apply (is_derive_comp (fun t => c 0 t) Ropp b 0 (-1)); [exact D2|]. auto_derive; auto.
      - unfold opp, scal, mult; simpl; unfold mult; simpl; ring. }
    split; [|split; [|split]].
    + eapply is_derive_ext; [intros t; symmetry; apply Dn|exact G1].
    + eapply is_derive_ext; [|exact G2]. intros t. rewrite Dn, Ropp_0. reflexivity.
    + eapply is_derive_ext; [|exact G1]. intros t. rewrite Dn. f_equal. apply Cc.
    + eapply is_derive_ext; [|exact G2]. intros t. rewrite Dn, Ropp_0. f_equal. apply Cc.
Qed.

(** *** Set operations on ADFs *)
Lemma sg_min_pos a b c : sg c = Z.min (sg a) (sg b) -> (0 < c <-> 0 < a /\ 0 < b) /\ (c < 0 <-> a < 0 \/ b < 0).
Proof.
  intros H. rewrite <- !sg_pos_iff, <- !sg_neg_iff, H.
  destruct (sg_cases a) as [[_ ->]|[[_ ->]|[_ ->]]], (sg_cases b) as [[_ ->]|[[_ ->]|[_ ->]]];
    simpl; intuition (try discriminate; lia).
Qed.
Lemma sg_max_pos a b c : sg c = Z.max (sg a) (sg b) -> (0 < c <-> 0 < a \/ 0 < b) /\ (c < 0 <-> a < 0 /\ b < 0).
Proof.
  intros H. rewrite <- !sg_pos_iff, <- !sg_neg_iff, H.
  destruct (sg_cases a) as [[_ ->]|[[_ ->]|[_ ->]]], (sg_cases b) as [[_ ->]|[[_ ->]|[_ ->]]];
    simpl; intuition (try discriminate; lia).
Qed.
Lemma opp_pos a : 0 < - a <-> a < 0. Proof. split; lra. Qed.
Lemma opp_neg a : - a < 0 <-> 0 < a. Proof. split; lra. Qed.

Section SetOps.
  Variable s : rsys.
  Hypothesis SC : sign_correct s.
  Variables f g : adf.
  Variable x : arr.
  Variables a b : R.
  Hypothesis Hf : f x = Ok a.
  Hypothesis Hg : g x = Ok b.

  Lemma conj_dec u v : exists c, conj_ s u v = Ok c /\ (0 < c <-> 0 < u /\ 0 < v) /\ (c < 0 <-> u < 0 \/ v < 0).
  Proof. destruct (SC u v) as [(c & E & Hs) _]. exists c. split; auto. apply sg_min_pos; auto. Qed.
  Lemma disj_dec u v : exists c, disj_ s u v = Ok c /\ (0 < c <-> 0 < u \/ 0 < v) /\ (c < 0 <-> u < 0 /\ v < 0).
  Proof. destruct (SC u v) as [_ (c & E & Hs)]. exists c. split; auto. apply sg_max_pos; auto. Qed.

  Lemma negate_dec : decides (negate f x) (a < 0) (0 < a).
  Proof. unfold negate, decides. rewrite Hf. cbn [bind]. exists (- a). split; auto. split; split; lra. Qed.
  Lemma union_dec : decides (union s f g x) (0 < a \/ 0 < b) (a < 0 /\ b < 0).
  Proof.
    unfold union, disj_adf, pointwise. rewrite Hf, Hg. cbn [bind].
    destruct (disj_dec a b) as (c & E & P & N). exists c. auto.
  Qed.
  Lemma intersection_dec : decides (intersection s f g x) (0 < a /\ 0 < b) (a < 0 \/ b < 0).
  Proof.
    unfold intersection, conj_adf, pointwise. rewrite Hf, Hg. cbn [bind].
    destruct (conj_dec a b) as (c & E & P & N). exists c. auto.
  Qed.
  Lemma difference_dec : decides (difference s f g x) (0 < a /\ b < 0) (a < 0 \/ 0 < b).
  Proof.
    unfold difference, pointwise. rewrite Hf, Hg. cbn [bind].
    destruct (conj_dec a (- b)) as (c & E & P & N). exists c. split; auto.
    rewrite opp_pos in P. rewrite opp_neg in N. auto.
  Qed.
  Lemma implication_dec : decides (implication s f g x) (a < 0 \/ 0 < b) (0 < a /\ b < 0).
  Proof.
    unfold implication, pointwise. rewrite Hf, Hg. cbn [bind].
    destruct (disj_dec (- a) b) as (c & E & P & N). exists c. split; auto.
    rewrite opp_pos in P. rewrite opp_neg in N. auto.
  Qed.
  Lemma equivalence_dec : decides (equivalence s f g x)
    ((0 < a /\ 0 < b) \/ (a < 0 /\ b < 0)) ((0 < a /\ b < 0) \/ (a < 0 /\ 0 < b)).
  Proof.
    unfold equivalence, pointwise. rewrite Hf, Hg. cbn [bind].
    destruct (disj_dec a (- b)) as (c1 & E1 & P1 & N1). rewrite E1. cbn [bind].
    destruct (disj_dec (- a) b) as (c2 & E2 & P2 & N2). rewrite E2. cbn [bind].
    destruct (conj_dec c1 c2) as (c & E & P & N). exists c. split; auto.
    rewrite P1, P2 in P. rewrite N1, N2 in N. rewrite P, N. rewrite !opp_pos, !opp_neg.
    split; intuition lra.
  Qed.
  Lemma xor_dec : decides (xor s f g x)
    ((0 < a /\ b < 0) \/ (a < 0 /\ 0 < b)) ((0 < a /\ 0 < b) \/ (a < 0 /\ b < 0)).
  Proof.
    unfold xor, pointwise. rewrite Hf, Hg. cbn [bind].
    destruct (conj_dec a (- b)) as (c1 & E1 & P1 & N1). rewrite E1. cbn [bind].
    destruct (conj_dec (- a) b) as (c2 & E2 & P2 & N2). rewrite E2. cbn [bind].
    destruct (disj_dec c1 c2) as (c & E & P & N). exists c. split; auto.
    rewrite P1, P2 in P. rewrite N1, N2 in N. rewrite P, N. rewrite !opp_pos, !opp_neg.
    split; intuition lra.
  Qed.
End SetOps.
