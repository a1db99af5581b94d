(** Signs and accuracy of r0 with rounded arithmetic. *)
From Coq Require Import Lia.
From Flocq Require Import Core Relative.
From Verif Require Import Base M_RFun M_Float S_Float P_Float.
Open Scope R_scope.

Lemma is_float_FLX prec (Hp : (4 <= prec)%Z) x : is_float prec x <-> generic_format radix2 (FLX_exp prec) x.
Proof.
  pose proof (prec_pos prec Hp) as PP. split.
  - intros (m & e & -> & M). apply generic_format_FLX. exists (Float radix2 m e).
    + unfold F2R; simpl. now rewrite bpow_powerRZ.
    + exact M.
  - intros G. apply FLX_format_generic in G; [|exact PP]. destruct G as [[m e] -> M]. exists m, e.
    split; [|exact M]. unfold F2R; simpl. now rewrite bpow_powerRZ.
Qed.
Lemma nearest_N prec (Hp : (4 <= prec)%Z) rnd :
  nearest prec rnd -> forall x, Rnd_N_pt (generic_format radix2 (FLX_exp prec)) x (rnd x).
Proof.
  intros H x. destruct (H x) as [A B]. split; [now apply is_float_FLX|].
  intros g G. apply B. now apply is_float_FLX.
Qed.
Lemma is_float_opp prec x : is_float prec x -> is_float prec (- x).
Proof.
  intros (m & e & -> & M). exists (- m)%Z, e. split; [rewrite opp_IZR; ring|]. now rewrite Z.abs_opp.
Qed.

Section R0.
Variable prec : Z.
Hypothesis Hp : (4 <= prec)%Z.
Variable rnd : R -> R.
Hypothesis H : nearest prec rnd.
Let N := nearest_N prec Hp rnd H.
Notation fl := (is_float prec).
Notation G := (generic_format radix2 (FLX_exp prec)).
Notation u := (u_ro radix2 prec).

Lemma flG x : fl x -> G x.
Proof. now apply is_float_FLX. Qed.
Lemma rnd_rnd x : rnd (rnd x) = rnd x.
Proof. apply (rnd_id prec rnd N). apply (rnd_F prec rnd N). Qed.

Lemma r0_term a b : rnd (rnd (rnd (a * a) + rnd (b * b)) - rnd (rnd (0 * a) * b)) = rnd (rnd (a * a) + rnd (b * b)).
Proof.
  rewrite Rmult_0_l, (rnd_0 prec rnd N), Rmult_0_l, (rnd_0 prec rnd N), Rminus_0_r. apply rnd_rnd.
Qed.
Lemma term_pos a b : 0 <= rnd (rnd (a * a) + rnd (b * b)).
Proof.
  apply (rnd_pos prec rnd N). pose proof (proj2 (sq_F prec rnd N a)). pose proof (proj2 (sq_F prec rnd N b)). lra.
Qed.
Lemma r0_conj a b : conj_ (r0_rounded rnd) a b = Ok (rnd (rnd (a + b) - len rnd a b)).
Proof.
  cbn [conj_ r0_rounded]. unfold rounded_conj. rewrite r0_term. unfold fsqrt.
  destruct Rlt_dec as [L|L]; [pose proof (term_pos a b); lra|]. cbn [bind].
  now rewrite Rmult_1_l, rnd_rnd.
Qed.
Lemma r0_disj a b : disj_ (r0_rounded rnd) a b = Ok (rnd (rnd (a + b) + len rnd a b)).
Proof.
  cbn [disj_ r0_rounded]. unfold rounded_disj. rewrite r0_term. unfold fsqrt.
  destruct Rlt_dec as [L|L]; [pose proof (term_pos a b); lra|]. cbn [bind].
  now rewrite Rmult_1_l, rnd_rnd.
Qed.

Lemma conj_sign a b : fl a -> fl b ->
  exists v, conj_ (r0_rounded rnd) a b = Ok v /\ fl v /\ (0 < v -> 0 < a /\ 0 < b) /\ (v < 0 -> a < 0 \/ b < 0).
Proof.
  intros Fa Fb. apply flG in Fa, Fb. eexists. split; [apply r0_conj|]. split; [apply H|]. split; [intros V; split|intros V].
  - destruct (Rlt_le_dec 0 a) as [A|A]; [trivial|exfalso].
    pose proof (sum_le_len prec Hp rnd N a b Fa Fb (or_introl A)) as S.
    assert (rnd (rnd (a + b) - len rnd a b) <= 0) by (apply (rnd_neg prec rnd N); lra). lra.
  - destruct (Rlt_le_dec 0 b) as [A|A]; [trivial|exfalso].
    pose proof (sum_le_len prec Hp rnd N a b Fa Fb (or_intror A)) as S.
    assert (rnd (rnd (a + b) - len rnd a b) <= 0) by (apply (rnd_neg prec rnd N); lra). lra.
  - destruct (Rlt_le_dec a 0) as [A|A]; [now left|]. destruct (Rlt_le_dec b 0) as [B|B]; [now right|exfalso].
    pose proof (len_le_sum prec Hp rnd N a b Fa Fb A B) as S.
    assert (0 <= rnd (rnd (a + b) - len rnd a b)) by (apply (rnd_pos prec rnd N); lra). lra.
Qed.
(** the signs of the disjunction, from |rnd (a + b)| and the length *)
Lemma sum_ge_len a b : G a -> G b -> 0 <= a \/ 0 <= b -> - len rnd a b <= rnd (a + b).
Proof.
  intros Fa Fb [S|S].
  - apply (Rle_trans _ b).
    + pose proof (len_ge_abs prec Hp rnd N b a Fb) as L. rewrite len_sym in L. pose proof (Rle_abs (- b)) as K.
      rewrite Rabs_Ropp in K. lra.
    + rewrite <- (rnd_id prec rnd N b Fb) at 1. apply (rnd_le prec rnd N). lra.
  - apply (Rle_trans _ a).
    + pose proof (len_ge_abs prec Hp rnd N a b Fa) as L. pose proof (Rle_abs (- a)) as K.
      rewrite Rabs_Ropp in K. lra.
    + rewrite <- (rnd_id prec rnd N a Fa) at 1. apply (rnd_le prec rnd N). lra.
Qed.
Lemma disj_sign a b : fl a -> fl b ->
  exists v, disj_ (r0_rounded rnd) a b = Ok v /\ fl v /\ (0 < v -> 0 < a \/ 0 < b) /\ (v < 0 -> a < 0 /\ b < 0).
Proof.
  intros Fa Fb. apply flG in Fa, Fb. eexists. split; [apply r0_disj|]. split; [apply H|]. split; [intros V|intros V; split].
  - destruct (Rlt_le_dec 0 a) as [A|A]; [now left|]. destruct (Rlt_le_dec 0 b) as [B|B]; [now right|exfalso].
    pose proof (len_le_neg_sum prec Hp rnd N a b Fa Fb A B) as S.
    assert (rnd (rnd (a + b) + len rnd a b) <= 0) by (apply (rnd_neg prec rnd N); lra). lra.
  - destruct (Rlt_le_dec a 0) as [A|A]; [trivial|exfalso].
    pose proof (sum_ge_len a b Fa Fb (or_introl A)) as S.
    assert (0 <= rnd (rnd (a + b) + len rnd a b)) by (apply (rnd_pos prec rnd N); lra). lra.
  - destruct (Rlt_le_dec b 0) as [A|A]; [trivial|exfalso].
    pose proof (sum_ge_len a b Fa Fb (or_intror A)) as S.
    assert (0 <= rnd (rnd (a + b) + len rnd a b)) by (apply (rnd_pos prec rnd N); lra). lra.
Qed.

(** composition *)
Definition says (a : R) (P : Prop) := fl a /\ (0 < a -> P) /\ (a < 0 -> ~ P).
Lemma says_not a P : says a P -> says (- a) (~ P).
Proof.
  intros (F & A & B). split; [now apply is_float_opp|]. split.
  - intros. apply B. lra.
  - intros L K. apply K, A. lra.
Qed.
Lemma says_conj a b P Q : says a P -> says b Q -> exists v, conj_ (r0_rounded rnd) a b = Ok v /\ says v (P /\ Q).
Proof.
  intros (Fa & A1 & A2) (Fb & B1 & B2). destruct (conj_sign a b Fa Fb) as (v & E & Fv & V1 & V2).
  exists v. split; [exact E|]. split; [exact Fv|]. split.
  - intros L. destruct (V1 L). split; auto.
  - intros L [p q]. destruct (V2 L) as [K|K]; [now apply (A2 K)|now apply (B2 K)].
Qed.
Lemma says_disj a b P Q : says a P -> says b Q -> exists v, disj_ (r0_rounded rnd) a b = Ok v /\ says v (P \/ Q).
Proof.
  intros (Fa & A1 & A2) (Fb & B1 & B2). destruct (disj_sign a b Fa Fb) as (v & E & Fv & V1 & V2).
  exists v. split; [exact E|]. split; [exact Fv|]. split.
  - intros L. destruct (V1 L); auto.
  - intros L [p|q]; destruct (V2 L) as [K1 K2]; [now apply (A2 K1)|now apply (B2 K2)].
Qed.
Lemma says_equiv a (P Q : Prop) : (P -> Q) -> (Q -> ~ ~ P) -> says a P -> says a Q.
Proof. intros PQ QP (F & A & B). split; [exact F|]. split; [auto|]. intros L q. exact (QP q (B L)). Qed.

Lemma compose_never_lies leaf sets e x :
  (forall i, never_lies prec (leaf i) (sets i) x) ->
  never_lies prec (compose (r0_rounded rnd) leaf e) (member sets e) x.
Proof.
  intros HL.
  assert (Main : exists v, compose (r0_rounded rnd) leaf e x = Ok v /\ says v (member sets e x)); [|exact Main].
  induction e as [i|e (v & E & V)|e (v & E & V) f (w & E' & W)|e (v & E & V) f (w & E' & W)
    |e (v & E & V) f (w & E' & W)|e (v & E & V) f (w & E' & W)|e (v & E & V) f (w & E' & W)|e (v & E & V) f (w & E' & W)];
    cbn [compose member]; try (unfold union, intersection, conj_adf, disj_adf); try unfold negate, equivalence, implication, difference, xor;
    try unfold pointwise; try rewrite E; try rewrite E'; cbn [bind].
  - destruct (HL i) as (v & E & V). exists v. now split.
  - eexists. split; [reflexivity|]. now apply says_not.
  - exact (says_disj _ _ _ _ V W).
  - exact (says_conj _ _ _ _ V W).
  - destruct (says_disj _ _ _ _ V (says_not _ _ W)) as (c1 & -> & C1). cbn [bind].
    destruct (says_disj _ _ _ _ (says_not _ _ V) W) as (c2 & -> & C2). cbn [bind].
    destruct (says_conj _ _ _ _ C1 C2) as (r & -> & Hr). exists r. split; [reflexivity|].
    revert Hr. apply says_equiv; tauto.
  - destruct (says_disj _ _ _ _ (says_not _ _ V) W) as (c2 & -> & C2). exists c2. split; [reflexivity|].
    revert C2. apply says_equiv; tauto.
  - exact (says_conj _ _ _ _ V (says_not _ _ W)).
  - destruct (says_conj _ _ _ _ V (says_not _ _ W)) as (c1 & -> & C1). cbn [bind].
    destruct (says_conj _ _ _ _ (says_not _ _ V) W) as (c2 & -> & C2). cbn [bind].
    exact (says_disj _ _ _ _ C1 C2).
Qed.

(** accuracy *)
Lemma err_abs x : Rabs (rnd x - x) <= u * Rabs x.
Proof.
  eapply Rle_trans; [apply (rnd_rel prec Hp rnd N)|]. apply Rmult_le_compat_r; [apply Rabs_pos|].
  pose proof (w_bound prec Hp). lra.
Qed.
Lemma err_pos x : 0 <= x -> (1 - u) * x <= rnd x <= (1 + u) * x.
Proof.
  intros X. pose proof (err_abs x) as E. rewrite (Rabs_right x) in E by lra. apply Rabs_le_inv in E. lra.
Qed.
Lemma len_err a b : Rabs (len rnd a b - sqrt (a * a + b * b)) <= (2 * u + u * u) * sqrt (a * a + b * b).
Proof.
  pose proof (u_bound prec Hp) as U. set (s := sqrt (a * a + b * b)).
  assert (S0 : 0 <= s) by apply sqrt_pos.
  assert (AA : 0 <= a * a) by nra. assert (BB : 0 <= b * b) by nra.
  pose proof (err_pos _ AA) as EA. pose proof (err_pos _ BB) as EB.
  set (q := rnd (a * a) + rnd (b * b)) in *.
  assert (Q : (1 - u) * (a * a + b * b) <= q <= (1 + u) * (a * a + b * b)) by (unfold q; lra).
  assert (Q0 : 0 <= q) by nra. pose proof (err_pos _ Q0) as EQ.
  assert (SS : s * s = a * a + b * b) by (apply sqrt_sqrt; lra).
  assert (L : (1 - u) * s <= sqrt (rnd q) <= (1 + u) * s).
  { split.
    - rewrite <- (sqrt_square ((1 - u) * s)) by nra. apply sqrt_le_1_alt. nra.
    - rewrite <- (sqrt_square ((1 + u) * s)) by nra. apply sqrt_le_1_alt. nra. }
  assert (L0 : 0 <= sqrt (rnd q)) by apply sqrt_pos. pose proof (err_pos _ L0) as E2.
  unfold len. fold q. apply Rabs_le. nra.
Qed.
Lemma len_abs a b : sqrt (a * a + b * b) <= Rabs a + Rabs b.
Proof.
  pose proof (Rabs_pos a). pose proof (Rabs_pos b).
  rewrite <- (sqrt_square (Rabs a + Rabs b)) by lra. apply sqrt_le_1_alt.
  assert (a * a = Rabs a * Rabs a) by (rewrite <- Rabs_mult; symmetry; apply Rabs_right; nra).
  assert (b * b = Rabs b * Rabs b) by (rewrite <- Rabs_mult; symmetry; apply Rabs_right; nra). nra.
Qed.
Lemma accuracy_gen a b sg : sg = 1 \/ sg = -1 ->
  Rabs (rnd (rnd (a + b) + sg * len rnd a b) - (a + b + sg * sqrt (a ^ 2 + b ^ 2))) <= 6 * u * (Rabs a + Rabs b).
Proof.
  intros SG. pose proof (u_bound prec Hp) as U.
  replace (a ^ 2 + b ^ 2) with (a * a + b * b) by ring. set (s := sqrt (a * a + b * b)).
  pose proof (err_abs (a + b)) as E1. pose proof (len_err a b) as E2. fold s in E2.
  pose proof (len_abs a b) as E3. fold s in E3. assert (S0 : 0 <= s) by apply sqrt_pos.
  set (t := rnd (a + b)) in *. set (l := len rnd a b) in *. set (z := t + sg * l).
  pose proof (err_abs z) as E4. pose proof (Rabs_triang a b) as E5.
  set (w := Rabs a + Rabs b) in *.
  assert (D : Rabs (z - (a + b + sg * s)) <= (3 * u + u * u) * w).
  { replace (z - (a + b + sg * s)) with ((t - (a + b)) + sg * (l - s)) by (unfold z; ring).
    eapply Rle_trans; [apply Rabs_triang|]. rewrite Rabs_mult.
    assert (Rabs sg = 1) as -> by (destruct SG as [-> | ->]; [apply Rabs_R1|rewrite Rabs_left; lra]).
    nra. }
  assert (X : Rabs (a + b + sg * s) <= 2 * w).
  { eapply Rle_trans; [apply Rabs_triang|]. rewrite Rabs_mult.
    assert (Rabs sg = 1) as -> by (destruct SG as [-> | ->]; [apply Rabs_R1|rewrite Rabs_left; lra]).
    rewrite (Rabs_right s) by lra. lra. }
  assert (Zb : Rabs z <= 2 * w + (3 * u + u * u) * w).
  { replace z with ((z - (a + b + sg * s)) + (a + b + sg * s)) by ring.
    eapply Rle_trans; [apply Rabs_triang|]. lra. }
  replace (rnd z - (a + b + sg * s)) with ((rnd z - z) + (z - (a + b + sg * s))) by ring.
  eapply Rle_trans; [apply Rabs_triang|].
  assert (W : 0 <= w) by (unfold w; pose proof (Rabs_pos a); pose proof (Rabs_pos b); lra).
  assert (u * Rabs z <= u * (2 * w + (3 * u + u * u) * w)) by (apply Rmult_le_compat_l; lra).
  assert (0 <= u * w) by (apply Rmult_le_pos; lra).
  assert (5 + 4 * u + u * u <= 6) by nra.
  assert (u * (2 * w + (3 * u + u * u) * w) + (3 * u + u * u) * w = (5 + 4 * u + u * u) * (u * w)) as K by ring.
  nra.
Qed.
Lemma u_powerRZ : u = powerRZ 2 (- prec).
Proof. rewrite (u_bpow prec). apply bpow_powerRZ. Qed.
Lemma conj_accuracy a b :
  exists v, conj_ (r0_rounded rnd) a b = Ok v /\
            Rabs (v - (a + b - sqrt (a ^ 2 + b ^ 2))) <= 6 * powerRZ 2 (- prec) * (Rabs a + Rabs b).
Proof.
  eexists. split; [apply r0_conj|]. rewrite <- u_powerRZ.
  pose proof (accuracy_gen a b (-1) (or_intror eq_refl)) as E.
  replace (rnd (a + b) - len rnd a b) with (rnd (a + b) + -1 * len rnd a b) by ring.
  replace (a + b - sqrt (a ^ 2 + b ^ 2)) with (a + b + -1 * sqrt (a ^ 2 + b ^ 2)) by ring. exact E.
Qed.
Lemma disj_accuracy a b :
  exists v, disj_ (r0_rounded rnd) a b = Ok v /\
            Rabs (v - (a + b + sqrt (a ^ 2 + b ^ 2))) <= 6 * powerRZ 2 (- prec) * (Rabs a + Rabs b).
Proof.
  eexists. split; [apply r0_disj|]. rewrite <- u_powerRZ.
  pose proof (accuracy_gen a b 1 (or_introl eq_refl)) as E. rewrite !Rmult_1_l in E. exact E.
Qed.

(** a small operand disappears *)
Lemma absorbed sg : sg = 1 \/ sg = -1 ->
  let b := sg * powerRZ 2 (- (2 * prec)) in fl 1 /\ fl b /\ conj_ (r0_rounded rnd) 1 b = Ok 0.
Proof.
  intros SG b. pose proof (u_bound prec Hp) as U.
  assert (F1 : fl 1).
  { exists 1%Z, 0%Z. split; [simpl; ring|]. change (Z.abs 1) with (2 ^ 0)%Z. apply Z.pow_lt_mono_r; lia. }
  assert (Bb : fl b).
  { destruct SG as [-> | ->]; unfold b; [exists 1%Z|exists (-1)%Z]; exists (- (2 * prec))%Z; (split; [reflexivity|]);
      change (Z.abs _) with (2 ^ 0)%Z; apply Z.pow_lt_mono_r; lia. }
  split; [exact F1|]. split; [exact Bb|].
  pose proof (flG _ F1) as G1. pose proof (flG _ Bb) as Gb.
  assert (B : Rabs b = u * u).
  { unfold b. rewrite Rabs_mult. assert (Rabs sg = 1) as -> by (destruct SG as [-> | ->]; [apply Rabs_R1|rewrite Rabs_left; lra]).
    rewrite Rmult_1_l, Rabs_right by (apply Rle_ge, powerRZ_le; lra).
    rewrite <- (bpow_powerRZ radix2), (u_bpow prec), <- bpow_plus. f_equal. lia. }
  rewrite r0_conj. f_equal.
  assert (L : len rnd 1 b = 1).
  { apply Rle_antisym.
    - apply (sqrt_up prec Hp rnd N); [exact G1|lra|].
      pose proof (ulp_gt prec Hp 1 Rlt_0_1) as UL.
      assert (BB : b * b = (u * u) * (u * u)).
      { rewrite <- B. rewrite <- Rabs_mult. symmetry. apply Rabs_right. nra. }
      assert (Q : rnd (1 * 1) = 1) by (rewrite Rmult_1_l; now apply (rnd_id prec rnd N)). rewrite Q.
      assert (B0 : 0 <= b * b) by nra.
      apply (Rle_lt_trans _ 1); [|nra]. apply (rnd_up prec Hp rnd N); [exact G1|lra|].
      pose proof (proj2 (err_pos _ B0)) as EB. rewrite BB in EB at 2. destruct U as [U1 U2].
      assert (X1 : u * u <= / 16 * u) by nra. assert (X2 : u * u * (u * u) <= / 16 * u * 1) by (apply Rmult_le_compat; nra).
      assert (X3 : (1 + u) * (u * u * (u * u)) <= 2 * (/ 16 * u * 1)) by (apply Rmult_le_compat; nra).
      rewrite Rmult_1_r in UL. lra.
    - apply (len_ge_l prec Hp rnd N); [exact G1|lra]. }
  rewrite L.
  assert (S : rnd (1 + b) = 1); [|rewrite S; replace (1 - 1) with 0 by ring; apply (rnd_0 prec rnd N)].
  pose proof (ulp_gt prec Hp 1 Rlt_0_1) as UL.
  assert (Rabs (rnd (1 + b) - (1 + b)) <= Rabs b).
  { eapply Rle_trans; [apply (proj2 (N (1 + b))); exact G1|]. right. replace (1 - (1 + b)) with (- b) by ring. apply Rabs_Ropp. }
  assert (C : Rabs b <= u * u) by lra. apply Rabs_le_inv in C. destruct C as [C1 C2].
  assert (u * u <= / 16 * u) by nra.
  apply Rle_antisym.
  - apply (rnd_up prec Hp rnd N); [exact G1|lra|lra].
  - apply (mid_down prec Hp rnd N); [exact G1|].
    assert (P : pred radix2 (FLX_exp prec) 1 = 1 - u).
    { change 1 with (bpow radix2 0) at 1. rewrite pred_bpow. unfold FLX_exp. rewrite (u_bpow prec). simpl. f_equal. }
    rewrite P. lra.
Qed.
End R0.
Lemma strict_refuted prec (Hp : (4 <= prec)%Z) rnd : nearest prec rnd ->
  (exists a b, is_float prec a /\ is_float prec b /\ 0 < a /\ 0 < b /\ conj_ (r0_rounded rnd) a b = Ok 0) /\
  (exists a b, is_float prec a /\ is_float prec b /\ 0 < a /\ b < 0 /\ conj_ (r0_rounded rnd) a b = Ok 0).
Proof.
  intros H. assert (P : 0 < powerRZ 2 (- (2 * prec))) by (apply powerRZ_lt; lra).
  destruct (absorbed prec Hp rnd H 1 (or_introl eq_refl)) as (A1 & A2 & A3).
  destruct (absorbed prec Hp rnd H (-1) (or_intror eq_refl)) as (_ & B2 & B3).
  split; do 2 eexists; (split; [exact A1|]).
  - split; [exact A2|]. split; [lra|]. split; [lra|exact A3].
  - split; [exact B2|]. split; [lra|]. split; [lra|exact B3].
Qed.
