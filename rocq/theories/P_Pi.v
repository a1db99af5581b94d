(** pi is irrational (Hermite's integrals), hence no non-zero integer has a vanishing sine or cosine. *)
From Coquelicot Require Import Coquelicot.
From Verif Require Import Base BaseFacts.

Section Hermite.
Variable al : R.
Definition wp (n : nat) (x : R) : R := (1 - x * x) ^ n * cos (al * x).
Definition J (n : nat) : R := RInt (wp n) (-1) 1.
Lemma pow_derive n x : is_derive (fun x => (1 - x * x) ^ S n) x (INR (S n) * (-2 * x) * (1 - x * x) ^ n).
Proof. apply (is_derive_pow (fun x => 1 - x * x) (S n) x (-2 * x)). auto_derive; auto. ring. Qed.
Lemma wp_continuous n x : continuous (wp n) x.
Proof.
  apply (ex_derive_continuous (wp n)). unfold wp. destruct n as [|n].
  - cbn [pow]. auto_derive. auto.
  - eexists. apply (is_derive_mult (fun x => (1 - x * x) ^ S n) (fun x => cos (al * x))); [apply pow_derive| |intros; apply Rmult_comm].
    apply (Derive_correct (fun x => cos (al * x))). auto_derive. auto.
Qed.
Lemma wp_int n : ex_RInt (wp n) (-1) 1.
Proof. apply (ex_RInt_continuous (wp n)). intros x _. apply wp_continuous. Qed.
Lemma wp_is n : is_RInt (wp n) (-1) 1 (J n).
Proof. apply (RInt_correct (V := R_CompleteNormedModule) (wp n)), wp_int. Qed.

(** integration by parts twice *)
Lemma J_rec n : al ^ 2 * J (S (S n)) = 2 * INR (S (S n)) * (2 * INR (S (S n)) - 1) * J (S n) - 4 * INR (S (S n)) * INR (S n) * J n.
Proof.
  set (m := INR (S (S n))). set (k := INR (S n)). assert (mk : m = k + 1) by (unfold m, k; apply S_INR).
  set (G := fun x => al * ((1 - x * x) ^ S (S n) * sin (al * x)) + m * (-2 * x * ((1 - x * x) ^ S n * cos (al * x)))).
  set (g := fun x => al ^ 2 * wp (S (S n)) x + (- (2 * m * (2 * m - 1)) * wp (S n) x + 4 * m * k * wp n x)).
  assert (DG : forall x, is_derive G x (g x)).
  { intros x. assert (Ds : is_derive (fun x => sin (al * x)) x (al * cos (al * x))) by (auto_derive; auto; ring).
    assert (Dc : is_derive (fun x => cos (al * x)) x (- al * sin (al * x))) by (auto_derive; auto; ring).
    assert (Dl : is_derive (fun x => -2 * x) x (-2)) by (auto_derive; auto; ring).
    pose proof (is_derive_mult _ _ x _ _ (pow_derive (S n) x) Ds ltac:(intros; apply Rmult_comm)) as P1.
    pose proof (is_derive_mult _ _ x _ _ (pow_derive n x) Dc ltac:(intros; apply Rmult_comm)) as P2.
    pose proof (is_derive_mult _ _ x _ _ Dl P2 ltac:(intros; apply Rmult_comm)) as P3.
    pose proof (is_derive_plus (V := R_NormedModule) _ _ x _ _ (is_derive_scal _ x al _ P1) (is_derive_scal _ x m _ P3)) as P.
    unfold plus, mult in P. cbn -[pow INR] in P. unfold plus, mult in P. cbn -[pow INR] in P. eapply is_derive_ext; [|evar_last; [exact P|]].
    - intros t. reflexivity.
    - unfold g, wp. fold m k. cbn [pow]. rewrite mk. ring. }
  assert (IG : is_RInt g (-1) 1 (G 1 - G (-1))).
  { apply (is_RInt_derive G g); [intros x _; apply DG|]. intros x _. unfold g.
    apply (continuous_plus (fun x => al ^ 2 * wp (S (S n)) x)); [apply (continuous_scal_r (al ^ 2) (wp (S (S n)))), wp_continuous|].
    apply (continuous_plus (fun x => - (2 * m * (2 * m - 1)) * wp (S n) x)); [apply (continuous_scal_r (- (2 * m * (2 * m - 1))) (wp (S n))), wp_continuous|].
    apply (continuous_scal_r (4 * m * k) (wp n)), wp_continuous. }
  assert (Z : G 1 - G (-1) = 0) by (unfold G; cbn [pow]; ring).
  assert (IJ : is_RInt g (-1) 1 (al ^ 2 * J (S (S n)) + (- (2 * m * (2 * m - 1)) * J (S n) + 4 * m * k * J n))).
  { apply (is_RInt_plus (V := R_NormedModule)); [apply (is_RInt_scal (V := R_NormedModule)), wp_is|].
    apply (is_RInt_plus (V := R_NormedModule)); apply (is_RInt_scal (V := R_NormedModule)), wp_is. }
  pose proof (is_RInt_unique _ _ _ _ IG) as U1. pose proof (is_RInt_unique _ _ _ _ IJ) as U2. rewrite U1, Z in U2. lra.
Qed.
Hypothesis al_pos : 0 < al.
Hypothesis sin_al : sin al = 1.
Hypothesis cos_al : cos al = 0.
Hypothesis cos_pos : forall x, -1 < x < 1 -> 0 < cos (al * x).
Lemma J0 : al * J 0 = 2.
Proof.
  assert (I : is_RInt (wp 0) (-1) 1 (sin (al * 1) / al - sin (al * -1) / al)).
  { apply (is_RInt_derive (fun x => sin (al * x) / al)); [|intros x _; apply wp_continuous]. intros x _. unfold wp. cbn [pow]. auto_derive; auto. field. lra. }
  unfold J. rewrite (is_RInt_unique _ _ _ _ I). replace (al * -1) with (- al) by ring. rewrite Rmult_1_r, sin_neg, sin_al. field. lra.
Qed.
Lemma J1 : al ^ 2 * J 1 = 2 * J 0.
Proof.
  set (G := fun x => al * ((1 - x * x) * sin (al * x)) + (-2 * x * cos (al * x))).
  set (g := fun x => al ^ 2 * wp 1 x + - 2 * wp 0 x).
  assert (IG : is_RInt g (-1) 1 (G 1 - G (-1))).
  { apply (is_RInt_derive G g).
    - intros x _. unfold G, g, wp. cbn [pow]. auto_derive; auto. ring.
    - intros x _. apply (continuous_plus (fun x => al ^ 2 * wp 1 x)); [apply (continuous_scal_r (al ^ 2) (wp 1)), wp_continuous|].
      apply (continuous_scal_r (-2) (wp 0)), wp_continuous. }
  assert (Z : G 1 - G (-1) = 0).
  { unfold G. replace (al * -1) with (- al) by ring. rewrite (Rmult_1_r al), cos_neg, cos_al. ring. }
  assert (IJ : is_RInt g (-1) 1 (al ^ 2 * J 1 + - 2 * J 0)).
  { apply (is_RInt_plus (V := R_NormedModule)); apply (is_RInt_scal (V := R_NormedModule)), wp_is. }
  pose proof (is_RInt_unique _ _ _ _ IG) as U1. pose proof (is_RInt_unique _ _ _ _ IJ) as U2. rewrite U1, Z in U2. lra.
Qed.
Lemma wp_pos n x : -1 < x < 1 -> 0 < wp n x.
Proof. intros H. apply Rmult_lt_0_compat; [apply pow_lt; nra|auto]. Qed.
Lemma J_pos n : 0 < J n.
Proof. apply RInt_gt_0; [lra|intros; apply wp_pos; auto|intros; apply wp_continuous]. Qed.
Lemma J_le n : J n <= 2.
Proof.
  apply Rle_trans with (RInt (fun _ => 1) (-1) 1).
  - apply RInt_le; [lra|apply wp_int|apply ex_RInt_const|]. intros x Hx. unfold wp.
    apply Rle_trans with (1 * 1); [|lra]. apply Rmult_le_compat.
    + apply pow_le. nra.
    + left. auto.
    + apply Rle_trans with (1 ^ n); [apply pow_incr; nra|rewrite pow1; lra].
    + apply COS_bound.
  - rewrite RInt_const. change ((1 - -1) * 1 <= 2). lra.
Qed.

(** al = a / b is impossible *)
Variables (a b : Z).
Hypothesis Ha : (0 < a)%Z.
Hypothesis Hb : (0 < b)%Z.
Hypothesis Hal : al = IZR a / IZR b.
Definition H (n : nat) : R := IZR a ^ (2 * n + 1) * J n / INR (fact n).
Lemma H_int n : (exists z, H n = IZR z) /\ (exists z, H (S n) = IZR z).
Proof.
  assert (Pa : 0 < IZR a) by (apply IZR_lt; auto). assert (Pb : 0 < IZR b) by (apply IZR_lt; auto).
  assert (E0 : H 0 = IZR (2 * b)).
  { pose proof J0 as E. unfold H. cbn [Nat.mul Nat.add pow fact INR]. rewrite mult_IZR. rewrite Hal in E.
    replace (J 0) with (2 * IZR b / IZR a); [field; lra|]. apply (Rmult_eq_reg_l (IZR a / IZR b)); [|apply Rgt_not_eq, Rdiv_lt_0_compat; auto].
    rewrite E. field. lra. }
  assert (E1 : H 1 = IZR (4 * b * b * b)).
  { pose proof J0 as E. pose proof J1 as E'. unfold H. rewrite !mult_IZR. cbn [Nat.mul Nat.add fact INR]. rewrite Hal in E, E'.
    assert (X0 : J 0 = 2 * IZR b / IZR a).
    { apply (Rmult_eq_reg_l (IZR a / IZR b)); [|apply Rgt_not_eq, Rdiv_lt_0_compat; auto]. rewrite E. field. lra. }
    assert (X1 : J 1 = 4 * IZR b ^ 3 / IZR a ^ 3).
    { apply (Rmult_eq_reg_l ((IZR a / IZR b) ^ 2)); [|apply Rgt_not_eq, pow_lt, Rdiv_lt_0_compat; auto]. rewrite E', X0. field. lra. }
    rewrite X1. cbn [pow]. field. lra. }
  induction n as [|n [I1 I2]]; [split; eexists; eauto|]. split; auto.
  destruct I1 as [z1 I1]. destruct I2 as [z2 I2].
  exists (b * b * (2 * (2 * Z.of_nat (S (S n)) - 1) * z2 - 4 * a * a * z1))%Z.
  rewrite !mult_IZR, minus_IZR, !mult_IZR, minus_IZR, mult_IZR, <- INR_IZR_INZ, <- I1, <- I2. unfold H.
  pose proof (J_rec n) as Q. rewrite Hal in Q.
  assert (Q' : J (S (S n)) = IZR b ^ 2 / IZR a ^ 2 * (2 * INR (S (S n)) * (2 * INR (S (S n)) - 1) * J (S n) - 4 * INR (S (S n)) * INR (S n) * J n)).
  { rewrite <- Q. field. lra. }
  rewrite Q'. replace (2 * S (S n) + 1)%nat with (2 * n + 1 + 4)%nat by lia. replace (2 * S n + 1)%nat with (2 * n + 1 + 2)%nat by lia.
  rewrite !pow_add. change (fact (S (S n))) with (S (S n) * (S n * fact n))%nat. change (fact (S n)) with (S n * fact n)%nat. rewrite !mult_INR.
  field. pose proof (INR_fact_neq_0 n). repeat split; auto; try (apply not_0_INR; lia); lra.
Qed.
Lemma not_rational : False.
Proof.
  assert (Pa : 0 < IZR a) by (apply IZR_lt; auto).
  assert (L : exists n, IZR a * 2 * ((IZR a ^ 2) ^ n / INR (fact n)) < 1).
  { pose proof (cv_speed_pow_fact (IZR a ^ 2)) as C.
    assert (e : 0 < / (IZR a * 2)) by (apply Rinv_0_lt_compat; lra).
    destruct (C _ e) as [n Hn]. exists n. specialize (Hn n (le_n n)). unfold R_dist in Hn. rewrite Rminus_0_r in Hn.
    apply Rabs_def2 in Hn. destruct Hn as [Hn _]. replace 1 with (IZR a * 2 * / (IZR a * 2)) by (field; lra). apply Rmult_lt_compat_l; auto. lra. }
  destruct L as [n L]. destruct (proj1 (H_int n)) as [z E].
  assert (P : 0 < H n).
  { unfold H. apply Rdiv_lt_0_compat; [apply Rmult_lt_0_compat; [apply pow_lt; auto|apply J_pos]|apply INR_fact_lt_0]. }
  assert (Q : H n < 1).
  { eapply Rle_lt_trans; [|exact L]. unfold H. rewrite pow_add, pow_mult, pow_1.
    replace (IZR a * 2 * ((IZR a ^ 2) ^ n / INR (fact n))) with ((IZR a ^ 2) ^ n * IZR a * 2 * / INR (fact n)) by (unfold Rdiv; ring).
    unfold Rdiv. apply Rmult_le_compat_r; [left; apply Rinv_0_lt_compat, INR_fact_lt_0|].
    apply Rmult_le_compat_l; [|apply J_le]. apply Rmult_le_pos; [apply pow_le, pow_le|]; lra. }
  rewrite E in P, Q. apply lt_IZR in P. apply lt_IZR in Q. lia.
Qed.
End Hermite.

Lemma half_pi_irrational a b : (b <> 0)%Z -> PI / 2 <> IZR a / IZR b.
Proof.
  intros Hb E. pose proof PI_RGT_0 as P.
  assert (G : forall a b, (0 < b)%Z -> PI / 2 <> IZR a / IZR b).
  { clear a b Hb E. intros a b Hb E. assert (Pb : 0 < IZR b) by (apply IZR_lt; auto).
    assert (Ha : (0 < a)%Z).
    { apply lt_IZR. replace (IZR a) with (PI / 2 * IZR b) by (rewrite E; field; lra). apply Rmult_lt_0_compat; lra. }
    apply (not_rational (PI / 2) ltac:(lra) sin_PI2 cos_PI2) with (a := a) (b := b); auto.
    intros x Hx. apply cos_gt_0; nra. }
  destruct (Z_lt_le_dec 0 b) as [Q|Q]; [apply (G a b Q E)|].
  apply (G (- a)%Z (- b)%Z); [lia|]. rewrite E, !opp_IZR. field. apply not_0_IZR. auto.
Qed.
Lemma integer_sine n : (n <> 0)%Z -> sin (IZR n) <> 0.
Proof.
  intros Hn E. destruct (sin_eq_0_0 _ E) as [k Ek]. assert (k <> 0)%Z by (intros ->; apply Hn; apply eq_IZR; lra).
  apply (half_pi_irrational n (2 * k)); [lia|]. rewrite mult_IZR, Ek. field. apply not_0_IZR. auto.
Qed.
Lemma integer_cosine n : cos (IZR n) <> 0.
Proof.
  intros E. destruct (cos_eq_0_0 _ E) as [k Ek].
  apply (half_pi_irrational n (2 * k + 1)); [lia|]. rewrite plus_IZR, mult_IZR, Ek. field.
  rewrite <- mult_IZR, <- plus_IZR. apply not_0_IZR. lia.
Qed.
