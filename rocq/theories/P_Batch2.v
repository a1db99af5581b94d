(** Volumes of the domains. *)
From Coquelicot Require Import Coquelicot.
From Verif Require Import Base BaseFacts M_Tensor M_Domain M_Batch S_Batch.

Lemma volume_integral_const l u c : length l = length u ->
  volume_integral l u (fun _ => c) = prodR (map2 Rminus u l) * c.
Proof.
  revert u. induction l as [|a l IH]; intros [|b u] L; try discriminate L.
  - cbn. ring.
  - cbn [volume_integral map2 prodR fold_right]. rewrite (RInt_ext (V := R_CompleteNormedModule) _ (fun _ => prodR (map2 Rminus u l) * c)).
    + rewrite RInt_const. unfold scal. cbn. unfold mult. cbn. unfold prodR. ring.
    + intros x _. apply IH. cbn in L. lia.
Qed.
Lemma hypercube_volume l u h : Hypercube l u = Ok h -> hc_support h = volume_integral l u (fun _ => 1).
Proof.
  unfold Hypercube, assert_. destruct (Nat.eqb_spec (length l) (length u)) as [L|]; [|discriminate].
  intros H. injection H as <-. unfold hc_support. cbn [lb ub]. rewrite volume_integral_const by auto. ring.
Qed.

(** ** Disk and ball *)
Lemma cos2_half t : cos t ^ 2 = (1 + cos (2 * t)) / 2.
Proof. rewrite cos_2a_cos. field. Qed.
Lemma is_RInt_cos2 : is_RInt (fun t => cos t ^ 2) (- (PI / 2)) (PI / 2) (PI / 2).
Proof.
  pose proof (is_RInt_derive (V := R_CompleteNormedModule) (fun t => t / 2 + sin (2 * t) / 4) (fun t => cos t ^ 2) (- (PI / 2)) (PI / 2)) as H.
  replace (PI / 2) with (minus (PI / 2 / 2 + sin (2 * (PI / 2)) / 4) (- (PI / 2) / 2 + sin (2 * - (PI / 2)) / 4)) at 3.
  - apply H.
    + intros t _. rewrite cos2_half. auto_derive; [trivial|]. field.
    + intros t _. apply (ex_derive_continuous (V := R_NormedModule)). auto_derive. trivial.
  - unfold minus, plus, opp. cbn. replace (2 * (PI / 2)) with PI by field. replace (2 * - (PI / 2)) with (- PI) by field.
    rewrite sin_neg, sin_PI. field.
Qed.
Lemma chord_continuous r x : x ^ 2 <= r ^ 2 -> continuous (fun x => 2 * sqrt (r ^ 2 - x ^ 2)) x.
Proof.
  intros H. apply (continuous_scal_r (K := R_AbsRing) (V := R_NormedModule) 2 (fun x => sqrt (r ^ 2 - x ^ 2))).
  apply (continuous_comp (fun x => r ^ 2 - x ^ 2) sqrt).
  - apply (ex_derive_continuous (V := R_NormedModule)). auto_derive. trivial.
  - apply continuity_pt_filterlim. apply continuity_pt_sqrt. lra.
Qed.
Lemma disk_area_ok r : 0 <= r -> disk_area r = r ^ 2 * PI.
Proof.
  intros Hr. unfold disk_area.
  pose proof (RInt_comp (V := R_CompleteNormedModule) (fun x => 2 * sqrt (r ^ 2 - x ^ 2)) (fun t => r * sin t) (fun t => r * cos t)
    (- (PI / 2)) (PI / 2)) as H.
  pose proof PI_RGT_0 as HP. rewrite Rmin_left, Rmax_right in H by lra.
  rewrite sin_neg, sin_PI2 in H. replace (r * 1) with r in H by ring.
  replace (r * - (1)) with (- r) in H by ring. rewrite <- H.
  - rewrite (RInt_ext (V := R_CompleteNormedModule) _ (fun t => scal (2 * r ^ 2) (cos t ^ 2))).
    + transitivity (scal (2 * r ^ 2) (PI / 2)).
      * apply is_RInt_unique. apply (is_RInt_scal (V := R_CompleteNormedModule)). exact is_RInt_cos2.
      * unfold scal. cbn. unfold mult. cbn. field.
    + rewrite Rmin_left, Rmax_right by lra. intros t Ht. unfold scal. cbn. unfold mult. cbn.
      replace (r * (r * 1) - r * sin t * (r * sin t * 1)) with ((r * cos t) * (r * cos t)).
      2:{ pose proof (sin2_cos2 t) as S. unfold Rsqr in S.
          transitivity (r * r * (1 - sin t * sin t)); [|ring]. replace (1 - sin t * sin t) with (cos t * cos t) by lra. ring. }
      rewrite sqrt_square; [ring|]. apply Rmult_le_pos; [auto|]. apply cos_ge_0; lra.
  - intros t _. apply chord_continuous. destruct (SIN_bound t) as [B1 B2].
    assert (Q : 0 <= 1 - sin t * sin t) by nra. pose proof (Rmult_le_pos (r * r) _ (Rle_0_sqr r) Q). nra.
  - intros t _. split; [auto_derive; [trivial|ring]|]. apply (ex_derive_continuous (V := R_NormedModule)). auto_derive. trivial.
Qed.
Lemma ball_volume_ok r : 0 <= r -> ball_volume r = 4 / 3 * r ^ 3 * PI.
Proof.
  intros Hr. unfold ball_volume.
  rewrite (RInt_ext (V := R_CompleteNormedModule) _ (fun z => (r ^ 2 - z ^ 2) * PI)).
  2:{ rewrite Rmin_left, Rmax_right by lra. intros z Hz. rewrite disk_area_ok by apply sqrt_pos.
      rewrite <- (Rsqr_pow2 (sqrt _)), Rsqr_sqrt; [reflexivity|]. nra. }
  apply is_RInt_unique.
  pose proof (is_RInt_derive (V := R_CompleteNormedModule) (fun z => (r ^ 2 * z - z ^ 3 / 3) * PI) (fun z => (r ^ 2 - z ^ 2) * PI) (- r) r) as H.
  replace (4 / 3 * r ^ 3 * PI) with (minus ((r ^ 2 * r - r ^ 3 / 3) * PI) ((r ^ 2 * - r - (- r) ^ 3 / 3) * PI)).
  - apply H; intros z _; [auto_derive; [trivial|field]|]. apply (ex_derive_continuous (V := R_NormedModule)). auto_derive. trivial.
  - unfold minus, plus, opp. cbn. field.
Qed.

