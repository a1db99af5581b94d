(** Error of the potential of the charges on a cuboid. *)
From Coquelicot Require Import Coquelicot.
From Verif Require Import Base BaseFacts P_Vec M_Tensor M_Integrate S_Calc P_AD S_Model S_Integrate S_IntErr P_Integrate1 P_Integrate2 P_Integrate3 P_Integrate4 S_IntOrder P_IntOrder.
From Verif Require Import S_Surface S_Mumag P_Surface1 P_Surface2 P_Surface3 P_Surface4 P_Mumag3 P_Mumag5 S_SurfErr P_SurfErr P_SurfErr2.

Lemma steps_at_most_mono h h' d : h <= h' -> steps_at_most h d -> steps_at_most h' d.
Proof.
  intros H. induction d as [|a [|b d] IH]; simpl; auto. intros [A B]. split; [lra|]. apply IH. exact B.
Qed.
Lemma divided_ok H u i n : (1 <= n)%nat -> nondecreasing u -> steps_at_most H u -> (S i < length u)%nat ->
  first (divided u i n) = nth i u 0 /\ final (divided u i n) = nth (S i) u 0 /\ (2 <= length (divided u i n))%nat /\
  nondecreasing (divided u i n) /\ steps_at_most (H / INR n) (divided u i n).
Proof.
  intros Hn Nu Su Hi. destruct (divided_facts u i n Hn Nu Hi) as (A1 & A2 & A3 & A4).
  repeat (split; [assumption|]). rewrite divided_is_linspace by auto.
  apply (steps_at_most_mono ((nth (S i) u 0 - nth i u 0) / INR (S n - 1))); [|apply linspace_steps; lia].
  replace (S n - 1)%nat with n by lia. apply Rmult_le_compat_r.
  - apply Rlt_le, Rinv_0_lt_compat, lt_0_INR. lia.
  - apply grid_step_at_most; auto.
Qed.
Lemma place_dist k v q p : (k < 3)%nat -> dist (place k v q) (place k v p) <= Rabs (nth 0 q 0 - nth 0 p 0) + Rabs (nth 1 q 0 - nth 1 p 0).
Proof.
  intros Hk. set (a := nth 0 q 0 - nth 0 p 0). set (b := nth 1 q 0 - nth 1 p 0).
  assert (E : dist (place k v q) (place k v p) = sqrt (a * a + b * b)).
  { unfold dist, normR. f_equal. destruct k as [|[|[|k]]]; try lia; unfold place, sumR, a, b; cbn [map2 map fold_right]; ring. }
  rewrite E. pose proof (Rabs_pos a). pose proof (Rabs_pos b).
  rewrite <- (sqrt_Rsqr (Rabs a + Rabs b)) by lra. apply sqrt_le_1_alt.
  assert (A : a * a = Rabs a * Rabs a) by (rewrite <- Rabs_mult, Rabs_right; auto; apply Rle_ge, Rle_0_sqr).
  assert (B : b * b = Rabs b * Rabs b) by (rewrite <- Rabs_mult, Rabs_right; auto; apply Rle_ge, Rle_0_sqr).
  unfold Rsqr. rewrite A, B. nra.
Qed.
Lemma side_error rule nodes weights K H n k val u v D g X (Q : nat -> nat -> R) M M' delta :
  sound_rule rule nodes weights -> reference_exact K nodes weights ->
  Forall (fun w => 0 <= w) weights -> sumR weights = 2 -> Forall (fun x => -1 <= x <= 1) nodes ->
  (k < 3)%nat -> (1 <= n)%nat ->
  (2 <= length u)%nat -> (2 <= length v)%nat -> nondecreasing u -> nondecreasing v -> steps_at_most H u -> steps_at_most H v ->
  openset 3 D -> convex D -> (forall q, rect u v q -> D (place k val q)) -> smooth 3 D 3 g -> derivatives_below 3 D g M ->
  0 <= M -> 0 < delta -> (forall q, rect u v q -> delta <= dist X (place k val q)) ->
  smooth_box (covered [u; v]) K M' (fun q => g (place k val q) / dist X (place k val q)) ->
  (forall i j, (S i < length u)%nat -> (S j < length v)%nat -> quad2 rule (divided u i n) (divided v j n)
     (fun q => plane_taylor (first_axis k) (second_axis k) g (place k val [middle u i; middle v j]) (place k val q) / dist X (place k val q)) (Q i j)) ->
  Rabs (total (length u - 1) (fun i => total (length v - 1) (fun j => Q i j)) -
        rect_integral u v (fun q => g (place k val q) / dist X (place k val q)))
  <= (M * H ^ 3 / 6 / delta + 4 * M' / INR (fact (S K)) * (H / INR n / 2) ^ S K) * (extent u * extent v).
Proof.
  intros SR HK Hw Hs Hn K3 N1 Lu Lv Nu Nv Su Sv HO HC HD HS HM M0 Hd HX HF HQ.
  set (T := M * H ^ 3 / 6 / delta).
  replace (T + 4 * M' / INR (fact (S K)) * (H / INR n / 2) ^ S K) with (T + 2 * (2 * M' / INR (fact (S K)) * (H / INR n / 2) ^ S K)) by (unfold Rdiv; ring).
  unfold rect_integral, extent.
  apply (cells_error rule nodes weights K (H / INR n) u v (fun i => divided u i n) (fun j => divided v j n)
    (fun i j q => plane_taylor (first_axis k) (second_axis k) g (place k val [middle u i; middle v j]) (place k val q) / dist X (place k val q)) Q T M'); auto;
    [intros; apply divided_ok; auto..|].
  intros i j x y Hi Hj Hx Hy. cbv beta.
  destruct (middle_near H u i x Nu Su Hi Hx) as (B1 & B2 & B3). destruct (middle_near H v j y Nv Sv Hj Hy) as (C1 & C2 & C3).
  assert (R1 : rect u v [x; y]) by (exists x, y; auto). assert (R2 : rect u v [middle u i; middle v j]) by (eexists; eexists; eauto).
  pose proof (place_dist k val [x; y] [middle u i; middle v j] K3) as DL. cbn [nth] in DL.
  rewrite plane_taylor_taylor; auto.
  2:{ apply (schwarz_n 3 D g); auto.
      - destruct HS as [S1 S2]. split; auto. intros l Hl. exact (proj1 (S2 l Hl)).
      - destruct k as [|[|k]]; cbn; lia.
      - destruct k as [|[|[|k]]]; cbn; lia. }
  set (c := place k val [middle u i; middle v j]) in *. set (z := place k val [x; y]) in *.
  pose proof (taylor_remainder D 2 g M c z HO HC HS HM (HD _ R2) (HD _ R1)) as TR.
  pose proof (HX _ R1) as X1. fold z in X1.
  assert (D0 : 0 <= dist z c) by apply sqrt_pos.
  replace (taylor 2 g c z / dist X z - g z / dist X z) with ((taylor 2 g c z - g z) * / dist X z) by (unfold Rdiv; ring).
  rewrite Rabs_mult, (Rabs_right (/ dist X z)) by (apply Rle_ge, Rlt_le, Rinv_0_lt_compat; lra).
  unfold T. apply Rmult_le_compat; [apply Rabs_pos|apply Rlt_le, Rinv_0_lt_compat; lra| |apply Rinv_le_contravar; auto].
  eapply Rle_trans; [exact TR|]. replace (INR (fact 3)) with 6 by (cbn; lra).
  apply Rmult_le_compat_r; [lra|]. apply Rmult_le_compat_l; auto. apply pow_incr. lra.
Qed.
Lemma dist_same p : dist p p = 0.
Proof.
  unfold dist, normR. rewrite <- sqrt_0. f_equal. induction p as [|a p IH]; [reflexivity|].
  unfold sumR in *. cbn [map2 map fold_right]. rewrite IH. ring.
Qed.
Lemma six_error (A B C : nat -> bool -> R) : (forall k b, (k < 3)%nat -> Rabs (A k b - B k b) <= C k b) ->
  Rabs (six A - six B) <= six C.
Proof.
  intros H. unfold six.
  pose proof (H 0%nat false ltac:(lia)) as B1. pose proof (H 0%nat true ltac:(lia)) as B2. pose proof (H 1%nat false ltac:(lia)) as B3.
  pose proof (H 1%nat true ltac:(lia)) as B4. pose proof (H 2%nat false ltac:(lia)) as B5. pose proof (H 2%nat true ltac:(lia)) as B6.
  apply Rabs_le_between in B1, B2, B3, B4, B5, B6. apply Rabs_le. lra.
Qed.
