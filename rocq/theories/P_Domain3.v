(** Proofs about the disk, annulus and sphere transformations of domain.py. *)
From Coquelicot Require Import Coquelicot.
From Verif Require Import Base BaseFacts M_RFun S_RFun P_Vec M_Domain S_Domain P_Domain1.

(** *** angles *)
Lemma angle_exists a b : a * a + b * b = 1 -> exists t, 0 <= t < 2 * PI /\ cos t = a /\ sin t = b.
Proof.
  intros H. assert (Ha : -1 <= a <= 1) by (split; nra). pose proof PI_RGT_0 as Ppi.
  pose proof (acos_bound a) as B. pose proof (cos_acos a Ha) as C. pose proof (sin_acos a Ha) as S.
  assert (SQ : sqrt (1 - Rsqr a) = Rabs b).
  { replace (1 - Rsqr a) with (Rsqr b) by (unfold Rsqr; lra). apply sqrt_Rsqr_abs. }
  rewrite SQ in S. destruct (Rle_dec 0 b) as [Hb|Hb].
  - exists (acos a). rewrite Rabs_right in S by lra. split; [lra|auto].
  - exists (2 * PI - acos a). rewrite Rabs_left in S by lra.
    assert (acos a <> 0) by (intros E; rewrite E, sin_0 in S; lra).
    split; [lra|]. rewrite cos_minus, sin_minus, cos_2PI, sin_2PI, C, S. split; ring.
Qed.
Lemma angle_unique s t : 0 <= s < 2 * PI -> 0 <= t < 2 * PI -> cos s = cos t -> sin s = sin t -> s = t.
Proof.
  assert (K : forall s t, 0 <= s < 2 * PI -> 0 <= t < 2 * PI -> cos s = cos t -> sin s = sin t -> ~ s < t).
  { intros a b Ha Hb HC HS L.
    assert (E : cos (b - a) = 1).
    { rewrite cos_minus, HC, HS. pose proof (sin2_cos2 b). unfold Rsqr in H. lra. }
    replace (b - a) with (2 * ((b - a) / 2)) in E by field. rewrite cos_2a_sin in E.
    assert (0 < sin ((b - a) / 2)) by (apply sin_gt_0; lra). nra. }
  intros Hs Ht HC HS. destruct (Rtotal_order s t) as [L|[E|L]]; auto.
  - exfalso. eapply (K s t); eauto.
  - exfalso. eapply (K t s); eauto.
Qed.

Lemma mod1_half x : 0 <= mod1 x < 1.
Proof. apply mod1_range. Qed.

Lemma dist2 a b c d : dist [a; b] [c; d] = sqrt ((a - c) * (a - c) + (b - d) * (b - d)).
Proof. unfold dist, normR, vsub, sumR. simpl. f_equal. ring. Qed.
Lemma dist3 a b c d e f : dist [a; b; c] [d; e; f] = sqrt ((a - d) * (a - d) + (b - e) * (b - e) + (c - f) * (c - f)).
Proof. unfold dist, normR, vsub, sumR. simpl. f_equal. ring. Qed.
Lemma cs1 t : cos t * cos t + sin t * sin t = 1.
Proof. pose proof (sin2_cos2 t). unfold Rsqr in H. lra. Qed.

Lemma sos2 a b : 0 <= a * a + b * b.
Proof. nra. Qed.
Lemma sos3 a b c : 0 <= a * a + b * b + c * c.
Proof. nra. Qed.

Lemma sos2_0 a b : a * a + b * b = 0 -> a = 0 /\ b = 0.
Proof. intros; split; nra. Qed.
Lemma sos3_0 a b c : a * a + b * b + c * c = 0 -> a = 0 /\ b = 0 /\ c = 0.
Proof. intros; repeat split; nra. Qed.

(** *** annulus *)
Lemma annulus_rad_nonneg r1 r2 m : 0 <= r1 <= r2 -> 0 <= m -> 0 <= m * (r2 ^ 2 - r1 ^ 2) + r1 ^ 2.
Proof. intros H Hm. assert (0 <= r2 ^ 2 - r1 ^ 2) by nra. nra. Qed.
Lemma annulus_ok x0 x1 r1 r2 o1 o2 : 0 <= r1 <= r2 ->
  transform_annulus (A1 [x0; x1]) r1 r2 [o1; o2] =
  Ok [sqrt (mod1 x1 * (r2 ^ 2 - r1 ^ 2) + r1 ^ 2) * cos (2 * PI * mod1 x0) + o1;
      sqrt (mod1 x1 * (r2 ^ 2 - r1 ^ 2) + r1 ^ 2) * sin (2 * PI * mod1 x0) + o2].
Proof.
  intros H. unfold transform_annulus. pose proof (mod1_range x1).
  rewrite fsqrt_ok by (apply annulus_rad_nonneg; lra). reflexivity.
Qed.
Lemma polar_dist rho t o1 o2 : 0 <= rho -> dist [rho * cos t + o1; rho * sin t + o2] [o1; o2] = rho.
Proof.
  intros H. rewrite dist2. transitivity (sqrt (Rsqr rho)); [f_equal|apply sqrt_Rsqr; auto].
  unfold Rsqr. transitivity (rho * rho * (cos t * cos t + sin t * sin t)); [ring|]. rewrite cs1. ring.
Qed.
Lemma annulus_dist x0 x1 r1 r2 o1 o2 : 0 <= r1 <= r2 ->
  exists y, transform_annulus (A1 [x0; x1]) r1 r2 [o1; o2] = Ok y /\
    r1 <= dist y [o1; o2] /\ (r1 < r2 -> dist y [o1; o2] < r2) /\ dist y [o1; o2] <= r2 /\
    dist y [o1; o2] ^ 2 - r1 ^ 2 = mod1 x1 * (r2 ^ 2 - r1 ^ 2) /\
    y = [dist y [o1; o2] * cos (2 * PI * mod1 x0) + o1; dist y [o1; o2] * sin (2 * PI * mod1 x0) + o2].
Proof.
  intros H. rewrite annulus_ok by auto. eexists; split; [reflexivity|]. pose proof (mod1_range x1) as M.
  pose proof (annulus_rad_nonneg r1 r2 (mod1 x1) H ltac:(lra)) as P.
  set (q := mod1 x1 * (r2 ^ 2 - r1 ^ 2) + r1 ^ 2) in *.
  rewrite polar_dist by apply sqrt_pos.
  assert (Q1 : r1 * r1 <= q) by (unfold q; assert (0 <= r2 ^ 2 - r1 ^ 2) by nra; nra).
  assert (Q2 : q <= r2 * r2) by (unfold q; assert (0 <= r2 ^ 2 - r1 ^ 2) by nra; nra).
  repeat split.
  - rewrite <- (sqrt_square r1) by lra. apply sqrt_le_1; nra.
  - intros L. rewrite <- (sqrt_square r2) by lra. apply sqrt_lt_1; try nra.
    unfold q. assert (HD : 0 < r2 ^ 2 - r1 ^ 2) by nra.
    pose proof (Rmult_lt_0_compat (1 - mod1 x1) _ ltac:(lra) HD). nra.
  - rewrite <- (sqrt_square r2) by lra. apply sqrt_le_1; nra.
  - rewrite pow2_sqrt by auto. unfold q. ring.
Qed.
Lemma annulus_onto r1 r2 o1 o2 y1 y2 : 0 <= r1 < r2 -> r1 <= dist [y1; y2] [o1; o2] < r2 ->
  exists x0 x1, 0 <= x0 < 1 /\ 0 <= x1 < 1 /\ transform_annulus (A1 [x0; x1]) r1 r2 [o1; o2] = Ok [y1; y2].
Proof.
  intros Hr Hd. set (rho := dist [y1; y2] [o1; o2]) in *.
  assert (RS : rho * rho = (y1 - o1) * (y1 - o1) + (y2 - o2) * (y2 - o2)).
  { unfold rho. rewrite dist2. apply sqrt_sqrt, sos2. }
  pose proof PI_RGT_0 as Ppi.
  assert (A : exists t, 0 <= t < 2 * PI /\ rho * cos t = y1 - o1 /\ rho * sin t = y2 - o2).
  { destruct (Req_dec rho 0) as [Z|Z].
    - exists 0. rewrite Z in RS |- *. rewrite Rmult_0_l in RS. symmetry in RS.
      apply sos2_0 in RS as [E1 E2]. rewrite E1, E2. split; [lra|]. split; ring.
    - destruct (angle_exists ((y1 - o1) / rho) ((y2 - o2) / rho)) as (t & Ht & C & S).
      { replace ((y1 - o1) / rho * ((y1 - o1) / rho) + (y2 - o2) / rho * ((y2 - o2) / rho)) with
          (((y1 - o1) * (y1 - o1) + (y2 - o2) * (y2 - o2)) / (rho * rho)) by (field; auto).
        rewrite <- RS. field. auto. }
      exists t. rewrite C, S. split; auto. split; field; auto. }
  destruct A as (t & Ht & C & S).
  assert (D : 0 < r2 ^ 2 - r1 ^ 2) by nra.
  exists (t / (2 * PI)), ((rho ^ 2 - r1 ^ 2) / (r2 ^ 2 - r1 ^ 2)).
  assert (X0 : 0 <= t / (2 * PI) < 1).
  { split; [apply Rmult_le_pos; [lra|apply Rlt_le, Rinv_0_lt_compat; lra]|].
    apply Rmult_lt_reg_r with (2 * PI); [lra|]. replace (t / (2 * PI) * (2 * PI)) with t by (field; lra). lra. }
  assert (X1 : 0 <= (rho ^ 2 - r1 ^ 2) / (r2 ^ 2 - r1 ^ 2) < 1).
  { split; [apply Rmult_le_pos; [nra|apply Rlt_le, Rinv_0_lt_compat; lra]|].
    apply Rmult_lt_reg_r with (r2 ^ 2 - r1 ^ 2); auto.
    replace ((rho ^ 2 - r1 ^ 2) / (r2 ^ 2 - r1 ^ 2) * (r2 ^ 2 - r1 ^ 2)) with (rho ^ 2 - r1 ^ 2) by (field; lra). nra. }
  split; auto. split; auto. rewrite annulus_ok by lra. rewrite !mod1_id by auto.
  replace ((rho ^ 2 - r1 ^ 2) / (r2 ^ 2 - r1 ^ 2) * (r2 ^ 2 - r1 ^ 2) + r1 ^ 2) with (rho * rho) by (field; lra).
  rewrite sqrt_square by lra. replace (2 * PI * (t / (2 * PI))) with t by (field; lra).
  rewrite C, S. do 2 f_equal; [ring|f_equal; ring].
Qed.
Lemma annulus_inj r1 r2 o1 o2 x0 x1 z0 z1 : 0 <= r1 < r2 -> 0 <= x0 < 1 -> 0 <= x1 < 1 -> 0 <= z0 < 1 -> 0 <= z1 < 1 ->
  (0 < r1 \/ 0 < x1) ->
  transform_annulus (A1 [x0; x1]) r1 r2 [o1; o2] = transform_annulus (A1 [z0; z1]) r1 r2 [o1; o2] -> x0 = z0 /\ x1 = z1.
Proof.
  intros Hr H0 H1 G0 G1 Hp E.
  destruct (annulus_dist x0 x1 r1 r2 o1 o2) as (y & Ey & Y1 & Y2 & Y3 & Y4 & Y5); [lra|].
  destruct (annulus_dist z0 z1 r1 r2 o1 o2) as (w & Ew & W1 & W2 & W3 & W4 & W5); [lra|].
  rewrite Ey, Ew in E. injection E as <-.
  assert (D : 0 < r2 ^ 2 - r1 ^ 2) by nra. rewrite !mod1_id in * by auto.
  assert (EX : x1 = z1) by (apply Rmult_eq_reg_r with (r2 ^ 2 - r1 ^ 2); lra). split; auto.
  set (rho := dist y [o1; o2]) in *.
  assert (P : 0 < rho).
  { destruct (Rle_lt_or_eq_dec 0 rho) as [L|L]; auto; [lra|]. rewrite <- L in Y4. nra. }
  rewrite Y5 in W5. injection W5 as C S. pose proof PI_RGT_0.
  assert (EA : 2 * PI * x0 = 2 * PI * z0).
  { apply angle_unique; try nra; apply Rmult_eq_reg_l with rho; lra. }
  apply Rmult_eq_reg_l with (2 * PI); lra.
Qed.
Lemma disk_includes x0 x1 r o1 o2 : 0 < r ->
  exists y, transform_circle (A1 [x0; x1]) r [o1; o2] = Ok y /\ spherical_includes r [o1; o2] y = true /\
    dist y [o1; o2] ^ 2 / r ^ 2 = mod1 x1.
Proof.
  intros Hr. destruct (annulus_dist x0 x1 0 r o1 o2) as (y & Ey & Y1 & Y2 & Y3 & Y4 & Y5); [lra|].
  exists y. split; auto. split.
  - unfold spherical_includes. apply Rltb_true. apply (Y2 Hr).
  - replace (dist y [o1; o2] ^ 2) with (mod1 x1 * r ^ 2) by lra. field. lra.
Qed.

(** local behaviour of mod1 *)
Lemma mod1_loc x (P : R -> Prop) : 0 < x < 1 -> (forall t, 0 < t < 1 -> P t) -> locally x P.
Proof.
  intros Hx H. assert (D : 0 < Rmin x (1 - x)) by (apply Rmin_pos; lra).
  exists (mkposreal _ D). intros t Ht. apply H. unfold ball in Ht; simpl in Ht; unfold AbsRing_ball in Ht; simpl in Ht.
  unfold abs, minus, plus, opp in Ht; simpl in Ht.
  pose proof (Rmin_l x (1 - x)). pose proof (Rmin_r x (1 - x)). apply Rabs_def2 in Ht. lra.
Qed.

Lemma is_derive_sqrt_aff D c x : 0 < x * D + c -> is_derive (fun t => sqrt (t * D + c)) x (D / (2 * sqrt (x * D + c))).
Proof.
  intros H. pose proof (sqrt_lt_R0 _ H). auto_derive; auto. field. lra.
Qed.
Lemma d_aff (f : R -> R) x l k c : is_derive f x l -> is_derive (fun t => f t * k + c) x (l * k).
Proof. intros H. auto_derive; [eexists; exact H|]. replace (Derive (fun t => f t) x) with l by (symmetry; apply is_derive_unique; exact H). ring. Qed.
Lemma d_aff3 (f : R -> R) x l a k c : is_derive f x l -> is_derive (fun t => a * f t * k + c) x (a * l * k).
Proof. intros H. auto_derive; [eexists; exact H|]. replace (Derive (fun t => f t) x) with l by (symmetry; apply is_derive_unique; exact H). ring. Qed.
Lemma annulus_jacobian r1 r2 o1 o2 x0 x1 : 0 <= r1 < r2 -> 0 < x0 < 1 -> 0 < x1 < 1 ->
  exists J, jacobian (fun x => transform_annulus (A1 x) r1 r2 [o1; o2]) [x0; x1] J 2 /\
    det22 J = - annulus_support r1 r2.
Proof.
  intros Hr H0 H1.
  set (D := r2 ^ 2 - r1 ^ 2). assert (PD : 0 < D) by (unfold D; nra).
  set (q := fun t => t * D + r1 ^ 2). assert (PQ : forall t, 0 < t -> 0 < q t) by (intros; unfold q; nra).
  set (rho := sqrt (q x1)). assert (PR : 0 < rho) by (apply sqrt_lt_R0; auto; apply PQ; lra).
  assert (DS : is_derive (fun t => sqrt (q t)) x1 (D / (2 * rho))) by (apply is_derive_sqrt_aff; apply (PQ x1); lra).
  exists (fun i j => match i, j with
     | O, O => - rho * sin (2 * PI * x0) * (2 * PI)
     | O, _ => D / (2 * rho) * cos (2 * PI * x0)
     | _, O => rho * cos (2 * PI * x0) * (2 * PI)
     | _, _ => D / (2 * rho) * sin (2 * PI * x0) end).
  split.
  - intros i j Hi Hj. simpl in Hj.
    destruct i as [|[|i]]; [| |lia]; destruct j as [|[|j]]; try lia; simpl upd; simpl nth.
    + eapply is_derive_ext_loc with (f := fun t => rho * cos (2 * PI * t) + o1).
      { apply mod1_loc; auto. intros t Ht. rewrite annulus_ok by lra. simpl. rewrite !mod1_id by lra. reflexivity. }
      auto_derive; auto. ring.
    + eapply is_derive_ext_loc with (f := fun t => sqrt (q t) * cos (2 * PI * x0) + o1).
      { apply mod1_loc; auto. intros t Ht. rewrite annulus_ok by lra. simpl. rewrite !mod1_id by lra. reflexivity. }
      apply (d_aff (fun t => sqrt (q t))). exact DS.
    + eapply is_derive_ext_loc with (f := fun t => rho * sin (2 * PI * t) + o2).
      { apply mod1_loc; auto. intros t Ht. rewrite annulus_ok by lra. simpl. rewrite !mod1_id by lra. reflexivity. }
      auto_derive; auto. ring.
    + eapply is_derive_ext_loc with (f := fun t => sqrt (q t) * sin (2 * PI * x0) + o2).
      { apply mod1_loc; auto. intros t Ht. rewrite annulus_ok by lra. simpl. rewrite !mod1_id by lra. reflexivity. }
      apply (d_aff (fun t => sqrt (q t))). exact DS.
  - unfold det22, annulus_support. fold D. pose proof (cs1 (2 * PI * x0)) as CS.
    transitivity (- PI * D * (cos (2 * PI * x0) * cos (2 * PI * x0) + sin (2 * PI * x0) * sin (2 * PI * x0))).
    + field. lra.
    + rewrite CS. ring.
Qed.

(** *** sphere *)
Definition cbrt (m : R) : R := if Req_EM_T m 0 then 0 else Rpower m (1 / 3).
Lemma fpow_cbrt m : 0 <= m -> fpow m (1 / 3) = Ok (cbrt m).
Proof.
  intros H. unfold fpow, cbrt. destruct (Rlt_dec m 0); [lra|]. destruct (Req_EM_T m 0); auto.
  destruct (Req_EM_T (1 / 3) 0); [lra|]. destruct (Rlt_dec (1 / 3) 0); [lra|auto].
Qed.
Lemma cbrt_pow3 m : 0 <= m -> cbrt m ^ 3 = m.
Proof.
  intros H. unfold cbrt. destruct (Req_EM_T m 0) as [->|N]; [ring|].
  rewrite <- Rpower_pow by apply exp_pos. rewrite Rpower_mult. replace (1 / 3 * INR 3) with 1 by (simpl; field).
  apply Rpower_1. lra.
Qed.
Lemma cbrt_nonneg m : 0 <= cbrt m.
Proof. unfold cbrt. destruct (Req_EM_T m 0); [lra|]. apply Rlt_le, exp_pos. Qed.
Lemma cube_inj a b : 0 <= a -> 0 <= b -> a ^ 3 = b ^ 3 -> a = b.
Proof.
  intros Ha Hb E. assert (F : (a - b) * (a * a + a * b + b * b) = 0) by (simpl in E; nra).
  apply Rmult_integral in F as [F|F]; [lra|]. nra.
Qed.
Lemma Rpow_lt_incr' a : 0 <= a < 1 -> a ^ 3 < 1 ^ 3.
Proof. intros H. assert (a * a < 1) by nra. simpl. nra. Qed.
Lemma cube_lt a b : 0 <= a -> 0 <= b -> a ^ 3 < b ^ 3 -> a < b.
Proof.
  intros Ha Hb E. apply Rnot_le_lt. intros L.
  assert (b ^ 3 <= a ^ 3) by (apply pow_incr; lra). lra.
Qed.
Lemma cbrt_lt1 m : 0 <= m < 1 -> cbrt m < 1.
Proof.
  intros H. apply cube_lt; [apply cbrt_nonneg|lra|]. rewrite cbrt_pow3 by lra. lra.
Qed.
Lemma u_range x : -1 <= 2 * mod1 x - 1 < 1.
Proof. pose proof (mod1_range x). lra. Qed.

Lemma sphere_ok x0 x1 x2 r o1 o2 o3 :
  transform_sphere (A1 [x0; x1; x2]) r [o1; o2; o3] =
  let u := 2 * mod1 x0 - 1 in let phi := 2 * PI * mod1 x1 in let rad := cbrt (mod1 x2) in let q := sqrt (1 - u ^ 2) in
  Ok [rad * cos phi * q * r + o1; rad * sin phi * q * r + o2; rad * u * r + o3].
Proof.
  unfold transform_sphere. pose proof (mod1_range x2). pose proof (u_range x0).
  rewrite fpow_cbrt by lra. cbn [bind]. rewrite fsqrt_ok by nra. reflexivity.
Qed.
Lemma spherical_dist a t u r o1 o2 o3 : 0 <= a -> 0 <= r -> -1 <= u <= 1 ->
  dist [a * cos t * sqrt (1 - u ^ 2) * r + o1; a * sin t * sqrt (1 - u ^ 2) * r + o2; a * u * r + o3] [o1; o2; o3] = a * r.
Proof.
  intros Ha Hr Hu. rewrite dist3. transitivity (sqrt (Rsqr (a * r))); [f_equal|apply sqrt_Rsqr; nra].
  - assert (Q : sqrt (1 - u ^ 2) * sqrt (1 - u ^ 2) = 1 - u ^ 2) by (apply sqrt_sqrt; nra).
    pose proof (cs1 t) as CS. unfold Rsqr.
    transitivity (a * a * r * r * ((cos t * cos t + sin t * sin t) * (sqrt (1 - u ^ 2) * sqrt (1 - u ^ 2)) + u * u)).
    + ring.
    + rewrite CS, Q. ring.
Qed.
Lemma sphere_dist x0 x1 x2 r o1 o2 o3 : 0 < r ->
  exists y, transform_sphere (A1 [x0; x1; x2]) r [o1; o2; o3] = Ok y /\
    dist y [o1; o2; o3] < r /\ spherical_includes r [o1; o2; o3] y = true /\
    dist y [o1; o2; o3] ^ 3 / r ^ 3 = mod1 x2 /\
    nth 2 y 0 - o3 = dist y [o1; o2; o3] * (2 * mod1 x0 - 1).
Proof.
  intros Hr. rewrite sphere_ok. cbv zeta. eexists; split; [reflexivity|].
  pose proof (u_range x0) as U. pose proof (mod1_range x2) as M.
  assert (D : dist
    [cbrt (mod1 x2) * cos (2 * PI * mod1 x1) * sqrt (1 - (2 * mod1 x0 - 1) ^ 2) * r + o1;
    cbrt (mod1 x2) * sin (2 * PI * mod1 x1) * sqrt (1 - (2 * mod1 x0 - 1) ^ 2) * r + o2;
    cbrt (mod1 x2) * (2 * mod1 x0 - 1) * r + o3] [o1; o2; o3] = cbrt (mod1 x2) * r)
    by (apply spherical_dist; [apply cbrt_nonneg|lra|lra]).
  pose proof (cbrt_lt1 _ M). pose proof (cbrt_nonneg (mod1 x2)).
  split; [rewrite D; nra|]. split; [|split].
  - unfold spherical_includes. apply Rltb_true. change (dist
    [cbrt (mod1 x2) * cos (2 * PI * mod1 x1) * sqrt (1 - (2 * mod1 x0 - 1) ^ 2) * r + o1;
    cbrt (mod1 x2) * sin (2 * PI * mod1 x1) * sqrt (1 - (2 * mod1 x0 - 1) ^ 2) * r + o2;
    cbrt (mod1 x2) * (2 * mod1 x0 - 1) * r + o3] [o1; o2; o3] < r). rewrite D. nra.
  - rewrite D, Rpow_mult_distr, cbrt_pow3 by lra. field. lra.
  - rewrite D. simpl. ring.
Qed.

Lemma sphere_onto r o1 o2 o3 y1 y2 y3 : 0 < r -> dist [y1; y2; y3] [o1; o2; o3] < r ->
  (y1 <> o1 \/ y2 <> o2 \/ y3 <= o3) ->
  exists x0 x1 x2, 0 <= x0 < 1 /\ 0 <= x1 < 1 /\ 0 <= x2 < 1 /\
    transform_sphere (A1 [x0; x1; x2]) r [o1; o2; o3] = Ok [y1; y2; y3].
Proof.
  intros Hr Hd Hnp. set (R0 := dist [y1; y2; y3] [o1; o2; o3]) in *. pose proof PI_RGT_0 as Ppi.
  set (a := y1 - o1). set (b := y2 - o2). set (c := y3 - o3).
  assert (RS : R0 * R0 = a * a + b * b + c * c).
  { unfold R0. rewrite dist3. apply sqrt_sqrt, sos3. }
  assert (RP : 0 <= R0) by (unfold R0; apply normR_nonneg).
  assert (X2 : 0 <= (R0 / r) ^ 3 < 1).
  { assert (0 <= R0 / r < 1).
    { split; [apply Rmult_le_pos; [lra|apply Rlt_le, Rinv_0_lt_compat; lra]|].
      apply Rmult_lt_reg_r with r; auto. replace (R0 / r * r) with R0 by (field; lra). lra. }
    split; [apply pow_le; lra|]. apply Rlt_le_trans with (1 ^ 3); [|lra].
    apply (Rpow_lt_incr' (R0 / r)); lra. }
  assert (CB : cbrt (mod1 ((R0 / r) ^ 3)) = R0 / r).
  { rewrite mod1_id by auto. apply cube_inj; [apply cbrt_nonneg| |apply cbrt_pow3; lra].
    apply Rmult_le_pos; [lra|apply Rlt_le, Rinv_0_lt_compat; lra]. }
  destruct (Rle_lt_or_eq_dec _ _ RP) as [PR|ZR].
  - (* positive radius *)
    set (u := c / R0).
    assert (UU : u * u * (R0 * R0) = c * c) by (unfold u; field; lra).
    assert (NP : c < R0).
    { destruct (Rlt_dec c R0); auto. exfalso. assert (L : R0 <= c) by lra.
      assert (Z : a * a + b * b = 0).
      { assert (R0 * R0 <= c * c) by (apply Rmult_le_compat; lra). pose proof (sos2 a b). lra. }
      apply sos2_0 in Z as [A B]. unfold a, b, c in *. destruct Hnp as [N|[N|N]]; lra. }
    assert (Ur : -1 <= u < 1).
    { assert (- R0 <= c) by nra. split.
      - apply Rmult_le_reg_r with R0; auto. unfold u. replace (c / R0 * R0) with c by (field; lra). lra.
      - apply Rmult_lt_reg_r with R0; auto. unfold u. replace (c / R0 * R0) with c by (field; lra). lra. }
    set (q := sqrt (1 - u ^ 2)). assert (QQ : q * q = 1 - u * u) by (unfold q; rewrite sqrt_sqrt; nra).
    assert (Qn : 0 <= q) by apply sqrt_pos.
    assert (QR : (R0 * q) * (R0 * q) = a * a + b * b).
    { replace ((R0 * q) * (R0 * q)) with (R0 * R0 * (q * q)) by ring. rewrite QQ. nra. }
    assert (A : exists t, 0 <= t < 2 * PI /\ R0 * q * cos t = a /\ R0 * q * sin t = b).
    { destruct (Req_dec (R0 * q) 0) as [Z|Z].
      - exists 0. rewrite Z in QR |- *. rewrite Rmult_0_l in QR. symmetry in QR.
      apply sos2_0 in QR as [E1 E2]. rewrite E1, E2. split; [lra|]. split; ring.
      - destruct (angle_exists (a / (R0 * q)) (b / (R0 * q))) as (t & Ht & C & S).
        { replace (a / (R0 * q) * (a / (R0 * q)) + b / (R0 * q) * (b / (R0 * q))) with
            ((a * a + b * b) / ((R0 * q) * (R0 * q))) by (field; split; intro; apply Z; nra).
          rewrite <- QR. field. split; intro; apply Z; nra. }
        exists t. rewrite C, S. split; auto. split; field; split; intro; apply Z; nra. }
    destruct A as (t & Ht & C & S).
    assert (X0 : 0 <= (u + 1) / 2 < 1) by lra.
    assert (X1 : 0 <= t / (2 * PI) < 1).
    { split; [apply Rmult_le_pos; [lra|apply Rlt_le, Rinv_0_lt_compat; lra]|].
      apply Rmult_lt_reg_r with (2 * PI); [lra|]. replace (t / (2 * PI) * (2 * PI)) with t by (field; lra). lra. }
    exists ((u + 1) / 2), (t / (2 * PI)), ((R0 / r) ^ 3). repeat (split; auto; try lra).
    rewrite sphere_ok. cbv zeta. rewrite CB. rewrite !mod1_id by auto.
    replace (2 * ((u + 1) / 2) - 1) with u by field. replace (2 * PI * (t / (2 * PI))) with t by (field; lra).
    fold q.
    replace (R0 / r * cos t * q * r) with (R0 * q * cos t) by (field; lra).
    replace (R0 / r * sin t * q * r) with (R0 * q * sin t) by (field; lra).
    rewrite C, S. replace (R0 / r * u * r) with c by (unfold u; field; lra). unfold a, b, c.
    replace (y1 - o1 + o1) with y1 by ring. replace (y2 - o2 + o2) with y2 by ring. replace (y3 - o3 + o3) with y3 by ring. reflexivity.
  - exists 0, 0, ((R0 / r) ^ 3). repeat (split; auto; try lra). rewrite sphere_ok. cbv zeta. rewrite CB.
    rewrite <- ZR in *. assert (a = 0 /\ b = 0 /\ c = 0) as (A & B & C) by (apply sos3_0; lra).
    unfold a, b, c in *. replace (0 / r) with 0 by (field; lra).
    replace y1 with o1 by lra. replace y2 with o2 by lra. replace y3 with o3 by lra.
    do 2 f_equal; [ring|]. f_equal; [ring|]. f_equal; ring.
Qed.

Lemma is_derive_q x : 0 < 1 - (2 * x - 1) ^ 2 ->
  is_derive (fun t => sqrt (1 - (2 * t - 1) ^ 2)) x (- 2 * (2 * x - 1) / sqrt (1 - (2 * x - 1) ^ 2)).
Proof.
  intros H. pose proof (sqrt_lt_R0 _ H) as P.
  auto_derive; [ring_simplify; ring_simplify in H; lra|].
  match goal with |- context [/ (2 * sqrt ?a)] => replace (sqrt a) with (sqrt (1 - (2 * x - 1) ^ 2)) by (f_equal; ring) end.
  field. lra.
Qed.
Lemma sphere_jacobian r o1 o2 o3 x0 x1 x2 : 0 < r -> 0 < x0 < 1 -> 0 < x1 < 1 -> 0 < x2 < 1 ->
  exists J, jacobian (fun x => transform_sphere (A1 x) r [o1; o2; o3]) [x0; x1; x2] J 3 /\
    det33 J = - sphere_support r.
Proof.
  intros Hr H0 H1 H2.
  set (u := 2 * x0 - 1). set (q := sqrt (1 - u ^ 2)).
  assert (PQ2 : 0 < 1 - u ^ 2) by (unfold u; nra).
  assert (PQ : 0 < q) by (apply sqrt_lt_R0; auto).
  assert (QQ : q * q = 1 - u ^ 2) by (apply sqrt_sqrt; lra).
  set (rad := cbrt x2). assert (RR : rad ^ 3 = x2) by (apply cbrt_pow3; lra).
  assert (PR : 0 < rad).
  { unfold rad, cbrt. destruct (Req_EM_T x2 0); [lra|]. apply exp_pos. }
  set (f := 2 * PI * x1).
  set (rad' := rad / (3 * x2)).
  assert (DR : is_derive cbrt x2 rad').
  { apply is_derive_ext_loc with (f := fun t => exp (1 / 3 * ln t)).
    - apply mod1_loc; auto. intros t Ht. unfold cbrt. destruct (Req_EM_T t 0); [lra|]. reflexivity.
    - auto_derive; [lra|]. unfold rad', rad, cbrt. destruct (Req_EM_T x2 0); [lra|]. unfold Rpower. field. lra. }
  assert (DQ : is_derive (fun t => sqrt (1 - (2 * t - 1) ^ 2)) x0 (- 2 * u / q)).
  { apply (is_derive_q x0). exact PQ2. }
  exists (fun i j => match i, j with
     | O, O => rad * cos f * (- 2 * u / q) * r
     | O, S O => rad * (- sin f * (2 * PI)) * q * r
     | O, _ => rad' * cos f * q * r
     | S O, O => rad * sin f * (- 2 * u / q) * r
     | S O, S O => rad * (cos f * (2 * PI)) * q * r
     | S O, _ => rad' * sin f * q * r
     | _, O => rad * 2 * r
     | _, S O => 0
     | _, _ => rad' * u * r end).
  split.
  - intros i j Hi Hj. simpl in Hj.
    destruct i as [|[|[|i]]]; [| | |lia]; destruct j as [|[|[|j]]]; try lia; simpl upd; simpl nth.
    + eapply is_derive_ext_loc with (f := fun t => rad * cos f * sqrt (1 - (2 * t - 1) ^ 2) * r + o1).
      { apply mod1_loc; auto. intros t Ht. rewrite sphere_ok. cbv zeta. cbn [coord nth]. rewrite !mod1_id by lra. reflexivity. }
      apply (d_aff3 (fun t => sqrt (1 - (2 * t - 1) ^ 2))). exact DQ.
    + eapply is_derive_ext_loc with (f := fun t => rad * cos (2 * PI * t) * q * r + o1).
      { apply mod1_loc; auto. intros t Ht. rewrite sphere_ok. cbv zeta. cbn [coord nth]. rewrite !mod1_id by lra. reflexivity. }
      auto_derive; auto. fold f. ring.
    + eapply is_derive_ext_loc with (f := fun t => cbrt t * cos f * q * r + o1).
      { apply mod1_loc; auto. intros t Ht. rewrite sphere_ok. cbv zeta. cbn [coord nth]. rewrite !mod1_id by lra. reflexivity. }
      auto_derive; [exists rad'; exact DR|]. replace (Derive (fun t => cbrt t) x2) with rad' by (symmetry; apply is_derive_unique; exact DR). ring.
    + eapply is_derive_ext_loc with (f := fun t => rad * sin f * sqrt (1 - (2 * t - 1) ^ 2) * r + o2).
      { apply mod1_loc; auto. intros t Ht. rewrite sphere_ok. cbv zeta. cbn [coord nth]. rewrite !mod1_id by lra. reflexivity. }
      apply (d_aff3 (fun t => sqrt (1 - (2 * t - 1) ^ 2))). exact DQ.
    + eapply is_derive_ext_loc with (f := fun t => rad * sin (2 * PI * t) * q * r + o2).
      { apply mod1_loc; auto. intros t Ht. rewrite sphere_ok. cbv zeta. cbn [coord nth]. rewrite !mod1_id by lra. reflexivity. }
      auto_derive; auto. fold f. ring.
    + eapply is_derive_ext_loc with (f := fun t => cbrt t * sin f * q * r + o2).
      { apply mod1_loc; auto. intros t Ht. rewrite sphere_ok. cbv zeta. cbn [coord nth]. rewrite !mod1_id by lra. reflexivity. }
      auto_derive; [exists rad'; exact DR|]. replace (Derive (fun t => cbrt t) x2) with rad' by (symmetry; apply is_derive_unique; exact DR). ring.
    + eapply is_derive_ext_loc with (f := fun t => rad * (2 * t - 1) * r + o3).
      { apply mod1_loc; auto. intros t Ht. rewrite sphere_ok. cbv zeta. cbn [coord nth]. rewrite !mod1_id by lra. reflexivity. }
      auto_derive; auto. ring.
    + eapply is_derive_ext_loc with (f := fun t => rad * u * r + o3).
      { apply mod1_loc; auto. intros t Ht. rewrite sphere_ok. cbv zeta. cbn [coord nth]. rewrite !mod1_id by lra. reflexivity. }
      auto_derive; auto.
    + eapply is_derive_ext_loc with (f := fun t => cbrt t * u * r + o3).
      { apply mod1_loc; auto. intros t Ht. rewrite sphere_ok. cbv zeta. cbn [coord nth]. rewrite !mod1_id by lra. reflexivity. }
      auto_derive; [exists rad'; exact DR|]. replace (Derive (fun t => cbrt t) x2) with rad' by (symmetry; apply is_derive_unique; exact DR). ring.
  - unfold det33, sphere_support. pose proof (cs1 f) as CS.
    assert (R3 : rad * rad * rad' = 1 / 3).
    { unfold rad'. replace (rad * rad * (rad / (3 * x2))) with (rad ^ 3 / (3 * x2)) by (field; lra). rewrite RR. field. lra. }
    transitivity ((- 4 * PI * r ^ 3) * (rad * rad * rad') * (cos f * cos f + sin f * sin f) * (u * u + q * q)).
    + field. lra.
    + rewrite R3, CS, QQ. field.
Qed.

(** *** boundary of the sphere and of the disk *)
Lemma fpow_half a : 0 <= a -> fpow a (1 / 2) = Ok (sqrt a).
Proof.
  intros H. unfold fpow. destruct (Rlt_dec a 0); [lra|]. destruct (Req_EM_T a 0) as [->|N].
  - destruct (Req_EM_T (1 / 2) 0); [lra|]. destruct (Rlt_dec (1 / 2) 0); [lra|]. rewrite sqrt_0. auto.
  - replace (1 / 2) with (/ 2) by field. rewrite Rpower_sqrt by lra. auto.
Qed.
Lemma sphere_bnd_ok x0 x1 r o1 o2 o3 :
  transform_sphere_bnd (A1 [x0; x1]) r [o1; o2; o3] =
  let u := 2 * mod1 x0 - 1 in let phi := 2 * PI * mod1 x1 in
  Ok [cos phi * sqrt (1 - u ^ 2) * r + o1; sin phi * sqrt (1 - u ^ 2) * r + o2; u * r + o3].
Proof.
  unfold transform_sphere_bnd. pose proof (u_range x0). rewrite fpow_half by nra. reflexivity.
Qed.
Lemma sphere_bnd_dist x0 x1 r o1 o2 o3 : 0 <= r ->
  exists y, transform_sphere_bnd (A1 [x0; x1]) r [o1; o2; o3] = Ok y /\ dist y [o1; o2; o3] = r.
Proof.
  intros Hr. rewrite sphere_bnd_ok. cbv zeta. eexists; split; [reflexivity|].
  pose proof (u_range x0) as U. pose proof (spherical_dist 1 (2 * PI * mod1 x1) (2 * mod1 x0 - 1) r o1 o2 o3) as D.
  rewrite !Rmult_1_l in D. apply D; lra.
Qed.
Lemma circle_bnd_dist s r o1 o2 : 0 <= r ->
  exists y, transform_circle_bnd s r [o1; o2] = Ok y /\ dist y [o1; o2] = r.
Proof.
  intros Hr. eexists; split; [reflexivity|]. rewrite (Rmult_comm (cos _)), (Rmult_comm (sin _)).
  apply polar_dist; auto.
Qed.
Lemma circle_bnd_onto r o1 o2 y1 y2 : 0 < r -> dist [y1; y2] [o1; o2] = r ->
  exists s, 0 <= s < 1 /\ transform_circle_bnd s r [o1; o2] = Ok [y1; y2].
Proof.
  intros Hr Hd. assert (RS : r * r = (y1 - o1) * (y1 - o1) + (y2 - o2) * (y2 - o2)).
  { rewrite <- Hd at 1 2. rewrite dist2. apply sqrt_sqrt, sos2. }
  pose proof PI_RGT_0 as Ppi.
  destruct (angle_exists ((y1 - o1) / r) ((y2 - o2) / r)) as (t & Ht & C & S).
  { replace ((y1 - o1) / r * ((y1 - o1) / r) + (y2 - o2) / r * ((y2 - o2) / r)) with
      (((y1 - o1) * (y1 - o1) + (y2 - o2) * (y2 - o2)) / (r * r)) by (field; lra). rewrite <- RS. field. lra. }
  assert (X : 0 <= t / (4 * PI) < 1).
  { split; [apply Rmult_le_pos; [lra|apply Rlt_le, Rinv_0_lt_compat; lra]|].
    apply Rmult_lt_reg_r with (4 * PI); [lra|]. replace (t / (4 * PI) * (4 * PI)) with t by (field; lra). lra. }
  exists (t / (4 * PI)). split; auto. unfold transform_circle_bnd. rewrite mod1_id by auto.
  replace (4 * PI * (t / (4 * PI))) with t by (field; lra). rewrite C, S.
  do 2 f_equal; [field; lra|]. f_equal. field; lra.
Qed.
Lemma sphere_bnd_onto r o1 o2 o3 y1 y2 y3 : 0 < r -> dist [y1; y2; y3] [o1; o2; o3] = r ->
  [y1; y2; y3] <> [o1; o2; o3 + r] ->
  exists x0 x1, 0 <= x0 < 1 /\ 0 <= x1 < 1 /\ transform_sphere_bnd (A1 [x0; x1]) r [o1; o2; o3] = Ok [y1; y2; y3].
Proof.
  intros Hr Hd Hnp. pose proof PI_RGT_0 as Ppi.
  set (a := y1 - o1). set (b := y2 - o2). set (c := y3 - o3).
  assert (RS : r * r = a * a + b * b + c * c).
  { rewrite <- Hd at 1 2. rewrite dist3. apply sqrt_sqrt, sos3. }
  set (u := c / r). assert (UR : u * r = c) by (unfold u; field; lra).
  assert (NP : c < r).
  { destruct (Rlt_dec c r); auto. exfalso. assert (L : r <= c) by lra.
    assert (L2 : r * r <= c * c) by (apply Rmult_le_compat; lra). pose proof (sos2 a b) as P2.
    assert (Z : a * a + b * b = 0) by lra. apply sos2_0 in Z as [A B].
    assert (C : c = r) by (rewrite A, B in RS; nra).
    apply Hnp. unfold a, b, c in *. replace y1 with o1 by lra. replace y2 with o2 by lra. replace y3 with (o3 + r) by lra. auto. }
  assert (Ur : -1 <= u < 1).
  { assert (- r <= c) by nra. split; [apply Rmult_le_reg_r with r|apply Rmult_lt_reg_r with r]; lra. }
  set (q := sqrt (1 - u ^ 2)). assert (QQ : q * q = 1 - u * u) by (unfold q; rewrite sqrt_sqrt; nra).
  assert (Qn : 0 <= q) by apply sqrt_pos.
  assert (QR : (r * q) * (r * q) = a * a + b * b).
  { replace ((r * q) * (r * q)) with (r * r * (q * q)) by ring. rewrite QQ. nra. }
  assert (A : exists t, 0 <= t < 2 * PI /\ r * q * cos t = a /\ r * q * sin t = b).
  { destruct (Req_dec (r * q) 0) as [Z|Z].
    - exists 0. rewrite Z in QR |- *. rewrite Rmult_0_l in QR. symmetry in QR.
      apply sos2_0 in QR as [E1 E2]. rewrite E1, E2. split; [lra|]. split; ring.
    - destruct (angle_exists (a / (r * q)) (b / (r * q))) as (t & Ht & C & S).
      { replace (a / (r * q) * (a / (r * q)) + b / (r * q) * (b / (r * q))) with
          ((a * a + b * b) / ((r * q) * (r * q))) by (field; split; intro; apply Z; nra).
        rewrite <- QR. field. split; intro; apply Z; nra. }
      exists t. rewrite C, S. split; auto. split; field; split; intro; apply Z; nra. }
  destruct A as (t & Ht & C & S).
  assert (X0 : 0 <= (u + 1) / 2 < 1) by lra.
  assert (X1 : 0 <= t / (2 * PI) < 1).
  { split; [apply Rmult_le_pos; [lra|apply Rlt_le, Rinv_0_lt_compat; lra]|].
    apply Rmult_lt_reg_r with (2 * PI); [lra|]. replace (t / (2 * PI) * (2 * PI)) with t by (field; lra). lra. }
  exists ((u + 1) / 2), (t / (2 * PI)). split; auto. split; auto.
  rewrite sphere_bnd_ok. cbv zeta. rewrite !mod1_id by auto.
  replace (2 * ((u + 1) / 2) - 1) with u by field. replace (2 * PI * (t / (2 * PI))) with t by (field; lra). fold q.
  replace (cos t * q * r) with (r * q * cos t) by ring. replace (sin t * q * r) with (r * q * sin t) by ring.
  rewrite C, S, UR. unfold a, b, c.
  replace (y1 - o1 + o1) with y1 by ring. replace (y2 - o2 + o2) with y2 by ring. replace (y3 - o3 + o3) with y3 by ring. reflexivity.
Qed.
Lemma sphere_bnd_misses_pole r o1 o2 o3 x0 x1 : 0 < r ->
  transform_sphere_bnd (A1 [x0; x1]) r [o1; o2; o3] <> Ok [o1; o2; o3 + r].
Proof.
  intros Hr. rewrite sphere_bnd_ok. cbv zeta. intros E. injection E as _ _ E. pose proof (u_range x0). nra.
Qed.
Lemma sphere_bnd_gram r o1 o2 o3 x0 x1 : 0 < r -> 0 < x0 < 1 -> 0 < x1 < 1 ->
  exists J, jacobian (fun x => transform_sphere_bnd (A1 x) r [o1; o2; o3]) [x0; x1] J 3 /\
    gram 3 J = (4 * PI * r ^ 2) ^ 2.
Proof.
  intros Hr H0 H1. set (u := 2 * x0 - 1). set (q := sqrt (1 - u ^ 2)).
  assert (PQ2 : 0 < 1 - u ^ 2) by (unfold u; nra).
  assert (PQ : 0 < q) by (apply sqrt_lt_R0; auto).
  assert (QQ : q * q = 1 - u ^ 2) by (apply sqrt_sqrt; lra).
  set (f := 2 * PI * x1).
  assert (DQ : is_derive (fun t => sqrt (1 - (2 * t - 1) ^ 2)) x0 (- 2 * u / q)).
  { apply (is_derive_q x0). exact PQ2. }
  exists (fun i j => match i, j with
     | O, O => cos f * (- 2 * u / q) * r
     | O, _ => (- sin f * (2 * PI)) * q * r
     | S O, O => sin f * (- 2 * u / q) * r
     | S O, _ => (cos f * (2 * PI)) * q * r
     | _, O => 2 * r
     | _, _ => 0 end).
  split.
  - intros i j Hi Hj. simpl in Hj.
    destruct i as [|[|[|i]]]; [| | |lia]; destruct j as [|[|j]]; try lia; simpl upd; simpl nth.
    + eapply is_derive_ext_loc with (f := fun t => cos f * sqrt (1 - (2 * t - 1) ^ 2) * r + o1).
      { apply mod1_loc; auto. intros t Ht. rewrite sphere_bnd_ok. cbv zeta. cbn [coord nth]. rewrite !mod1_id by lra. reflexivity. }
      apply (d_aff3 (fun t => sqrt (1 - (2 * t - 1) ^ 2))). exact DQ.
    + eapply is_derive_ext_loc with (f := fun t => cos (2 * PI * t) * q * r + o1).
      { apply mod1_loc; auto. intros t Ht. rewrite sphere_bnd_ok. cbv zeta. cbn [coord nth]. rewrite !mod1_id by lra. reflexivity. }
      auto_derive; auto. fold f. ring.
    + eapply is_derive_ext_loc with (f := fun t => sin f * sqrt (1 - (2 * t - 1) ^ 2) * r + o2).
      { apply mod1_loc; auto. intros t Ht. rewrite sphere_bnd_ok. cbv zeta. cbn [coord nth]. rewrite !mod1_id by lra. reflexivity. }
      apply (d_aff3 (fun t => sqrt (1 - (2 * t - 1) ^ 2))). exact DQ.
    + eapply is_derive_ext_loc with (f := fun t => sin (2 * PI * t) * q * r + o2).
      { apply mod1_loc; auto. intros t Ht. rewrite sphere_bnd_ok. cbv zeta. cbn [coord nth]. rewrite !mod1_id by lra. reflexivity. }
      auto_derive; auto. fold f. ring.
    + eapply is_derive_ext_loc with (f := fun t => (2 * t - 1) * r + o3).
      { apply mod1_loc; auto. intros t Ht. rewrite sphere_bnd_ok. cbv zeta. cbn [coord nth]. rewrite !mod1_id by lra. reflexivity. }
      auto_derive; auto. ring.
    + eapply is_derive_ext_loc with (f := fun t => u * r + o3).
      { apply mod1_loc; auto. intros t Ht. rewrite sphere_bnd_ok. cbv zeta. cbn [coord nth]. rewrite !mod1_id by lra. reflexivity. }
      auto_derive; auto.
  - pose proof (cs1 f) as CS. unfold gram, dotR, sumR. simpl map. simpl map2. simpl fold_right.
    set (c := cos f) in *. set (s := sin f) in *.
    assert (E1 : c * (-2 * u / q) * r * (c * (-2 * u / q) * r) + (s * (-2 * u / q) * r * (s * (-2 * u / q) * r) + (2 * r * (2 * r) + 0))
       = 4 * r * r / (q * q)).
    { transitivity (4 * r * r / (q * q) * ((c * c + s * s) * (u * u) + q * q)).
      - field. lra.
      - rewrite CS, QQ. ring_simplify (1 * (u * u) + (1 - u ^ 2)). ring. }
    assert (E2 : - s * (2 * PI) * q * r * (- s * (2 * PI) * q * r) + (c * (2 * PI) * q * r * (c * (2 * PI) * q * r) + (0 * 0 + 0))
       = (2 * PI) * (2 * PI) * (q * q) * r * r).
    { transitivity ((2 * PI) * (2 * PI) * (q * q) * r * r * (c * c + s * s)); [ring|]. rewrite CS. ring. }
    assert (E3 : c * (-2 * u / q) * r * (- s * (2 * PI) * q * r) + (s * (-2 * u / q) * r * (c * (2 * PI) * q * r) + (2 * r * 0 + 0)) = 0).
    { field. lra. }
    rewrite E1, E2, E3. field. lra.
Qed.

(** normal vectors of boundary points *)
Lemma spherical_normal_on r o rtol atol y : 0 < r -> 0 <= rtol -> 0 <= atol -> dist y o = r ->
  spherical_normal_vec r o rtol atol y = Ok (Some (vscal (/ r) (vsub y o))).
Proof.
  intros Hr Hrt Hat Hd. unfold spherical_normal_vec. change (map2 Rminus y o) with (vsub y o).
  unfold dist in Hd. rewrite Hd.
  assert (C : isclose rtol atol r r = true).
  { unfold isclose. apply Rleb_true. rewrite Rminus_diag_eq, Rabs_R0 by auto. pose proof (Rabs_pos r). nra. }
  rewrite C. rewrite (sequence_map_ext _ (fun e => e / r)) by (intros; apply fdiv_ok; lra). cbn [bind].
  do 2 f_equal. unfold vscal. apply map_ext. intros. unfold Rdiv. ring.
Qed.
Lemma spherical_normal_off r o rtol atol y : atol + rtol * Rabs r < Rabs (dist y o - r) ->
  spherical_normal_vec r o rtol atol y = Ok None.
Proof.
  intros H. unfold spherical_normal_vec. change (map2 Rminus y o) with (vsub y o). fold (dist y o).
  unfold isclose. assert (E : Rleb (Rabs (dist y o - r)) (atol + rtol * Rabs r) = false) by (apply Rleb_false; auto).
  rewrite E. reflexivity.
Qed.

Lemma spherical_normal_unit r o rtol atol y : Rabs (dist y o - r) <= atol + rtol * Rabs r -> 0 < dist y o ->
  exists n, spherical_normal_vec r o rtol atol y = Ok (Some n) /\ normR n = 1 /\ vsub y o = vscal (dist y o) n.
Proof.
  intros H P. unfold spherical_normal_vec. change (map2 Rminus y o) with (vsub y o). fold (dist y o).
  assert (C : isclose rtol atol (dist y o) r = true) by (unfold isclose; apply Rleb_true; exact H).
  rewrite C. rewrite (sequence_map_ext _ (fun e => / dist y o * e)).
  2:{ intros e _. rewrite fdiv_ok by lra. f_equal. unfold Rdiv. ring. }
  cbn [bind]. eexists. split; [reflexivity|]. split.
  - rewrite normR_scal. change (normR (vsub y o)) with (dist y o). rewrite Rabs_right; [field; lra|].
    left. apply Rinv_0_lt_compat. exact P.
  - unfold vscal. rewrite map_map. symmetry. erewrite map_ext; [apply map_id|]. intros e. cbn. field. lra.
Qed.

Lemma circle_bnd_period s r o1 o2 : 0 <= s < 1 / 2 ->
  transform_circle_bnd s r [o1; o2] = transform_circle_bnd (s + 1 / 2) r [o1; o2].
Proof.
  intros Hs. unfold transform_circle_bnd. rewrite !mod1_id by lra.
  replace (4 * PI * (s + 1 / 2)) with (4 * PI * s + 2 * PI) by field.
  rewrite cos_plus, sin_plus, cos_2PI, sin_2PI. do 2 f_equal; [|f_equal]; ring.
Qed.
Lemma circle_bnd_inj_half s t r o1 o2 : 0 < r -> 0 <= s < 1 / 2 -> 0 <= t < 1 / 2 ->
  transform_circle_bnd s r [o1; o2] = transform_circle_bnd t r [o1; o2] -> s = t.
Proof.
  intros Hr Hs Ht E. unfold transform_circle_bnd in E. rewrite !mod1_id in E by lra. injection E as C S.
  pose proof PI_RGT_0. assert (4 * PI * s = 4 * PI * t).
  { apply angle_unique; try nra; apply Rmult_eq_reg_r with r; lra. }
  apply Rmult_eq_reg_l with (4 * PI); lra.
Qed.

(** batches *)
Lemma batch_norms r o xs : Forall (fun x => dist x o = r) xs ->
  map normR (map (fun x => map2 Rminus x o) xs) = repeat r (length xs).
Proof. induction 1 as [|x xs H _ IH]; simpl; auto. f_equal; auto. Qed.
Lemma forallb_repeat {A} (P : A -> bool) a n : P a = true -> forallb P (repeat a n) = true.
Proof. intros H. induction n; simpl; auto. rewrite H. auto. Qed.
Lemma isclose_refl rtol atol r : 0 <= rtol -> 0 <= atol -> isclose rtol atol r r = true.
Proof. intros. unfold isclose. apply Rleb_true. rewrite Rminus_diag_eq, Rabs_R0 by auto. pose proof (Rabs_pos r). nra. Qed.

Lemma batch_row r s k : 0 < r -> (length s = k \/ k = 1%nat) ->
  (rs <- bcast1 fdiv s (repeat r k) ;; sequence rs) = Ok (vscal (/ r) s).
Proof.
  intros Hr Hk. assert (Q : forall l, sequence (map (fun e => fdiv e r) l) = Ok (vscal (/ r) l)).
  { intros l. rewrite (sequence_map_ext _ (fun e => / r * e)); auto. intros. rewrite fdiv_ok by lra. f_equal. unfold Rdiv. ring. }
  destruct Hk as [<- | ->].
  - rewrite bcast1_eq by (rewrite repeat_length; auto). rewrite map2_repeat_r. apply Q.
  - unfold bcast1. simpl. destruct (Nat.eqb_spec (length s) 1) as [E|E].
    + destruct s as [|a [|b s]]; simpl in E; try lia. cbn [map2]. cbn [bind]. apply (Q [a]).
    + destruct s as [|a [|b s]]; [reflexivity|simpl in E; lia|]. apply (Q (a :: b :: s)).
Qed.
Lemma batch_ok r o rtol atol xs : 0 < r -> 0 <= rtol -> 0 <= atol ->
  Forall (fun x => dist x o = r /\ length x = length o) xs -> (length xs = 1%nat \/ length xs = length o) ->
  spherical_normal_vec_batch r o rtol atol xs = Ok (Some (map (fun x => vscal (/ r) (vsub x o)) xs)).
Proof.
  intros Hr Hrt Hat H Hk. unfold spherical_normal_vec_batch.
  rewrite (batch_norms r) by (eapply Forall_impl; [|exact H]; intros a Ha; apply Ha).
  rewrite forallb_repeat by (apply isclose_refl; auto). rewrite map_map.
  rewrite (sequence_map_ext _ (fun x => vscal (/ r) (vsub x o))); auto.
  intros x Hx. rewrite Forall_forall in H. destruct (H x Hx) as [_ L].
  apply batch_row; auto. change (map2 Rminus x o) with (vsub x o). rewrite vsub_length by auto. lia.
Qed.
Lemma batch_type_error r o rtol atol xs : 0 < r -> 0 <= rtol -> 0 <= atol -> xs <> [] ->
  Forall (fun x => dist x o = r /\ length x = length o) xs -> length xs <> 1%nat -> length xs <> length o -> length o <> 1%nat ->
  spherical_normal_vec_batch r o rtol atol xs = Err TypeError.
Proof.
  intros Hr Hrt Hat Hne H Hk1 Hkd Hd. unfold spherical_normal_vec_batch.
  rewrite (batch_norms r) by (eapply Forall_impl; [|exact H]; intros a Ha; apply Ha).
  rewrite forallb_repeat by (apply isclose_refl; auto).
  destruct xs as [|x xs]; [congruence|]. inversion H as [|? ? [_ L] _]; subst.
  assert (LV : length (map2 Rminus x o) = length o) by (rewrite map2_length_eq; auto).
  assert (B : bcast1 fdiv (map2 Rminus x o) (repeat r (length (x :: xs))) = Err TypeError).
  { unfold bcast1. rewrite repeat_length, LV. destruct (Nat.eqb_spec (length o) (length (x :: xs))); [congruence|].
    destruct (map2 Rminus x o) as [|a [|b s]]; simpl in *; try lia;
      destruct xs as [|y xs]; simpl in *; try lia; reflexivity. }
  cbn [map sequence]. rewrite B. reflexivity.
Qed.
Lemma batch_columns :
  spherical_normal_vec_batch 1 [0; 0] 0 (1 / 2) [[1; 0]; [3 / 4; 1]] = Ok (Some [[1; 0]; [3 / 4; 4 / 5]]) /\
  spherical_normal_vec 1 [0; 0] 0 (1 / 2) [3 / 4; 1] = Ok (Some [3 / 5; 4 / 5]).
Proof.
  assert (N1 : normR [1 - 0; 0 - 0] = 1).
  { unfold normR. cbn. replace (_ + _) with (1 * 1) by field. apply sqrt_square; lra. }
  assert (N2 : normR [3 / 4 - 0; 1 - 0] = 5 / 4).
  { unfold normR. cbn. replace (_ + _) with (5 / 4 * (5 / 4)) by field. apply sqrt_square; lra. }
  assert (C1 : isclose 0 (1 / 2) 1 1 = true).
  { unfold isclose. apply Rleb_true. replace (1 - 1) with 0 by ring. rewrite Rabs_R0. lra. }
  assert (C2 : isclose 0 (1 / 2) (5 / 4) 1 = true).
  { unfold isclose. apply Rleb_true. rewrite !Rabs_right by lra. lra. }
  split.
  - unfold spherical_normal_vec_batch. cbn [map map2]. rewrite N1, N2. cbn [forallb]. rewrite C1, C2. cbn [andb].
    unfold bcast1. cbn [length Nat.eqb map2]. cbn [bind sequence]. rewrite !fdiv_ok by lra. cbn [bind sequence].
    replace ((1 - 0) / 1) with 1 by field. replace ((0 - 0) / (5 / 4)) with 0 by field.
    replace ((3 / 4 - 0) / 1) with (3 / 4) by field. replace ((1 - 0) / (5 / 4)) with (4 / 5) by field. reflexivity.
  - unfold spherical_normal_vec. cbn [map2]. rewrite N2, C2. cbn [map sequence]. rewrite !fdiv_ok by lra. cbn [bind].
    replace ((3 / 4 - 0) / (5 / 4)) with (3 / 5) by field. replace ((1 - 0) / (5 / 4)) with (4 / 5) by field. reflexivity.
Qed.
