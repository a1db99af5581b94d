(** Global error of odeint for Lipschitz right-hand sides. *)
From Coquelicot Require Import Coquelicot.
From Verif Require Import Base BaseFacts P_Vec M_Tree M_Ode S_Integrate S_Ode S_OdeErr P_Tree P_Integrate2 P_Ode.

Lemma close_sym e y z : close e y z -> close e z y.
Proof. intros H i j. rewrite Rabs_minus_sym. apply H. Qed.
Lemma close_trans e e' y z w : close e y z -> close e' z w -> close (e + e') y w.
Proof.
  intros H1 H2 i j. replace (entry y i j - entry w i j) with ((entry y i j - entry z i j) + (entry z i j - entry w i j)) by ring.
  eapply Rle_trans; [apply Rabs_triang|]. apply Rplus_le_compat; auto.
Qed.
Lemma close_refl y : close 0 y y.
Proof. intros i j. rewrite Rminus_diag_eq, Rabs_R0 by auto. lra. Qed.
Lemma close_le e e' y z : e <= e' -> close e y z -> close e' y z.
Proof. intros H C i j. eapply Rle_trans; [apply C|auto]. Qed.
Lemma close_nonneg e y z : close e y z -> 0 <= e.
Proof. intros H. eapply Rle_trans; [apply Rabs_pos|apply (H 0%nat 0%nat)]. Qed.

Section sol.
Variables (sh : list nat) (df : dynamics) (sol : R -> tree) (t0 T B L Lt : R).
Hypothesis HS : solves sh df sol t0 T B.
Hypothesis HL : lipschitz_ode sh df L Lt.
Hypothesis L0 : 0 <= L.
Hypothesis Lt0 : 0 <= Lt.

Lemma df_shaped y : shape y = sh -> shaped df y.
Proof. intros E z t Hz. destruct (proj1 HL z t) as (k & E1 & E2); [congruence|]. exists k. split; auto. congruence. Qed.

(** mean value theorem for an entry of the solution *)
Lemma sol_mvt s t i j : t0 <= s -> s <= t -> t <= T -> exists x k, s <= x <= t /\ df (sol x) x = Ok k /\ 
  entry (sol t) i j - entry (sol s) i j = entry k i j * (t - s) /\ Rabs (entry k i j) <= B.
Proof.
  intros H1 H2 H3.
  assert (D : forall x, s <= x <= t -> exists k, df (sol x) x = Ok k /\ is_derive (fun s => entry (sol s) i j) x (entry k i j) /\ Rabs (entry k i j) <= B).
  { intros x Hx. destruct (HS x) as (_ & k & E & Dk); [lra|]. exists k. split; auto. }
  destruct (MVT_gen (fun s => entry (sol s) i j) s t (Derive (fun s => entry (sol s) i j))) as (x & Hx & E).
  - rewrite Rmin_left, Rmax_right by lra. intros x Hx. destruct (D x) as (k & _ & Dk & _); [lra|].
    apply Derive_correct. eexists; eauto.
  - rewrite Rmin_left, Rmax_right by lra. intros x Hx. destruct (D x) as (k & _ & Dk & _); [lra|].
    apply continuity_pt_filterlim. apply (ex_derive_continuous (fun s => entry (sol s) i j)). eexists; eauto.
  - rewrite Rmin_left, Rmax_right in Hx by lra. destruct (D x Hx) as (k & Ek & Dk & Bk).
    exists x, k. repeat split; auto; try lra. rewrite E. f_equal. apply is_derive_unique; auto.
Qed.
Lemma sol_lipschitz s t : t0 <= s -> s <= t -> t <= T -> close (B * (t - s)) (sol s) (sol t).
Proof.
  intros H1 H2 H3. apply close_sym. intros i j. destruct (sol_mvt s t i j H1 H2 H3) as (x & k & _ & _ & E & Bk).
  rewrite E, Rabs_mult, (Rabs_right (t - s)) by lra. apply Rmult_le_compat_r; auto. lra.
Qed.
Lemma B_nonneg : t0 <= T -> 0 <= B.
Proof. intros H. destruct (HS t0) as (_ & k & _ & D); [lra|]. eapply Rle_trans; [apply Rabs_pos|apply (D 0%nat 0%nat)]. Qed.

(** any one-step method that is stable and first order consistent along the solution *)
Definition good_step (method : stepper) (C h : R) : Prop :=
  forall y s t e, t0 <= s -> s <= t -> t <= T -> t - s <= h -> shape y = sh -> close e y (sol s) ->
  exists y', method df y t (t - s) = Ok y' /\ shape y' = sh /\ close (exp (L * (t - s)) * e + C * h * (t - s)) y' (sol t).

Lemma exp_ge_1 x : 0 <= x -> 1 <= exp x.
Proof. intros H. rewrite <- exp_0. apply exp_mono. auto. Qed.

Lemma scan_error method C h e0 : good_step method C h -> 0 <= C -> 0 <= h -> 0 <= e0 -> forall ts y s,
  t0 <= s -> nondecreasing (s :: ts) -> steps_at_most h (s :: ts) -> final (s :: ts) <= T -> shape y = sh ->
  close (exp (L * (s - t0)) * (e0 + C * h * (s - t0))) y (sol s) ->
  exists ys, scan_steps df method y s ts = Ok ys /\ forall n, (n < length ts)%nat ->
    close (exp (L * (nth n ts 0 - t0)) * (e0 + C * h * (nth n ts 0 - t0))) (nth n ys []) (sol (nth n ts 0)).
Proof.
  intros HG C0 h0 He. induction ts as [|t ts IH]; intros y s Hs Hm Hh HT Sy Hc.
  - exists []. split; auto. intros n Hn. simpl in Hn. lia.
  - destruct Hm as [Hm1 Hm2]. destruct Hh as [Hh1 Hh2].
    change (final (s :: t :: ts)) with (final (t :: ts)) in HT.
    assert (tT : t <= T).
    { pose proof (nondecreasing_first_final (t :: ts) Hm2 ltac:(simpl; lia)) as A. inversion A; subst. lra. }
    destruct (HG y s t _ Hs Hm1 tT Hh1 Sy Hc) as (y' & E & S' & Hc').
    assert (Hn : close (exp (L * (t - t0)) * (e0 + C * h * (t - t0))) y' (sol t)).
    { eapply close_le; [|exact Hc'].
      replace (L * (t - t0)) with (L * (t - s) + L * (s - t0)) by ring. rewrite exp_plus.
      set (p := exp (L * (t - s))). set (q := exp (L * (s - t0))).
      assert (1 <= p) by (apply exp_ge_1, Rmult_le_pos; lra). assert (1 <= q) by (apply exp_ge_1, Rmult_le_pos; lra).
      replace (t - t0) with ((t - s) + (s - t0)) by ring.
      assert (1 <= p * q) by nra.
      assert (0 <= C * h * (t - s)) by (apply Rmult_le_pos; [apply Rmult_le_pos; auto|lra]).
      assert (C * h * (t - s) <= p * q * (C * h * (t - s))).
      { rewrite <- (Rmult_1_l (C * h * (t - s))) at 1. apply Rmult_le_compat_r; auto. }
      replace (p * q * (e0 + C * h * (t - s + (s - t0)))) with (p * (q * (e0 + C * h * (s - t0))) + p * q * (C * h * (t - s))) by ring.
      lra. }
    destruct (IH y' t ltac:(lra) Hm2 Hh2 HT S' Hn) as (ys & E2 & H2).
    exists (y' :: ys). split.
    + cbn [scan_steps]. rewrite E. cbn [bind].
      destruct (shape_eqb y' y) eqn:Q; [|exfalso; assert (shape_eqb y' y = true) by (apply shape_eqb_true; congruence); congruence].
      rewrite E2. reflexivity.
    + intros [|n] Hn'; cbn [nth]; auto. apply H2. simpl in Hn'. lia.
Qed.

Lemma odeint_error method C h e0 y ts : good_step method C h -> 0 <= C -> 0 <= h -> 
  nondecreasing (t0 :: ts) -> steps_at_most h (t0 :: ts) -> final (t0 :: ts) <= T -> shape y = sh -> close e0 y (sol t0) ->
  exists ys, odeint df y (t0 :: ts) method = Ok ys /\ forall n, (n <= length ts)%nat ->
    close (exp (L * (nth n (t0 :: ts) 0 - t0)) * (e0 + C * h * (nth n (t0 :: ts) 0 - t0))) (nth n ys []) (sol (nth n (t0 :: ts) 0)).
Proof.
  intros HG C0 h0 Hm Hh HT Sy Hc.
  assert (Z : exp (L * (t0 - t0)) * (e0 + C * h * (t0 - t0)) = e0).
  { rewrite !Rminus_diag_eq, !Rmult_0_r, exp_0 by auto. ring. }
  destruct (scan_error method C h e0 HG C0 h0 (close_nonneg _ _ _ Hc) ts y t0) as (ys & E & H); auto; [lra|rewrite Z; auto|].
  exists (y :: ys). split; [unfold odeint; rewrite E; reflexivity|].
  intros [|n] Hn; cbn [nth]; [rewrite Z; auto|]. apply H. lia.
Qed.

(** *** explicit Euler *)
Lemma euler_good h : good_step explicit_euler (L * B + Lt) h.
Proof.
  intros y s t e H1 H2 H3 H4 Sy Hc.
  assert (B0 : 0 <= B) by (apply B_nonneg; lra). pose proof (close_nonneg _ _ _ Hc) as e0.
  destruct (euler_step df y t (t - s) (df_shaped y Sy)) as (k & r & Ek & Sk & Er & Sr & Vr).
  exists r. split; auto. split; [congruence|]. intros i j.
  destruct (sol_mvt s t i j H1 H2 H3) as (x & m & Hx & Em & Dm & _).
  destruct (HS x) as (Sx & _); [lra|]. 
  assert (C1 : close (e + B * (x - s)) y (sol x)).
  { eapply close_trans; [exact Hc|]. apply sol_lipschitz; lra. }
  pose proof (proj2 HL y (sol x) t x k m _ Sy Sx Ek Em C1 i j) as K.
  rewrite Vr. replace (entry y i j + (t - s) * entry k i j - entry (sol t) i j) with
    ((entry y i j - entry (sol s) i j) + (t - s) * (entry k i j - entry m i j)).
  2:{ replace (entry (sol t) i j) with (entry (sol s) i j + entry m i j * (t - s)) by lra. ring. }
  eapply Rle_trans; [apply Rabs_triang|]. rewrite Rabs_mult, (Rabs_right (t - s)) by lra.
  specialize (Hc i j). rewrite (Rabs_right (t - x)) in K by lra.
  assert (K2 : (t - s) * Rabs (entry k i j - entry m i j) <= (t - s) * (L * e + (L * B + Lt) * h)).
  { apply Rmult_le_compat_l; [lra|]. eapply Rle_trans; [exact K|].
    assert (L * (B * (x - s)) <= L * (B * h)) by (apply Rmult_le_compat_l; auto; apply Rmult_le_compat_l; lra).
    assert (Lt * (t - x) <= Lt * h) by (apply Rmult_le_compat_l; lra). lra. }
  pose proof (exp_ineq1_le (L * (t - s))) as X.
  assert (e * (1 + L * (t - s)) <= e * exp (L * (t - s))) by (apply Rmult_le_compat_l; auto). lra.
Qed.

(** *** rk4 *)
Lemma tstep_close e e' c y z k m : 0 <= c -> shape k = shape y -> shape m = shape z -> close e y z -> close e' k m ->
  close (e + c * e') (tadd y (tscal c k)) (tadd z (tscal c m)).
Proof.
  intros Hc S1 S2 H1 H2 i j. rewrite !entry_add, !entry_scal by (rewrite shape_scal; auto).
  replace (entry y i j + c * entry k i j - (entry z i j + c * entry m i j)) with ((entry y i j - entry z i j) + c * (entry k i j - entry m i j)) by ring.
  eapply Rle_trans; [apply Rabs_triang|]. rewrite Rabs_mult, (Rabs_right c) by lra. apply Rplus_le_compat; auto. apply Rmult_le_compat_l; auto.
Qed.
Lemma tscal_tscal a b y : tscal a (tscal b y) = tscal (a * b) y.
Proof. apply tree_ext; [rewrite !shape_scal; auto|]. intros. rewrite !entry_scal. ring. Qed.

Lemma rk4_stable y z t dt e r r' : 0 <= dt -> shape y = sh -> shape z = sh -> close e y z ->
  rk4 df y t dt = Ok r -> rk4 df z t dt = Ok r' -> close (exp (L * dt) * e) r r'.
Proof.
  intros Hd Sy Sz Hc Er Er'. pose proof (close_nonneg _ _ _ Hc) as e0.
  destruct (rk4_stages df y t dt (df_shaped y Sy)) as (k1 & k2 & k3 & k4 & r1 & E1 & E2 & E3 & E4 & S1 & S2 & S3 & S4 & ER & _ & V).
  destruct (rk4_stages df z t dt (df_shaped z Sz)) as (m1 & m2 & m3 & m4 & r2 & F1 & F2 & F3 & F4 & U1 & U2 & U3 & U4 & FR & _ & W).
  rewrite Er in ER. injection ER as <-. rewrite Er' in FR. injection FR as <-.
  assert (Z : Lt * Rabs (t - t) = 0) by (rewrite Rminus_diag_eq, Rabs_R0 by auto; ring).
  assert (Z2 : Lt * Rabs (t + dt / 2 - (t + dt / 2)) = 0) by (rewrite Rminus_diag_eq, Rabs_R0 by auto; ring).
  assert (Z3 : Lt * Rabs (t + dt - (t + dt)) = 0) by (rewrite Rminus_diag_eq, Rabs_R0 by auto; ring).
  assert (C1 : close (L * e) k1 m1).
  { pose proof (proj2 HL y z t t k1 m1 e Sy Sz E1 F1 Hc) as K. rewrite Z, Rplus_0_r in K. auto. }
  rewrite !tscal_tscal in E2, F2, E3, F3.
  assert (shp : forall c k w, shape k = shape w -> shape w = sh -> shape (tadd w (tscal c k)) = sh).
  { intros c k w Q1 Q2. rewrite shape_map2; [auto|]. rewrite shape_scal; auto. }
  assert (C2 : close (L * (e + 1 / 2 * dt * (L * e))) k2 m2).
  { pose proof (proj2 HL _ _ _ _ k2 m2 _ (shp _ _ _ S1 Sy) (shp _ _ _ U1 Sz) E2 F2 (tstep_close e (L * e) (1 / 2 * dt) y z k1 m1 ltac:(lra) S1 U1 Hc C1)) as K.
    rewrite Z2, Rplus_0_r in K. auto. }
  set (e2 := L * (e + 1 / 2 * dt * (L * e))) in *.
  assert (C3 : close (L * (e + 1 / 2 * dt * e2)) k3 m3).
  { pose proof (proj2 HL _ _ _ _ k3 m3 _ (shp _ _ _ S2 Sy) (shp _ _ _ U2 Sz) E3 F3 (tstep_close e e2 (1 / 2 * dt) y z k2 m2 ltac:(lra) S2 U2 Hc C2)) as K.
    rewrite Z2, Rplus_0_r in K. auto. }
  set (e3 := L * (e + 1 / 2 * dt * e2)) in *.
  assert (C4 : close (L * (e + dt * e3)) k4 m4).
  { pose proof (proj2 HL _ _ _ _ k4 m4 _ (shp _ _ _ S3 Sy) (shp _ _ _ U3 Sz) E4 F4 (tstep_close e e3 dt y z k3 m3 Hd S3 U3 Hc C3)) as K.
    rewrite Z3, Rplus_0_r in K. auto. }
  set (e4 := L * (e + dt * e3)) in *.
  intros i j. rewrite V, W. specialize (Hc i j). specialize (C1 i j). specialize (C2 i j). specialize (C3 i j). specialize (C4 i j).
  apply Rle_trans with (e + dt / 6 * (L * e + 2 * e2 + 2 * e3 + e4)).
  - replace (_ - _) with ((entry y i j - entry z i j) + dt / 6 * ((entry k1 i j - entry m1 i j) + 2 * (entry k2 i j - entry m2 i j) + 2 * (entry k3 i j - entry m3 i j) + (entry k4 i j - entry m4 i j))) by ring.
    eapply Rle_trans; [apply Rabs_triang|]. apply Rplus_le_compat; auto. rewrite Rabs_mult, (Rabs_right (dt / 6)) by lra.
    apply Rmult_le_compat_l; [lra|].
    apply Rabs_le_between in C1. apply Rabs_le_between in C2. apply Rabs_le_between in C3. apply Rabs_le_between in C4.
    apply Rabs_le_between. lra.
  - replace (e + dt / 6 * (L * e + 2 * e2 + 2 * e3 + e4)) with (rk4_factor (L * dt) * e).
    2:{ unfold e4, e3, e2, rk4_factor. field. }
    apply Rmult_le_compat_r; auto. pose proof (rk4_factor_le_exp (L * dt)) as X.
    assert (0 <= L * dt) by (apply Rmult_le_pos; auto). rewrite (Rabs_right (L * dt)) in X by lra.
    eapply Rle_trans; [apply Rle_abs|exact X].
Qed.

Lemma rk4_consistent s t r : t0 <= s -> s <= t -> t <= T -> L * (t - s) <= 1 / 2 ->
  rk4 df (sol s) t (t - s) = Ok r -> close (4 * (L * B + Lt) * (t - s) * (t - s)) r (sol t).
Proof.
  intros H1 H2 H3 H4 Er. set (dt := t - s) in *. assert (Hd : 0 <= dt) by (unfold dt; lra).
  assert (B0 : 0 <= B) by (apply B_nonneg; lra).
  destruct (HS s) as (Ss & _); [lra|].
  destruct (rk4_stages df (sol s) t dt (df_shaped _ Ss)) as (k1 & k2 & k3 & k4 & r1 & E1 & E2 & E3 & E4 & S1 & S2 & S3 & S4 & ER & _ & V).
  rewrite Er in ER. injection ER as <-. rewrite !tscal_tscal in E2, E3.
  assert (shp : forall c k w, shape k = shape w -> shape w = sh -> shape (tadd w (tscal c k)) = sh).
  { intros c k w Q1 Q2. rewrite shape_map2; [auto|]. rewrite shape_scal; auto. }
  set (E := 4 * (L * B + Lt) * dt).
  assert (LB0 : 0 <= L * B) by (apply Rmult_le_pos; auto).
  assert (E0 : 0 <= E) by (unfold E; apply Rmult_le_pos; [lra|auto]).
  assert (LdE : L * dt * E <= 1 / 2 * E) by (apply Rmult_le_compat_r; auto).
  assert (LtD : 0 <= Lt * dt) by (apply Rmult_le_pos; auto).
  assert (LBD : 0 <= L * B * dt) by (apply Rmult_le_pos; auto).
  (* a slope close to the slopes of the solution is bounded by B + E *)
  assert (stage : forall x m w k u, s <= x <= t -> df (sol x) x = Ok m -> shape w = sh -> df w u = Ok k ->
     t <= u <= t + dt -> close (dt * (B + E)) w (sol s) -> close E k m).
  { intros x m w k u Hx Em Sw Ek Hu Hw. destruct (HS x) as (Sx & _); [lra|].
    assert (Cw : close (dt * (B + E) + B * (x - s)) w (sol x)) by (eapply close_trans; [exact Hw|apply sol_lipschitz; lra]).
    eapply close_le; [|apply (proj2 HL w (sol x) u x k m _ Sw Sx Ek Em Cw)].
    rewrite Rabs_right by lra.
    assert (Lt * (u - x) <= Lt * (2 * dt)) by (apply Rmult_le_compat_l; auto; unfold dt in *; lra).
    assert (L * (B * (x - s)) <= L * (B * dt)) by (apply Rmult_le_compat_l; auto; apply Rmult_le_compat_l; auto; unfold dt; lra).
    assert (EE : E = 4 * (L * B * dt) + 4 * (Lt * dt)) by (unfold E; ring).
    replace (L * (dt * (B + E) + B * (x - s)) + Lt * (u - x)) with (L * B * dt + L * dt * E + L * (B * (x - s)) + Lt * (u - x)) by ring.
    lra. }
  assert (bound : forall k, (forall x m, s <= x <= t -> df (sol x) x = Ok m -> close E k m) -> forall i j, Rabs (entry k i j) <= B + E).
  { intros k Hk i j. destruct (HS s) as (_ & m & Em & Dm); [lra|]. specialize (Hk s m ltac:(lra) Em i j). destruct (Dm i j) as [_ Bm].
    apply Rabs_le_between in Hk. apply Rabs_le_between in Bm. apply Rabs_le_between. lra. }
  assert (near : forall c k, 0 <= c <= dt -> shape k = shape (sol s) -> (forall i j, Rabs (entry k i j) <= B + E) -> close (dt * (B + E)) (tadd (sol s) (tscal c k)) (sol s)).
  { intros c k Hc Sk Hk i j. rewrite entry_add, entry_scal by (rewrite shape_scal; auto).
    replace (entry (sol s) i j + c * entry k i j - entry (sol s) i j) with (c * entry k i j) by ring.
    rewrite Rabs_mult, (Rabs_right c) by lra. apply Rmult_le_compat; auto; try lra. apply Rabs_pos. }
  assert (P1 : forall x m, s <= x <= t -> df (sol x) x = Ok m -> close E k1 m).
  { intros x m Hx Em. apply (stage x m (sol s) k1 t); auto; [lra|]. eapply close_le; [|apply close_refl].
    apply Rmult_le_pos; lra. }
  assert (P2 : forall x m, s <= x <= t -> df (sol x) x = Ok m -> close E k2 m).
  { intros x m Hx Em. apply (stage x m _ k2 (t + dt / 2) Hx Em (shp _ _ _ S1 Ss) E2); [lra|]. apply near; auto; lra. }
  assert (P3 : forall x m, s <= x <= t -> df (sol x) x = Ok m -> close E k3 m).
  { intros x m Hx Em. apply (stage x m _ k3 (t + dt / 2) Hx Em (shp _ _ _ S2 Ss) E3); [lra|]. apply near; auto; lra. }
  assert (P4 : forall x m, s <= x <= t -> df (sol x) x = Ok m -> close E k4 m).
  { intros x m Hx Em. apply (stage x m _ k4 (t + dt) Hx Em (shp _ _ _ S3 Ss) E4); [lra|]. apply near; auto; lra. }
  intros i j. destruct (sol_mvt s t i j H1 H2 H3) as (x & m & Hx & Em & Dm & _). fold dt in Dm.
  specialize (P1 x m Hx Em i j). specialize (P2 x m Hx Em i j). specialize (P3 x m Hx Em i j). specialize (P4 x m Hx Em i j).
  rewrite V. replace (_ - _) with (dt / 6 * ((entry k1 i j - entry m i j) + 2 * (entry k2 i j - entry m i j) + 2 * (entry k3 i j - entry m i j) + (entry k4 i j - entry m i j))).
  2:{ replace (entry (sol t) i j) with (entry (sol s) i j + entry m i j * dt) by lra. field. }
  rewrite Rabs_mult, (Rabs_right (dt / 6)) by lra.
  apply Rle_trans with (dt / 6 * (6 * E)).
  - apply Rmult_le_compat_l; [lra|]. apply Rabs_le_between in P1. apply Rabs_le_between in P2. apply Rabs_le_between in P3. apply Rabs_le_between in P4.
    apply Rabs_le_between. lra.
  - unfold E. lra.
Qed.

Lemma rk4_good h : L * h <= 1 / 2 -> good_step rk4 (4 * (L * B + Lt)) h.
Proof.
  intros Hh y s t e H1 H2 H3 H4 Sy Hc.
  assert (B0 : 0 <= B) by (apply B_nonneg; lra).
  destruct (HS s) as (Ss & _); [lra|].
  destruct (rk4_stages df y t (t - s) (df_shaped y Sy)) as (_ & _ & _ & _ & r & _ & _ & _ & _ & _ & _ & _ & _ & Er & Sr & _).
  destruct (rk4_stages df (sol s) t (t - s) (df_shaped _ Ss)) as (_ & _ & _ & _ & r' & _ & _ & _ & _ & _ & _ & _ & _ & Er' & _ & _).
  exists r. split; auto. split; [congruence|].
  assert (LB0 : 0 <= L * B) by (apply Rmult_le_pos; auto).
  assert (Hl : L * (t - s) <= 1 / 2) by (apply Rle_trans with (L * h); auto; apply Rmult_le_compat_l; auto).
  eapply close_le; [|eapply close_trans; [apply (rk4_stable y (sol s) t (t - s) e r r'); auto; lra|apply (rk4_consistent s t r'); auto]].
  apply Rplus_le_compat_l. apply Rmult_le_compat_r; [lra|]. apply Rmult_le_compat_l; lra.
Qed.
End sol.

(** *** the time argument spoils the order of rk4 *)
Definition parabola (t : R) : tree := [[t ^ 2]].
Lemma parabola_solves : solves [1%nat] (poly_ode [[[0; 2]]]) parabola 0 1 2.
Proof.
  intros t Ht. split; [reflexivity|]. eexists. split; [reflexivity|]. intros [|[|i]] [|[|j]]; unfold entry; simpl;
    try (split; [apply @is_derive_const|rewrite Rabs_R0; lra]).
  split; [|rewrite Rabs_right; lra]. auto_derive; auto. ring.
Qed.
Lemma parabola_lipschitz : lipschitz_ode [1%nat] (poly_ode [[[0; 2]]]) 0 2.
Proof.
  split.
  - intros y s _. eexists. split; reflexivity.
  - intros y z s t k m e _ _ Ek Em _. injection Ek as <-. injection Em as <-.
    assert (0 <= 2 * Rabs (s - t)) by (pose proof (Rabs_pos (s - t)); lra).
    intros [|[|i]] [|[|j]]; unfold entry; simpl; rewrite ?Rminus_diag_eq, ?Rabs_R0 by auto; try lra.
    replace (0 + s * (2 + s * 0) - (0 + t * (2 + t * 0))) with (2 * (s - t)) by ring.
    rewrite Rabs_mult, (Rabs_right 2) by lra. lra.
Qed.
Lemma parabola_error n : exists ys, odeint (poly_ode [[[0; 2]]]) (parabola 0) (uniform_grid 0 (1 / INR (S n)) (S (S n))) rk4 = Ok ys /\
  entry (nth (S n) ys []) 0 0 - entry (parabola 1) 0 0 = 2 * (1 / INR (S n)).
Proof.
  set (h := 1 / INR (S n)).
  destruct (odeint_shifted [[[0; 2]]] (parabola 0) 0 h (S n)) as (ys & E & V); [reflexivity| |].
  { intros [|[|i]] [|[|j]]; simpl; lia. }
  exists ys. split; [exact E|]. specialize (V (S n) 0%nat 0%nat ltac:(lia)). rewrite V.
  assert (N : INR (S n) * h = 1) by (unfold h; field; apply not_0_INR; lia). rewrite N.
  replace (0 + h) with h by ring. replace (0 + 1 + h) with (1 + h) by ring.
  change (q_entry [[[0; 2]]] 0 0) with [0; 2].
  rewrite (is_RInt_unique _ _ _ _ (is_RInt_peval _ _ _)). unfold parabola, entry. simpl. field.
Qed.
Lemma rk4_not_second_order : exists df sol, lipschitz_ode [1%nat] df 0 2 /\ solves [1%nat] df sol 0 1 2 /\
  ~ exists C, forall n, exists ys, odeint df (sol 0) (uniform_grid 0 (1 / INR (S n)) (S (S n))) rk4 = Ok ys /\
      Rabs (entry (nth (S n) ys []) 0 0 - entry (sol 1) 0 0) <= C * (1 / INR (S n)) ^ 2.
Proof.
  exists (poly_ode [[[0; 2]]]), parabola. split; [apply parabola_lipschitz|]. split; [apply parabola_solves|].
  intros [C H]. destruct (nfloor_ex (Rabs C) (Rabs_pos C)) as [n [_ Hn]].
  destruct (H n) as (ys & E & HB). destruct (parabola_error n) as (ys' & E' & V).
  rewrite E in E'. injection E' as <-. rewrite V in HB.
  assert (P : 0 < INR (S n)) by (apply lt_0_INR; lia).
  assert (Q : 0 < 1 / INR (S n)) by (apply Rdiv_lt_0_compat; lra).
  rewrite Rabs_right in HB by lra.
  assert (HB2 : 2 <= C * (1 / INR (S n))).
  { apply Rmult_le_reg_r with (1 / INR (S n)); auto. eapply Rle_trans; [exact HB|]. apply Req_le. ring. }
  assert (HB3 : 2 * INR (S n) <= C).
  { replace C with (C * (1 / INR (S n)) * INR (S n)) by (field; lra). apply Rmult_le_compat_r; lra. }
  rewrite S_INR in *. pose proof (Rle_abs C). lra.
Qed.

Lemma nth_error_nth' (l : list R) n t : nth_error l n = Some t -> nth n l 0 = t /\ (n < length l)%nat.
Proof. intros H. split; [apply nth_error_nth; auto|]. apply nth_error_Some. congruence. Qed.
Lemma euler_error : forall sh df sol t0 T B L Lt ts h e0 y, lipschitz_ode sh df L Lt -> 0 <= L -> 0 <= Lt ->
  solves sh df sol t0 T B -> nondecreasing (t0 :: ts) -> steps_at_most h (t0 :: ts) -> 0 <= h -> final (t0 :: ts) <= T ->
  shape y = sh -> close e0 y (sol t0) ->
  exists ys, odeint df y (t0 :: ts) explicit_euler = Ok ys /\ forall n t, nth_error (t0 :: ts) n = Some t ->
    close (exp (L * (t - t0)) * (e0 + (L * B + Lt) * h * (t - t0))) (nth n ys []) (sol t).
Proof.
  intros sh df sol t0 T B L Lt ts h e0 y HL L0 Lt0 HS Hm Hh h0 HT Sy Hc.
  pose proof (nondecreasing_first_final _ Hm ltac:(simpl; lia)) as A. assert (t0 <= T) by (inversion A; subst; lra).
  assert (0 <= L * B) by (apply Rmult_le_pos; auto; eapply B_nonneg; eauto).
  destruct (odeint_error sh df sol t0 T L L0 explicit_euler (L * B + Lt) h e0 y ts) as (ys & E & V); auto; [|lra|].
  { eapply euler_good; eauto. }
  exists ys. split; auto. intros n t Ht. apply nth_error_nth' in Ht as [<- Hn]. apply V. simpl in Hn. lia.
Qed.
Lemma rk4_error : forall sh df sol t0 T B L Lt ts h e0 y, lipschitz_ode sh df L Lt -> 0 <= L -> 0 <= Lt ->
  solves sh df sol t0 T B -> nondecreasing (t0 :: ts) -> steps_at_most h (t0 :: ts) -> 0 <= h -> L * h <= 1 / 2 -> final (t0 :: ts) <= T ->
  shape y = sh -> close e0 y (sol t0) ->
  exists ys, odeint df y (t0 :: ts) rk4 = Ok ys /\ forall n t, nth_error (t0 :: ts) n = Some t ->
    close (exp (L * (t - t0)) * (e0 + 4 * (L * B + Lt) * h * (t - t0))) (nth n ys []) (sol t).
Proof.
  intros sh df sol t0 T B L Lt ts h e0 y HL L0 Lt0 HS Hm Hh h0 Hlh HT Sy Hc.
  pose proof (nondecreasing_first_final _ Hm ltac:(simpl; lia)) as A. assert (t0 <= T) by (inversion A; subst; lra).
  assert (0 <= L * B) by (apply Rmult_le_pos; auto; eapply B_nonneg; eauto).
  destruct (odeint_error sh df sol t0 T L L0 rk4 (4 * (L * B + Lt)) h e0 y ts) as (ys & E & V); auto; [|lra|].
  { eapply rk4_good; eauto. }
  exists ys. split; auto. intros n t Ht. apply nth_error_nth' in Ht as [<- Hn]. apply V. simpl in Hn. lia.
Qed.
