(** Proofs for ode.py. *)
From Coquelicot Require Import Coquelicot.
From Verif Require Import Base BaseFacts P_Vec M_Tree M_Ode S_Integrate S_Ode P_Tree P_Integrate1 P_Integrate2.

(** *** structure of the output *)
Lemma scan_length df method : forall ts y t0 ys, scan_steps df method y t0 ts = Ok ys -> length ys = length ts.
Proof.
  induction ts as [|t ts IH]; intros y t0 ys H; cbn [scan_steps] in H; [injection H as <-; auto|].
  apply bind_ok in H as (y' & _ & H). destruct (shape_eqb y' y); [|discriminate].
  apply bind_ok in H as (zs & H1 & H2). injection H2 as <-. simpl. f_equal. eapply IH; eauto.
Qed.
Lemma scan_shapes df method : forall ts y t0 ys, scan_steps df method y t0 ts = Ok ys -> Forall (fun z => same_shape z y) ys.
Proof.
  induction ts as [|t ts IH]; intros y t0 ys H; cbn [scan_steps] in H; [injection H as <-; auto|].
  apply bind_ok in H as (y' & _ & H). destruct (shape_eqb y' y) eqn:E; [|discriminate]. apply shape_eqb_true in E.
  apply bind_ok in H as (zs & H1 & H2). injection H2 as <-. constructor; auto.
  eapply Forall_impl; [|eapply IH; eauto]. simpl. unfold same_shape. intros; congruence.
Qed.
Lemma scan_app df method : forall pre y t0 post,
  scan_steps df method y t0 (pre ++ post) =
  (ys <- scan_steps df method y t0 pre ;; zs <- scan_steps df method (last ys y) (last pre t0) post ;; Ok (ys ++ zs)).
Proof.
  induction pre as [|t pre IH]; intros y t0 post; cbn [app scan_steps].
  - cbn [bind last app]. destruct (scan_steps df method y t0 post); reflexivity.
  - destruct (method df y t (t - t0)) as [y'|e]; [|reflexivity]. cbn [bind].
    destruct (shape_eqb y' y); [|reflexivity]. rewrite IH.
    destruct (scan_steps df method y' t pre) as [ys|e] eqn:E; [|reflexivity]. cbn [bind].
    replace (last (y' :: ys) y) with (last ys y'). replace (last (t :: pre) t0) with (last pre t).
    + destruct (scan_steps df method (last ys y') (last pre t) post); reflexivity.
    + clear. revert t t0. induction pre as [|a pre IH]; intros; [reflexivity|]. change (last (t :: a :: pre) t0) with (last (a :: pre) t0).
      rewrite <- IH. destruct pre; auto.
    + clear. revert y y'. induction ys as [|a ys IH]; intros; [reflexivity|]. change (last (y' :: a :: ys) y) with (last (a :: ys) y).
      rewrite <- IH. destruct ys; auto.
Qed.
Lemma odeint_structure df y ts method ys : odeint df y ts method = Ok ys ->
  length ys = length ts /\ nth 0 ys [] = y /\ Forall (fun z => same_shape z y) ys.
Proof.
  unfold odeint. destruct ts as [|t0 ts]; [discriminate|]. intros H. apply bind_ok in H as (zs & H1 & H2). injection H2 as <-.
  split; [simpl; f_equal; eapply scan_length; eauto|]. split; auto. constructor; [reflexivity|]. eapply scan_shapes; eauto.
Qed.
Lemma odeint_prefix df y t0 pre post method ys : odeint df y (t0 :: pre ++ post) method = Ok ys ->
  odeint df y (t0 :: pre) method = Ok (firstn (S (length pre)) ys).
Proof.
  unfold odeint. rewrite scan_app. intros H. apply bind_ok in H as (us & H1 & H2). injection H2 as <-.
  apply bind_ok in H1 as (vs & H3 & H4). apply bind_ok in H4 as (ws & H5 & H6). injection H6 as <-.
  rewrite H3. cbn [bind firstn]. rewrite <- (scan_length _ _ _ _ _ _ H3), firstn_app, firstn_all, Nat.sub_diag, app_nil_r. auto.
Qed.
Lemma odeint_restart df y t0 pre t post method ys : odeint df y (t0 :: pre ++ t :: post) method = Ok ys ->
  odeint df (nth (S (length pre)) ys []) (t :: post) method = Ok (skipn (S (length pre)) ys).
Proof.
  unfold odeint. replace (pre ++ t :: post) with ((pre ++ [t]) ++ post) by (rewrite <- app_assoc; auto). rewrite scan_app.
  intros H. apply bind_ok in H as (us & H1 & H2). injection H2 as <-.
  apply bind_ok in H1 as (vs & H3 & H4). apply bind_ok in H4 as (ws & H5 & H6). injection H6 as <-.
  rewrite last_last in H5. pose proof (scan_length _ _ _ _ _ _ H3) as L. rewrite app_length in L. cbn [length] in L.
  destruct (exists_last (l := vs)) as (vs' & v & ->); [intros ->; simpl in L; lia|].
  rewrite app_length in L. cbn [length] in L. rewrite last_last in H5. rewrite <- app_assoc. cbn [app nth skipn].
  replace (length pre) with (length vs') by lia. rewrite nth_middle, H5. cbn [bind].
  rewrite skipn_app, skipn_all, Nat.sub_diag. reflexivity.
Qed.

(** *** one step *)
Definition shaped (df : dynamics) (y : tree) : Prop := forall z t, shape z = shape y -> exists k, df z t = Ok k /\ shape k = shape y.

Lemma rk4_stages df y t dt : shaped df y -> exists k1 k2 k3 k4 r,
  df y t = Ok k1 /\ df (tadd y (tscal (1 / 2) (tscal dt k1))) (t + dt / 2) = Ok k2 /\
  df (tadd y (tscal (1 / 2) (tscal dt k2))) (t + dt / 2) = Ok k3 /\ df (tadd y (tscal dt k3)) (t + dt) = Ok k4 /\
  shape k1 = shape y /\ shape k2 = shape y /\ shape k3 = shape y /\ shape k4 = shape y /\
  rk4 df y t dt = Ok r /\ shape r = shape y /\
  forall i j, entry r i j = entry y i j + dt / 6 * (entry k1 i j + 2 * entry k2 i j + 2 * entry k3 i j + entry k4 i j).
Proof.
  intros H. destruct (H y t eq_refl) as (k1 & E1 & S1).
  destruct (H (tadd y (tscal (1 / 2) (tscal dt k1))) (t + dt / 2)) as (k2 & E2 & S2); [tshape|].
  destruct (H (tadd y (tscal (1 / 2) (tscal dt k2))) (t + dt / 2)) as (k3 & E3 & S3); [tshape|].
  destruct (H (tadd y (tscal dt k3)) (t + dt)) as (k4 & E4 & S4); [tshape|].
  exists k1, k2, k3, k4. eexists. do 8 (split; [assumption|]). split; [|split].
  - unfold rk4. rewrite E1. cbn [bind]. rewrite tree_add_ok by tshape. cbn [bind]. rewrite E2. cbn [bind].
    rewrite tree_add_ok by tshape. cbn [bind]. rewrite E3. cbn [bind]. rewrite tree_add_ok by tshape. cbn [bind].
    rewrite E4. cbn [bind]. rewrite tree_add_ok by tshape. cbn [bind]. rewrite tree_add_ok by tshape. cbn [bind].
    rewrite tree_add_ok by tshape. cbn [bind]. rewrite tree_add_ok by tshape. reflexivity.
  - tshape.
  - intros i j. tentry. field.
Qed.
Lemma euler_step df y t dt : shaped df y -> exists k r, df y t = Ok k /\ shape k = shape y /\
  explicit_euler df y t dt = Ok r /\ shape r = shape y /\ forall i j, entry r i j = entry y i j + dt * entry k i j.
Proof.
  intros H. destruct (H y t eq_refl) as (k1 & E1 & S1). exists k1. eexists. split; auto. split; auto. split; [|split].
  - unfold explicit_euler. rewrite E1. cbn [bind]. rewrite tree_add_ok by tshape. reflexivity.
  - tshape.
  - intros. tentry. ring.
Qed.

(** *** y' = lambda y *)
Lemma linear_shaped lam y : shaped (linear_ode lam) y.
Proof. intros z t H. eexists. split; [reflexivity|]. rewrite <- H. apply (shape_scal lam z). Qed.
Lemma linear_tscal lam z t k : linear_ode lam z t = Ok k -> k = tscal lam z.
Proof. intros H. injection H as <-. reflexivity. Qed.
Lemma rk4_linear lam y t dt : rk4 (linear_ode lam) y t dt = Ok (tscal (rk4_factor (lam * dt)) y).
Proof.
  destruct (rk4_stages (linear_ode lam) y t dt (linear_shaped lam y)) as
    (k1 & k2 & k3 & k4 & r & E1 & E2 & E3 & E4 & S1 & S2 & S3 & S4 & -> & Sr & Er).
  apply linear_tscal in E1, E2, E3, E4. subst. f_equal. apply tree_ext; [tshape|]. intros i j. rewrite Er.
  tentry. unfold rk4_factor. field.
Qed.
Lemma euler_linear lam y t dt : explicit_euler (linear_ode lam) y t dt = Ok (tscal (1 + lam * dt) y).
Proof.
  destruct (euler_step (linear_ode lam) y t dt (linear_shaped lam y)) as (k & r & E & S1 & -> & Sr & Er).
  apply linear_tscal in E. subst. f_equal. apply tree_ext; [tshape|]. intros i j. rewrite Er. tentry. ring.
Qed.

(** *** constant right-hand side, equilibria *)
Lemma rk4_constant df y t dt k : shape k = shape y -> (forall z s, shape z = shape y -> df z s = Ok k) ->
  rk4 df y t dt = Ok (tadd y (tscal dt k)).
Proof.
  intros Sk Hk.
  destruct (rk4_stages df y t dt) as (k1 & k2 & k3 & k4 & r & E1 & E2 & E3 & E4 & S1 & S2 & S3 & S4 & -> & Sr & Er).
  { intros z s Hz. exists k. auto. }
  rewrite Hk in E1, E2, E3, E4 by tshape. injection E1 as <-. injection E2 as <-. injection E3 as <-. injection E4 as <-.
  f_equal. apply tree_ext; [tshape|]. intros i j. rewrite Er. tentry. field.
Qed.
Lemma euler_constant df y t dt k : shape k = shape y -> df y t = Ok k -> explicit_euler df y t dt = Ok (tadd y (tscal dt k)).
Proof. intros Sk Hk. unfold explicit_euler. rewrite Hk. cbn [bind]. apply tree_add_ok. tshape. Qed.
Lemma tadd_zero y k : shape k = shape y -> (forall i j, entry k i j = 0) -> forall c, tadd y (tscal c k) = y.
Proof. intros Sk Z c. apply tree_ext; [tshape|]. intros. tentry. rewrite Z. ring. Qed.
Lemma rk4_equilibrium df y t dt k : shape k = shape y -> (forall i j, entry k i j = 0) ->
  (forall s, df y s = Ok k) -> rk4 df y t dt = Ok y.
Proof.
  intros Sk Z Hk. unfold rk4. rewrite Hk. cbn [bind].
  rewrite tree_add_ok by tshape. cbn [bind].
  assert (E : tadd y (tscal (1 / 2) (tscal dt k)) = y).
  { apply tree_ext; [tshape|]. intros. tentry. rewrite Z. ring. }
  rewrite E, Hk. cbn [bind]. rewrite tree_add_ok by tshape. cbn [bind]. rewrite E, Hk. cbn [bind].
  rewrite tree_add_ok by tshape. cbn [bind]. rewrite tadd_zero, Hk by auto. cbn [bind].
  do 4 (rewrite tree_add_ok by tshape; cbn [bind]). f_equal.
  apply tree_ext; [tshape|]. intros. tentry. rewrite Z. ring.
Qed.
Lemma euler_equilibrium df y t dt k : shape k = shape y -> (forall i j, entry k i j = 0) -> df y t = Ok k ->
  explicit_euler df y t dt = Ok y.
Proof. intros Sk Z Hk. rewrite (euler_constant df y t dt k) by auto. rewrite tadd_zero; auto. Qed.

(** *** y' = q(t) *)
Definition q_shape (q : list (list (list R))) : list nat := map (@length (list R)) q.
Definition q_entry (q : list (list (list R))) i j : list R := nth j (nth i q []) [].
Lemma poly_shape q t : shape (map (map (fun c => peval c t)) q) = q_shape q.
Proof. unfold shape, q_shape. rewrite map_map. apply map_ext. intros. apply map_length. Qed.
Lemma poly_entry q t i j : entry (map (map (fun c => peval c t)) q) i j = peval (q_entry q i j) t.
Proof.
  unfold entry, q_entry. change (@nil R) with (map (fun c => peval c t) []) at 1. rewrite map_nth.
  change 0 with (peval [] t). apply (map_nth (fun c => peval c t)).
Qed.
Lemma simpson_cubic c t dt : (length c <= 4)%nat ->
  dt / 6 * (peval c t + 2 * peval c (t + dt / 2) + 2 * peval c (t + dt / 2) + peval c (t + dt)) = RInt (peval c) t (t + dt).
Proof.
  intros H. rewrite <- (gauss_panel_exact 3 [-1; 0; 1] [1 / 3; 4 / 3; 1 / 3]); [|apply ref_simp|lia].
  rewrite <- ps_simp_ref. unfold ps_simp. replace ((t + (t + dt)) / 2) with (t + dt / 2) by field. field.
Qed.
Lemma rk4_poly q y t dt : q_shape q = shape y -> (forall i j, (length (q_entry q i j) <= 4)%nat) ->
  exists r, rk4 (poly_ode q) y t dt = Ok r /\ shape r = shape y /\
    forall i j, entry r i j = entry y i j + RInt (peval (q_entry q i j)) t (t + dt).
Proof.
  intros Sq Hq.
  destruct (rk4_stages (poly_ode q) y t dt) as (k1 & k2 & k3 & k4 & r & E1 & E2 & E3 & E4 & S1 & S2 & S3 & S4 & E & Sr & Er).
  { intros z s Hz. eexists. split; [reflexivity|]. rewrite poly_shape. auto. }
  exists r. split; auto. split; auto. intros i j. rewrite Er.
  injection E1 as <-. injection E2 as <-. injection E3 as <-. injection E4 as <-. rewrite !poly_entry.
  rewrite <- simpson_cubic by auto. ring.
Qed.

(** what odeint really computes: each step integrates over the following interval *)
Fixpoint shifted_int (f : R -> R) (t0 : R) (ts : list R) (n : nat) : R :=
  match ts, n with
  | t :: rest, S m => RInt f t (t + (t - t0)) + shifted_int f t rest m
  | _, _ => 0
  end.
Lemma scan_poly q : (forall i j, (length (q_entry q i j) <= 4)%nat) -> forall ts y t0, q_shape q = shape y ->
  exists ys, scan_steps (poly_ode q) rk4 y t0 ts = Ok ys /\
    forall n i j, (n < length ts)%nat -> entry (nth n ys []) i j = entry y i j + shifted_int (peval (q_entry q i j)) t0 ts (S n).
Proof.
  intros Hq. induction ts as [|t ts IH]; intros y t0 Sq.
  - exists []. split; [reflexivity|]. intros. simpl in *. lia.
  - cbn [scan_steps]. destruct (rk4_poly q y t (t - t0) Sq Hq) as (r & -> & Sr & Er). cbn [bind].
    replace (shape_eqb r y) with true by (symmetry; apply shape_eqb_true; auto).
    destruct (IH r t ltac:(congruence)) as (ys & -> & Hys). exists (r :: ys). split; [reflexivity|].
    intros [|n] i j Hn.
    + cbn [nth shifted_int]. rewrite Er. destruct ts; simpl; ring.
    + cbn [nth]. simpl in Hn. rewrite Hys by lia. cbn [shifted_int]. rewrite Er.
      change (shifted_int (peval (q_entry q i j)) t (ts) (S n)) with (shifted_int (peval (q_entry q i j)) t ts (S n)). ring.
Qed.
Lemma uniform_shifted f : (forall a b, ex_RInt f a b) -> forall h n s t0, (n <= s)%nat ->
  shifted_int f t0 (map (fun i => t0 + INR i * h) (seq 1 s)) n = RInt f (t0 + h) (t0 + INR n * h + h).
Proof.
  intros Hf h. assert (G : forall n k s t0, (n <= s)%nat ->
    shifted_int f (t0 + INR k * h) (map (fun i => t0 + INR i * h) (seq (S k) s)) n = RInt f (t0 + INR (S k) * h) (t0 + INR (S k + n) * h)).
  { induction n as [|n IH]; intros k s t0 Hs.
    - rewrite Nat.add_0_r, (RInt_point (V := R_CompleteNormedModule)). destruct s; reflexivity.
    - destruct s as [|s]; [lia|]. cbn [seq map shifted_int]. rewrite (IH (S k) s t0) by lia.
      replace (S (S k) + n)%nat with (S k + S n)%nat by lia.
      replace (t0 + INR (S k) * h + (t0 + INR (S k) * h - (t0 + INR k * h))) with (t0 + INR (S (S k)) * h) by (rewrite !S_INR; ring).
      apply (RInt_Chasles (V := R_CompleteNormedModule)); auto. }
  intros n s t0 Hs. specialize (G n 0%nat s t0 Hs). change (INR 0) with 0 in G. rewrite Rmult_0_l, Rplus_0_r in G. rewrite G.
  f_equal; [simpl; ring|]. rewrite plus_INR. simpl INR. ring.
Qed.

(** *** autonomous dynamics *)
Lemma scan_shift df method c : (forall y s t dt, method df y s dt = method df y t dt) ->
  forall ts y t0, scan_steps df method y (t0 + c) (map (fun t => t + c) ts) = scan_steps df method y t0 ts.
Proof.
  intros H. induction ts as [|t ts IH]; intros y t0; [reflexivity|]. cbn [map scan_steps].
  replace (t + c - (t0 + c)) with (t - t0) by ring. rewrite (H y (t + c) t).
  destruct (method df y t (t - t0)) as [y'|e]; [|reflexivity]. cbn [bind]. rewrite IH. reflexivity.
Qed.
(** the step widths determine the result *)
Lemma scan_widths df method : (forall y s t dt, method df y s dt = method df y t dt) ->
  forall ts ss y t0 s0, diffs (t0 :: ts) = diffs (s0 :: ss) ->
  scan_steps df method y t0 ts = scan_steps df method y s0 ss.
Proof.
  intros H. induction ts as [|t ts IH]; intros [|s ss] y t0 s0 E; try discriminate; [reflexivity|].
  unfold diffs in E. rewrite !adjacent_cons in E. injection E as E1 E2. cbn [scan_steps]. rewrite E1, (H y t s).
  destruct (method df y s (s - s0)) as [y'|e]; [|reflexivity]. cbn [bind]. rewrite (IH ss y' t s E2). reflexivity.
Qed.
Lemma rk4_autonomous df : autonomous df -> forall y s t dt, rk4 df y s dt = rk4 df y t dt.
Proof.
  intros H y s t dt. unfold rk4. rewrite (H y s t). destruct (df y t) as [k1|e]; [|reflexivity]. cbn [bind].
  destruct (tree_add y _) as [a1|e]; [|reflexivity]. cbn [bind]. rewrite (H a1 (s + dt / 2) (t + dt / 2)).
  destruct (df a1 _) as [k2|e]; [|reflexivity]. cbn [bind]. destruct (tree_add y _) as [a2|e]; [|reflexivity]. cbn [bind].
  rewrite (H a2 (s + dt / 2) (t + dt / 2)). destruct (df a2 _) as [k3|e]; [|reflexivity]. cbn [bind].
  destruct (tree_add y _) as [a3|e]; [|reflexivity]. cbn [bind]. rewrite (H a3 (s + dt) (t + dt)). reflexivity.
Qed.
Lemma euler_autonomous df : autonomous df -> forall y s t dt, explicit_euler df y s dt = explicit_euler df y t dt.
Proof. intros H y s t dt. unfold explicit_euler. rewrite (H y s t). reflexivity. Qed.

(** *** stability *)
Lemma rk4_factor_bound z : -(5 / 2) <= z <= 0 -> Rabs (rk4_factor z) <= 1.
Proof.
  intros Hz. apply Rabs_le. unfold rk4_factor. split.
  - assert (0 <= (z ^ 2 + 2 * z) ^ 2) by apply pow2_ge_0. nra.
  - replace (1 + z + z ^ 2 / 2 + z ^ 3 / 6 + z ^ 4 / 24) with (1 + z * ((z ^ 3 + 4 * z ^ 2 + 12 * z + 24) / 24)) by field.
    assert (0 <= z ^ 3 + 4 * z ^ 2 + 12 * z + 24); [|nra].
    assert (0 <= (z + 5 / 2) * (z ^ 2 + 3 / 2 * z + 8)) by (apply Rmult_le_pos; nra).
    nra.
Qed.
(** states of a linear equation with a bounded amplification factor never grow *)
Lemma scan_linear_decay method lam amp : (forall y t dt, method (linear_ode lam) y t dt = Ok (tscal (amp (lam * dt)) y)) ->
  forall ts y t0, (forall t dt, In dt (diffs (t0 :: ts)) -> t = dt -> Rabs (amp (lam * dt)) <= 1) ->
  exists ys, scan_steps (linear_ode lam) method y t0 ts = Ok ys /\
    forall n i j, (n < length ts)%nat -> Rabs (entry (nth n ys []) i j) <= Rabs (entry (nth n (y :: ys) []) i j).
Proof.
  intros Hm. induction ts as [|t ts IH]; intros y t0 Hb.
  - exists []. split; [reflexivity|]. intros; simpl in *; lia.
  - cbn [scan_steps]. rewrite Hm. cbn [bind].
    replace (shape_eqb (tscal (amp (lam * (t - t0))) y) y) with true by (symmetry; apply shape_eqb_true; tshape).
    unfold diffs in Hb. rewrite adjacent_cons in Hb.
    destruct (IH (tscal (amp (lam * (t - t0))) y) t) as (ys & -> & Hys).
    { intros s dt Hd E. apply (Hb s dt); auto. right. auto. }
    eexists. split; [reflexivity|]. intros [|n] i j Hn.
    + cbn [nth]. rewrite entry_scal, Rabs_mult. rewrite <- (Rmult_1_l (Rabs (entry y i j))) at 2.
      apply Rmult_le_compat_r; [apply Rabs_pos|]. apply (Hb (t - t0) (t - t0)); auto. left. auto.
    + simpl in Hn. cbn [nth]. apply (Hys n i j). lia.
Qed.
Lemma scan_linear_value lam h : forall n y t0,
  scan_steps (linear_ode lam) rk4 y t0 (map (fun i => t0 + INR i * h) (seq 1 n)) =
  Ok (map (fun i => tscal (rk4_factor (lam * h) ^ i) y) (seq 1 n)).
Proof.
  assert (G : forall n k y t0, scan_steps (linear_ode lam) rk4 (tscal (rk4_factor (lam * h) ^ k) y) (t0 + INR k * h)
      (map (fun i => t0 + INR i * h) (seq (S k) n)) = Ok (map (fun i => tscal (rk4_factor (lam * h) ^ i) y) (seq (S k) n))).
  { induction n as [|n IH]; intros k y t0; [reflexivity|]. cbn [seq map scan_steps].
    replace (t0 + INR (S k) * h - (t0 + INR k * h)) with h by (rewrite S_INR; ring).
    rewrite rk4_linear. cbn [bind].
    assert (E : tscal (rk4_factor (lam * h)) (tscal (rk4_factor (lam * h) ^ k) y) = tscal (rk4_factor (lam * h) ^ S k) y).
    { apply tree_ext; [tshape|]. intros. tentry. simpl. ring. }
    rewrite E. replace (shape_eqb (tscal (rk4_factor (lam * h) ^ S k) y) (tscal (rk4_factor (lam * h) ^ k) y)) with true
      by (symmetry; apply shape_eqb_true; tshape). rewrite IH. reflexivity. }
  intros n y t0. specialize (G n 0%nat y t0). simpl INR in G. rewrite Rmult_0_l, Rplus_0_r in G.
  replace (tscal (rk4_factor (lam * h) ^ 0) y) with y in G; auto.
  apply tree_ext; [tshape|]. intros. tentry. simpl. ring.
Qed.

(** *** amplification factor and the exponential *)
Lemma Derive_n_exp n x : is_derive_n exp n x (exp x).
Proof.
  revert x. induction n as [|n IH]; intros x; [reflexivity|]. simpl.
  apply (is_derive_ext exp); [|apply is_derive_exp]. intros t. symmetry. apply is_derive_n_unique, IH.
Qed.
Lemma is_ex_derive_n f n x l : is_derive_n f n x l -> ex_derive_n f n x.
Proof. destruct n; simpl; auto. intros H. exists l. auto. Qed.
Lemma is_derive_n_expm n x : is_derive_n (fun y => exp (- y)) n x ((-1) ^ n * exp (- x)).
Proof.
  apply (is_derive_n_comp_opp exp n x); [|apply Derive_n_exp].
  exists (mkposreal 1 Rlt_0_1). intros y _ m _. eapply is_ex_derive_n, Derive_n_exp.
Qed.
Lemma exp_taylor n z : z <> 0 -> exists zeta, (Rabs zeta <= Rabs z) /\ zeta <= Rmax z 0 /\
  exp z = sum_f_R0 (fun m => z ^ m / INR (fact m)) n + z ^ S n / INR (fact (S n)) * exp zeta.
Proof.
  intros Hz. destruct (Rtotal_order z 0) as [Hn|[H0|Hp]]; [|lra|].
  - destruct (Taylor_Lagrange (fun x => exp (- x)) n 0 (- z)) as (zeta & Hzeta & E); [lra| |].
    { intros t Ht k Hk. eapply is_ex_derive_n, is_derive_n_expm. }
    assert (D : forall k x, Derive_n (fun x => exp (- x)) k x = (-1) ^ k * exp (- x)).
    { intros k x. apply is_derive_n_unique, is_derive_n_expm. }
    exists (- zeta). split; [rewrite Rabs_left, Rabs_left by lra; lra|]. split; [pose proof (Rmax_r z 0); lra|].
    rewrite Ropp_involutive in E. rewrite E. f_equal.
    + apply sum_eq. intros i Hi. rewrite D. rewrite Rminus_0_r, Ropp_0, exp_0.
      replace ((- z) ^ i) with ((-1) ^ i * z ^ i) by (rewrite <- Rpow_mult_distr; f_equal; ring).
      assert (E1 : (-1) ^ i * (-1) ^ i = 1) by (rewrite <- Rpow_mult_distr; replace (-1 * -1) with 1 by ring; apply pow1).
      unfold Rdiv. transitivity (((-1) ^ i * (-1) ^ i) * (z ^ i * / INR (fact i))); [ring|]. rewrite E1. ring.
    + rewrite D, Rminus_0_r. replace ((- z) ^ S n) with ((-1) ^ S n * z ^ S n) by (rewrite <- Rpow_mult_distr; f_equal; ring).
      assert (E1 : (-1) ^ S n * (-1) ^ S n = 1) by (rewrite <- Rpow_mult_distr; replace (-1 * -1) with 1 by ring; apply pow1).
      unfold Rdiv. transitivity (((-1) ^ S n * (-1) ^ S n) * (z ^ S n * / INR (fact (S n)) * exp (- zeta))); [ring|]. rewrite E1. ring.
  - destruct (Taylor_Lagrange exp n 0 z) as (zeta & Hzeta & E); [lra| |].
    { intros t Ht k Hk. eapply is_ex_derive_n, Derive_n_exp. }
    exists zeta. split; [rewrite Rabs_right, Rabs_right by lra; lra|]. split; [pose proof (Rmax_l z 0); lra|].
    rewrite E. f_equal.
    + apply sum_eq. intros i Hi. rewrite (is_derive_n_unique _ _ _ _ (Derive_n_exp i 0)), exp_0, Rminus_0_r. field. apply INR_fact_neq_0.
    + rewrite (is_derive_n_unique _ _ _ _ (Derive_n_exp (S n) zeta)), Rminus_0_r. auto.
Qed.
Lemma fact_INR n : INR (fact (S n)) = INR (S n) * INR (fact n).
Proof. rewrite fact_simpl. apply mult_INR. Qed.
Lemma taylor5 z e : sum_f_R0 (fun m => z ^ m / INR (fact m)) 4 + z ^ 5 / INR (fact 5) * e = rk4_factor z + z ^ 5 / 120 * e.
Proof. cbn [sum_f_R0]. rewrite !fact_INR. change (INR (fact 0)) with 1. unfold rk4_factor. cbn [INR]. field. Qed.
Lemma taylor8 z e : sum_f_R0 (fun m => z ^ m / INR (fact m)) 7 + z ^ 8 / INR (fact 8) * e =
  rk4_factor z + (z ^ 5 * (1 / 120 + z / 720 + z ^ 2 / 5040 + z ^ 3 * e / 40320)).
Proof. cbn [sum_f_R0]. rewrite !fact_INR. change (INR (fact 0)) with 1. unfold rk4_factor. cbn [INR]. field. Qed.
Lemma rk4_factor_exp z : Rabs z <= 1 -> Rabs (rk4_factor z - exp z) <= Rabs z ^ 5 / 100.
Proof.
  intros Hz. destruct (Rtotal_order z 0) as [Hn|[->|Hp]].
  - destruct (exp_taylor 4 z) as (zeta & Hzeta & Hm & ->); [lra|]. rewrite taylor5. rewrite Rmax_right in Hm by lra.
    assert (0 < exp zeta <= 1) by (split; [apply exp_pos|rewrite <- exp_0; destruct Hm as [Hm| ->]; [left; apply exp_increasing; auto|lra]]).
    replace (rk4_factor z - _) with (z ^ 5 * (- exp zeta / 120)) by field.
    rewrite Rabs_mult, <- RPow_abs. unfold Rdiv at 2. apply Rmult_le_compat_l; [apply pow_le, Rabs_pos|].
    rewrite Rabs_left; lra.
  - unfold rk4_factor. rewrite exp_0, Rabs_R0. replace (1 + 0 + 0 ^ 2 / 2 + 0 ^ 3 / 6 + 0 ^ 4 / 24 - 1) with 0 by field. rewrite Rabs_R0. simpl. lra.
  - destruct (exp_taylor 7 z) as (zeta & Hzeta & Hm & ->); [lra|]. rewrite taylor8. rewrite Rmax_left in Hm by lra.
    rewrite (Rabs_right z) in * by lra. assert (He : 0 < exp zeta <= 3).
    { split; [apply exp_pos|]. apply Rle_trans with (exp 1); [|apply exp_le_3].
      assert (zeta <= 1) as [Hl| ->] by lra; [left; apply exp_increasing; auto|lra]. }
    replace (rk4_factor z - _) with (- (z ^ 5 * (1 / 120 + z / 720 + z ^ 2 / 5040 + z ^ 3 * exp zeta / 40320))) by field.
    assert (H1 : 0 <= z ^ 2 <= 1) by nra. assert (H2 : 0 <= z ^ 3 <= 1) by (simpl; nra).
    assert (H3 : 0 <= z ^ 3 * exp zeta <= 3) by nra.
    assert (H5 : 0 <= z ^ 5) by (apply pow_le; lra).
    rewrite Rabs_Ropp, Rabs_right by (apply Rle_ge, Rmult_le_pos; lra).
    unfold Rdiv at 5. apply Rmult_le_compat_l; auto. lra.
Qed.
(** global error of rk4 on y' = lambda y *)
Lemma pow_diff_bound a b M n : Rabs a <= M -> Rabs b <= M -> 0 <= M -> Rabs (a ^ n - b ^ n) <= INR n * M ^ (n - 1) * Rabs (a - b).
Proof.
  intros Ha Hb HM. induction n as [|n IH]; [simpl; rewrite Rminus_eq_0, Rabs_R0; lra|].
  replace (a ^ S n - b ^ S n) with (a * (a ^ n - b ^ n) + (a - b) * b ^ n) by (simpl; ring).
  eapply Rle_trans; [apply Rabs_triang|]. rewrite !Rabs_mult. rewrite S_INR, Nat.sub_succ, Nat.sub_0_r.
  assert (H1 : Rabs (b ^ n) <= M ^ n) by (rewrite <- RPow_abs; apply pow_incr; split; [apply Rabs_pos|auto]).
  assert (H2 : Rabs a * Rabs (a ^ n - b ^ n) <= INR n * M ^ n * Rabs (a - b)).
  { destruct n as [|n]; [simpl; rewrite Rminus_eq_0, Rabs_R0; lra|]. rewrite Nat.sub_succ, Nat.sub_0_r in IH.
    apply Rle_trans with (M * (INR (S n) * M ^ n * Rabs (a - b))).
    - apply Rmult_le_compat; auto using Rabs_pos.
    - apply Req_le. simpl pow. ring. }
  pose proof (Rabs_pos (a - b)). nra.
Qed.
Lemma rk4_factor_le_exp z : Rabs (rk4_factor z) <= exp (Rabs z).
Proof.
  apply Rle_trans with (rk4_factor (Rabs z)).
  - unfold rk4_factor. repeat (eapply Rle_trans; [apply Rabs_triang|]; apply Rplus_le_compat).
    + rewrite Rabs_R1. lra.
    + lra.
    + unfold Rdiv. rewrite Rabs_mult, RPow_abs, (Rabs_right (/ 2)) by lra. lra.
    + unfold Rdiv. rewrite Rabs_mult, RPow_abs, (Rabs_right (/ 6)) by lra. lra.
    + unfold Rdiv. rewrite Rabs_mult, RPow_abs, (Rabs_right (/ 24)) by lra. lra.
  - pose proof (Rabs_pos z) as [Hp|E].
    + destruct (exp_taylor 4 (Rabs z)) as (zeta & _ & _ & ->); [lra|]. rewrite taylor5.
      assert (0 <= Rabs z ^ 5 / 120 * exp zeta).
      { apply Rmult_le_pos; [|left; apply exp_pos]. apply Rmult_le_pos; [apply pow_le; lra|]. lra. }
      lra.
    + rewrite <- E, exp_0. unfold rk4_factor. lra.
Qed.
Lemma exp_INR n z : exp (INR n * z) = exp z ^ n.
Proof. induction n as [|n IH]; [simpl; rewrite Rmult_0_l; apply exp_0|]. rewrite S_INR. simpl. rewrite <- IH, <- exp_plus. f_equal. ring. Qed.
Lemma exp_mono a b : a <= b -> exp a <= exp b.
Proof. intros [H| ->]; [left; apply exp_increasing; auto|lra]. Qed.
Lemma rk4_global_error z n : Rabs z <= 1 -> Rabs (rk4_factor z ^ n - exp (INR n * z)) <= INR n * Rabs z * exp (INR n * Rabs z) * (Rabs z ^ 4 / 100).
Proof.
  intros Hz. rewrite exp_INR. eapply Rle_trans.
  { apply (pow_diff_bound _ _ (exp (Rabs z))); [apply rk4_factor_le_exp| |left; apply exp_pos].
    rewrite Rabs_right by (left; apply exp_pos). apply exp_mono, RRle_abs. }
  apply Rle_trans with (INR n * exp (INR n * Rabs z) * (Rabs z ^ 5 / 100)).
  - apply Rmult_le_compat; [apply Rmult_le_pos; [apply pos_INR|apply pow_le; left; apply exp_pos]|apply Rabs_pos| |apply rk4_factor_exp; auto].
    apply Rmult_le_compat_l; [apply pos_INR|]. rewrite exp_INR. apply Rle_pow; [|lia].
    rewrite <- exp_0. apply exp_mono, Rabs_pos.
  - apply Req_le. simpl. field.
Qed.

(** *** statements in terms of nth *)
Definition gap (ts : list R) (i : nat) : R := nth (S i) ts 0 - nth i ts 0.
Lemma diffs_gap : forall ts ss, length ts = length ss -> (forall i, (S i < length ts)%nat -> gap ts i = gap ss i) -> diffs ts = diffs ss.
Proof.
  induction ts as [|a [|b ts] IH]; intros [|c [|d ss]] L H; try discriminate; try reflexivity.
  unfold diffs in *. rewrite !adjacent_cons. f_equal; [apply (H 0%nat); simpl; lia|].
  apply IH; [simpl in *; lia|]. intros i Hi. apply (H (S i)). simpl in *; lia.
Qed.
Lemma in_diffs_gap : forall ts d, In d (diffs ts) -> exists i, (S i < length ts)%nat /\ d = gap ts i.
Proof.
  induction ts as [|a [|b ts] IH]; intros d H; try (simpl in H; tauto).
  unfold diffs in *. rewrite adjacent_cons in H. destruct H as [<-|H]; [exists 0%nat; split; [simpl; lia|reflexivity]|].
  destruct (IH d H) as (i & Hi & ->). exists (S i). split; [simpl in *; lia|reflexivity].
Qed.
Lemma odeint_widths df method y ts ss : (forall y s t dt, method df y s dt = method df y t dt) -> length ts = length ss ->
  (forall i, (S i < length ts)%nat -> gap ts i = gap ss i) -> odeint df y ts method = odeint df y ss method.
Proof.
  intros H L G. destruct ts as [|t ts], ss as [|s ss]; try discriminate; [reflexivity|]. unfold odeint.
  rewrite (scan_widths df method H ts ss y t s); auto. apply diffs_gap; auto.
Qed.
Lemma odeint_decay lam y ts : ts <> [] -> (forall i, (S i < length ts)%nat -> - (5 / 2) <= lam * gap ts i <= 0) ->
  exists ys, odeint (linear_ode lam) y ts rk4 = Ok ys /\
    forall n i j, (S n < length ts)%nat -> Rabs (entry (nth (S n) ys []) i j) <= Rabs (entry (nth n ys []) i j).
Proof.
  destruct ts as [|t0 ts]; [congruence|]. intros _ H.
  destruct (scan_linear_decay rk4 lam rk4_factor (rk4_linear lam) ts y t0) as (ys & E & Hy).
  { intros t dt Hd _. apply in_diffs_gap in Hd as (i & Hi & ->). apply rk4_factor_bound, H. auto. }
  exists (y :: ys). unfold odeint. rewrite E. split; [reflexivity|]. intros n i j Hn. cbn [nth]. apply Hy. simpl in Hn. lia.
Qed.
Lemma odeint_euler_decay lam y ts : ts <> [] -> (forall i, (S i < length ts)%nat -> - 2 <= lam * gap ts i <= 0) ->
  exists ys, odeint (linear_ode lam) y ts explicit_euler = Ok ys /\
    forall n i j, (S n < length ts)%nat -> Rabs (entry (nth (S n) ys []) i j) <= Rabs (entry (nth n ys []) i j).
Proof.
  destruct ts as [|t0 ts]; [congruence|]. intros _ H.
  destruct (scan_linear_decay explicit_euler lam (fun z => 1 + z) (euler_linear lam) ts y t0) as (ys & E & Hy).
  { intros t dt Hd _. apply in_diffs_gap in Hd as (i & Hi & ->). specialize (H i Hi). apply Rabs_le. lra. }
  exists (y :: ys). unfold odeint. rewrite E. split; [reflexivity|]. intros n i j Hn. cbn [nth]. apply Hy. simpl in Hn. lia.
Qed.
Lemma uniform_grid_cons t0 h n : uniform_grid t0 h (S n) = t0 :: map (fun i => t0 + INR i * h) (seq 1 n).
Proof. unfold uniform_grid. cbn [seq map]. f_equal. simpl. ring. Qed.
Lemma odeint_linear_error lam h y n : Rabs (lam * h) <= 1 -> forall t0, exists ys,
  odeint (linear_ode lam) y (uniform_grid t0 h (S n)) rk4 = Ok ys /\
  forall k i j, (k <= n)%nat ->
    Rabs (entry (nth k ys []) i j - exp (lam * (INR k * h)) * entry y i j) <=
    Rabs (lam * (INR k * h)) * exp (Rabs (lam * (INR k * h))) * (Rabs (lam * h) ^ 4 / 100) * Rabs (entry y i j).
Proof.
  intros Hz t0. rewrite uniform_grid_cons. unfold odeint. rewrite scan_linear_value. eexists. split; [reflexivity|].
  intros k i j Hk.
  assert (E : entry (nth k (y :: map (fun i => tscal (rk4_factor (lam * h) ^ i) y) (seq 1 n)) []) i j = rk4_factor (lam * h) ^ k * entry y i j).
  { destruct k as [|k]; [simpl; ring|]. cbn [nth].
    set (f := fun i => tscal (rk4_factor (lam * h) ^ i) y).
    rewrite (nth_indep (map f (seq 1 n)) [] (f 0%nat)) by (rewrite map_length, seq_length; lia).
    rewrite (map_nth f (seq 1 n) 0%nat k), seq_nth by lia. apply entry_scal. }
  rewrite E, <- Rmult_minus_distr_r, Rabs_mult. apply Rmult_le_compat_r; [apply Rabs_pos|].
  replace (lam * (INR k * h)) with (INR k * (lam * h)) by ring. rewrite Rabs_mult, (Rabs_right (INR k)) by apply Rle_ge, pos_INR.
  apply rk4_global_error. auto.
Qed.
Lemma ex_RInt_pe c a b : ex_RInt (peval c) a b. Proof. apply ex_RInt_peval. Qed.
Lemma odeint_shifted q y t0 h n : q_shape q = shape y -> (forall i j, (length (q_entry q i j) <= 4)%nat) -> exists ys,
  odeint (poly_ode q) y (uniform_grid t0 h (S n)) rk4 = Ok ys /\
  forall k i j, (k <= n)%nat -> entry (nth k ys []) i j = entry y i j + RInt (peval (q_entry q i j)) (t0 + h) (t0 + INR k * h + h).
Proof.
  intros Sq Hq. rewrite uniform_grid_cons. unfold odeint.
  destruct (scan_poly q Hq (map (fun i => t0 + INR i * h) (seq 1 n)) y t0 Sq) as (ys & -> & Hy). eexists. split; [reflexivity|].
  intros k i j Hk. rewrite <- (uniform_shifted (peval (q_entry q i j)) (fun a b => ex_RInt_pe _ a b) h k n t0 Hk).
  destruct k as [|k].
  - cbn [nth]. destruct n; simpl; ring.
  - cbn [nth]. apply Hy. rewrite map_length, seq_length. lia.
Qed.
(** with the time at the START of the step the same scheme would be exact *)
Lemma simpson_unit a b : (b - a) / 6 * (peval [0; 1] a + 4 * peval [0; 1] ((a + b) / 2) + peval [0; 1] b) = RInt (peval [0; 1]) a b.
Proof.
  pose proof (simpson_cubic [0; 1] a (b - a) ltac:(simpl; lia)) as E.
  replace (a + (b - a) / 2) with ((a + b) / 2) in E by field. replace (a + (b - a)) with b in E by ring. rewrite <- E. field.
Qed.
Lemma odeint_time_refuted : exists q y ts ys, q_shape q = shape y /\ (forall i j, (length (q_entry q i j) <= 4)%nat) /\
  odeint (poly_ode q) y ts rk4 = Ok ys /\
  exists k i j, (k < length ts)%nat /\ entry (nth k ys []) i j <> entry y i j + RInt (peval (q_entry q i j)) (nth 0 ts 0) (nth k ts 0).
Proof.
  exists [[[0; 1]]], [[0]], (uniform_grid 0 1 2).
  assert (B : forall i j, (length (q_entry [[[0%R; 1%R]]] i j) <= 4)%nat).
  { intros [|[|i]] [|[|j]]; unfold q_entry; simpl; lia. }
  destruct (odeint_shifted [[[0; 1]]] [[0]] 0 1 1) as (ys & E & H); [reflexivity|auto|].
  exists ys. split; [reflexivity|]. split; [auto|]. split; [auto|]. exists 1%nat, 0%nat, 0%nat. split; [simpl; lia|].
  rewrite H by lia. change (q_entry [[[0; 1]]] 0 0) with [0; 1]. rewrite uniform_grid_cons. cbn [nth seq map].
  rewrite <- !simpson_unit. cbn. lra.
Qed.
Lemma constant_exact df y t dt k : same_shape k y -> (forall z s, same_shape z y -> df z s = Ok k) ->
  exists r, rk4 df y t dt = Ok r /\ explicit_euler df y t dt = Ok r /\ same_shape r y /\
    forall i j, entry r i j = entry y i j + dt * entry k i j.
Proof.
  unfold same_shape. intros Sk Hk. exists (tadd y (tscal dt k)).
  split; [apply rk4_constant; auto|]. split; [apply euler_constant; auto|]. split; [tshape|]. intros. tentry. auto.
Qed.
Lemma equilibrium_fixed df y t dt k : same_shape k y -> (forall i j, entry k i j = 0) -> (forall s, df y s = Ok k) ->
  rk4 df y t dt = Ok y /\ explicit_euler df y t dt = Ok y.
Proof. intros. split; [eapply rk4_equilibrium; eauto|eapply euler_equilibrium; eauto]. Qed.
Lemma odeint_rk4_widths df y ts ss : autonomous df -> length ts = length ss ->
  (forall i, (S i < length ts)%nat -> gap ts i = gap ss i) -> odeint df y ts rk4 = odeint df y ss rk4.
Proof. intros. apply odeint_widths; auto. apply rk4_autonomous; auto. Qed.
Lemma odeint_euler_widths df y ts ss : autonomous df -> length ts = length ss ->
  (forall i, (S i < length ts)%nat -> gap ts i = gap ss i) -> odeint df y ts explicit_euler = odeint df y ss explicit_euler.
Proof. intros. apply odeint_widths; auto. apply euler_autonomous; auto. Qed.

Lemma odeint_mismatch df y t0 t ts k : df y t = Ok k -> length k <> length y ->
  odeint df y (t0 :: t :: ts) rk4 = Err ValueError /\ odeint df y (t0 :: t :: ts) explicit_euler = Err ValueError.
Proof.
  intros E H.
  assert (M : forall c d, tree_add y (tree_scalar_mul c (tree_scalar_mul d k)) = Err ValueError /\ tree_add y (tree_scalar_mul c k) = Err ValueError).
  { intros c d. unfold tree_add, tree_map2, tree_scalar_mul, tree_map1. rewrite !map_length.
    replace (Nat.eqb (length y) (length k)) with false by (symmetry; apply Nat.eqb_neq; auto). auto. }
  unfold odeint. cbn [scan_steps]. unfold rk4, explicit_euler. rewrite E. cbn [bind].
  rewrite (proj1 (M _ _)), (proj2 (M _ 0)). auto.
Qed.
