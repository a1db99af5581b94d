(** TR: number of updates until the tolerance or the minimal radius is reached. *)
From Verif Require Import Base BaseFacts S_RFun P_Vec M_Tree M_XR M_Tr S_Tr S_Ode P_Tree P_Tr1 P_Tr2 P_Tr3 P_Tr4 P_Tr5.

Lemma abs_between u b : Rabs u <= b -> - b <= u <= b.
Proof. intros H. pose proof (Rle_abs u). pose proof (Rle_abs (- u)) as H2. rewrite Rabs_Ropp in H2. lra. Qed.
Lemma damping_nonneg c : (forall l, damping_factor c = Some l -> 0 <= l) -> 0 <= damping c.
Proof. unfold damping. destruct (damping_factor c); intros H; [auto|lra]. Qed.
Lemma damped_form c h p : shape (h p) = shape p -> tdot p (damped_op c h p) = tdot p (h p) + damping c * tdot p p.
Proof. intros Hs. unfold damped_op, damping. destruct (damping_factor c) as [l|]; [|lra]. rewrite tdot_axpy_r by auto. lra. Qed.

(** the Cauchy point with curvature at most K *)
Lemma cauchy_value g h D K q : 0 < D -> 0 < K -> 0 < tnorm g -> linear_op h (shape g) -> (forall u, shape u = shape g -> shape (h u) = shape g) ->
  tdot g (h g) <= K * tdot g g -> (forall t, 0 <= t -> t * tnorm g <= D -> q <= quad_model g h (tscal (- t) g)) ->
  q <= - (Rmin (tnorm g * D) (tnorm g * tnorm g / K) / 2).
Proof.
  intros HD HK Hg HL Hs HB H. pose proof (tnorm_sq g) as N.
  assert (E : forall t, quad_model g h (tscal (- t) g) = - t * tdot g g + t * t * tdot g (h g) / 2).
  { intros t. assert (E : tscal (- t) g = taxpy (tscal 0 g) (- t) g).
    { apply tree_ext; [rewrite taxpy_shape; rewrite ?shape_scal; auto|]. intros i j. rewrite entry_axpy, !entry_scal by (rewrite ?shape_scal; auto). ring. }
    unfold quad_model. rewrite tdot_scal_r. rewrite E at 2. rewrite HL by (rewrite ?shape_scal; auto).
    rewrite op_zero by auto. rewrite tdot_scal_l, tdot_axpy_r, tdot_scal_r by (rewrite shape_scal; rewrite Hs; auto). field. }
  assert (X : forall t, 0 <= t -> t * tnorm g <= D -> t * K <= 1 -> q <= - (t * (tnorm g * tnorm g) / 2)).
  { intros t T1 T2 T3. specialize (H t T1 T2). rewrite E in H. rewrite N.
    assert (t * t * tdot g (h g) <= t * t * (K * tdot g g)) by (apply Rmult_le_compat_l; nra).
    assert (t * (t * K) * tdot g g <= t * 1 * tdot g g) by (apply Rmult_le_compat_r; [apply tdot_nonneg|apply Rmult_le_compat_l; auto]). nra. }
  unfold Rmin. destruct (Rle_dec (tnorm g * D) (tnorm g * tnorm g / K)) as [L|L].
  - assert (T : D / tnorm g * tnorm g = D) by (field; lra). specialize (X (D / tnorm g)).
    replace (D / tnorm g * (tnorm g * tnorm g)) with (tnorm g * D) in X by (field; lra). apply X.
    + apply Rlt_le, Rdiv_lt_0_compat; auto.
    + lra.
    + apply (Rmult_le_reg_r (tnorm g * (tnorm g / K))). { apply Rmult_lt_0_compat; auto. apply Rdiv_lt_0_compat; auto. }
      replace (D / tnorm g * K * (tnorm g * (tnorm g / K))) with (tnorm g * D) by (field; lra).
      replace (1 * (tnorm g * (tnorm g / K))) with (tnorm g * tnorm g / K) by (field; lra). auto.
  - apply Rnot_le_lt in L. specialize (X (/ K)). replace (/ K * (tnorm g * tnorm g)) with (tnorm g * tnorm g / K) in X by (field; lra). apply X.
    + apply Rlt_le, Rinv_0_lt_compat; auto.
    + apply (Rmult_le_reg_l (tnorm g)); auto. replace (tnorm g * (/ K * tnorm g)) with (tnorm g * tnorm g / K) by (field; lra). lra.
    + right. field. lra.
Qed.

Section Problem.
  Context {A : Type} (c : tr_cfg) (f : objective A) (sh : list nat) (F : tree -> R) (G : tree -> tree) (h : tree -> tree -> tree) (B : R).
  Hypothesis HP : smooth_problem c f sh F G h B.
  Hypothesis HO : progress_options c.
  Hypothesis HB : 0 < B.

  (** the predicted decrease at radius D *)
  Definition pred_low (D : R) : R := Rmin (tol c * D) (tol c * tol c / (B + damping c)) / 2.

  (** one update above the tolerance and above the minimal radius *)
  Lemma tr_step x s x' s' : shape x = sh -> eps_ok s -> min_tr_radius c < tr_radius s -> tol c <= tnorm (G x) -> update c f (fin x) s = Ok (x', s') ->
    eps_ok s' /\ exists p pred, shape p = sh /\ tnorm p <= tr_radius s /\ pred = - quad_model (G x) (h x) p /\ pred_low (tr_radius s) <= pred /\ 0 < pred /\
    let rh := (F x - F (taxpy x 1 p)) / pred in
    (exists st, tr_radius s' = update_tr_radius (tr_radius s) (max_tr_radius c) (min_tr_radius c) (Fin rh) st (rho_increase c) (rho_decrease c) (increase_factor c) (decrease_factor c)) /\
    (rho_accept c <= rh /\ x' = fin (taxpy x 1 p) \/ rh < rho_accept c /\ x' = fin x).
  Proof.
    intros Sx He HR Hg HU. destruct (HP x Sx) as [((a & Ev) & Sg & Hc & HL & HS) HBx].
    destruct HO as (Ht & (Hm & Hi & Hf & Hd) & Hd1 & Ha & Hl & Hmi & HA).
    destruct (update_cases c f (fin x) s x' s' _ _ _ Ev HU) as [(L & _ & _)|(_ & v' & a' & g' & Ev' & HX)]; [lra|].
    rewrite xt_norm_fin in *. destruct (inner_eps_lemma c (cg_eps (subproblem s)) (tnorm (G x)) (tnorm_nonneg _) He) as (e & Ee & (E1 & _) & _ & E3).
    rewrite Ee in *. specialize (E3 Hg). assert (HD : 0 < tr_radius s) by lra. assert (He0 : 0 < e) by lra.
    assert (Hs : forall u, shape u = shape x -> shape (h x u) = shape x) by (intros u Su; apply Hc; auto).
    set (sub := steihaug (fin (G x)) (damped c (tr_hvp c f (fin x))) (tr_radius s) (Fin e) (maxiter_steihaug c)) in *.
    assert (Eps : cg_eps sub = Fin e) by reflexivity.
    split; [destruct HX as [(_ & _ & ->)|(_ & _ & ->)]; right; exists e; auto|].
    assert (Hit : (1 <= iter_limit (G x) (maxiter_steihaug c))%nat).
    { unfold iter_limit. destruct (maxiter_steihaug c) as [m|]; [apply Hmi; auto|]. destruct (concat (G x)) as [|y l] eqn:Ec; [|simpl; lia].
      exfalso. unfold tnorm, tdot in Hg. rewrite Ec in Hg. unfold dotR in Hg. simpl in Hg. rewrite sqrt_0 in Hg. lra. }
    pose proof (damped_computes c _ (h x) (shape x) Hc) as Dc. pose proof (damped_linear c (h x) (shape x) Hs HL) as DL. pose proof (damped_symmetric c (h x) (shape x) Hs HS) as DS.
    rewrite <- Sg in Dc, DL, DS.
    destruct (steihaug_decrease_lemma (G x) (damped c (tr_hvp c f (fin x))) (damped_op c (h x)) (tr_radius s) e (maxiter_steihaug c) HD He0 Dc DL DS E3 Hit) as (p & Ep & Sp & Hp & Hcau & _).
    fold sub in Ep.
    destruct (steihaug_region_lemma (G x) (damped c (tr_hvp c f (fin x))) (tr_radius s) e (maxiter_steihaug c) HD He0) as (p2 & Ep2 & _ & _ & Hreg & _).
    { intros d Sd. exists (damped_op c (h x) d). apply Dc. auto. }
    fold sub in Ep2. assert (p2 = p) by (apply fin_inj; congruence). subst p2.
    assert (Spx : shape p = shape x) by congruence. pose proof (damped_model c (G x) (h x) p Hl ltac:(rewrite Hs; congruence)) as DM.
    pose proof (damping_nonneg c Hl) as Hdl.
    assert (HC : quad_model (G x) (damped_op c (h x)) p <= - (Rmin (tnorm (G x) * tr_radius s) (tnorm (G x) * tnorm (G x) / (B + damping c)) / 2)).
    { apply (cauchy_value (G x) (damped_op c (h x)) (tr_radius s) (B + damping c)); auto; try lra.
      - intros u Su. apply Dc. auto.
      - rewrite damped_form by (rewrite Hs; congruence). specialize (HBx (G x) ltac:(congruence)). apply abs_between in HBx. lra. }
    assert (HW : pred_low (tr_radius s) <= Rmin (tnorm (G x) * tr_radius s) (tnorm (G x) * tnorm (G x) / (B + damping c)) / 2).
    { unfold pred_low. apply Rmult_le_compat_r; [lra|]. apply Rmin_glb.
      - eapply Rle_trans; [apply Rmin_l|]. apply Rmult_le_compat_r; lra.
      - eapply Rle_trans; [apply Rmin_r|]. apply Rmult_le_compat_r; [apply Rlt_le, Rinv_0_lt_compat; lra|]. apply Rmult_le_compat; lra. }
    exists p, (- quad_model (G x) (h x) p). split; [congruence|]. split; [auto|]. split; [auto|]. split; [lra|]. split; [lra|].
    rewrite Ep in Ev', HX. rewrite xt_add_fin in *.
    assert (Et : tadd x p = taxpy x 1 p).
    { apply tree_ext; [rewrite shape_map2, taxpy_shape; auto|]. intros i j. rewrite entry_add, entry_axpy by auto. ring. }
    rewrite Et in *. destruct (HP (taxpy x 1 p) ltac:(rewrite taxpy_shape; congruence)) as [((a2 & Ev2) & _) _].
    rewrite Ev2 in Ev'. injection Ev' as <- <- <-. destruct (Hc p Spx) as [Ehp Shp]. rewrite Ehp in HX. rewrite !xt_vdot_fin in HX by congruence.
    assert (EQ : xneg (xadd (Fin (tdot (G x) p)) (xmul (Fin (1 / 2)) (Fin (tdot p (h x p))))) = Fin (- quad_model (G x) (h x) p)) by (unfold quad_model; simpl; f_equal; lra).
    rewrite EQ in HX. set (pred := - quad_model (G x) (h x) p) in *. assert (Hpr : 0 < pred) by (unfold pred; lra).
    assert (ER : xdiv (xsub (Fin (F x)) (Fin (F (taxpy x 1 p)))) (Fin pred) = Fin ((F x - F (taxpy x 1 p)) / pred)).
    { simpl. destruct (Req_EM_T pred 0); [lra|]. auto. }
    rewrite ER in HX. cbv zeta.
    destruct HX as [(HG & -> & ->)|(HG & -> & ->)]; cbn [tr_radius]; (split; [eauto|]); simpl in HG; unfold Rleb in HG; destruct (Rle_dec _ _) in HG; try discriminate.
    - left. auto.
    - right. split; auto. lra.
  Qed.

  Lemma describes_error x s : shape x = sh -> describes f (fin x) s -> error s = Fin (tnorm (G x)).
  Proof. intros Sx [D1 D2]. destruct (HP x Sx) as [((a & Ev) & _) _]. rewrite Ev in D1. injection D1 as _ _ D1. rewrite D2, <- D1. apply xt_norm_fin. Qed.

  (** the solver has reached the tolerance or the minimal radius *)
  Definition invar (x : tree) (s : tr_state A) : Prop :=
    shape x = sh /\ eps_ok s /\ describes f (fin x) s /\ min_tr_radius c <= tr_radius s <= max_tr_radius c.
  Definition stopped (x : tree) (s : tr_state A) : Prop := tnorm (G x) < tol c \/ tr_radius s <= min_tr_radius c.

  Lemma invar_step x s x' s' : invar x s -> update c f (fin x) s = Ok (x', s') ->
    exists x1, x' = fin x1 /\ invar x1 s' /\ (tnorm (G x) < tol c -> x1 = x) /\ (tr_radius s <= min_tr_radius c -> s' = s /\ x1 = x).
  Proof.
    intros (Sx & He & Hd & Hr) HU. destruct (HP x Sx) as [HReg _]. pose proof HO as (Ht & (Hm & Hi & Hf & Hdf) & Hd1 & Ha & Hl & Hmi & HA).
    destruct (update_accept_lemma c f x s x' s' (F x) (G x) (h x) HReg He Ht ltac:(lra) Hl HU) as (HAcc & He').
    pose proof (describes_step c f (fin x) s x' s' Hd HU) as Hd'.
    pose proof (radius_step c f (fin x) s x' s' ltac:(repeat split; lra) Hr HU) as Hr'.
    assert (X : exists x1, x' = fin x1 /\ shape x1 = sh).
    { destruct HAcc as [->|(p & pred & -> & Sp & _)]; [eauto|]. exists (tadd x p). split; auto. rewrite shape_map2; congruence. }
    destruct X as (x1 & -> & S1). exists x1. split; auto. split; [repeat split; auto; try lra; apply Hd'|]. split.
    - intros Hg. destruct (Rle_dec (tr_radius s) (min_tr_radius c)) as [L|L].
      + rewrite update_frozen_lemma in HU by auto. injection HU as HU _. symmetry. apply fin_inj. auto.
      + destruct HReg as ((a & Ev) & Sg & Hc & _). apply fin_inj.
        destruct (converged_lemma c f x s (fin x1) s' (F x) a (G x) (h x) Ev Sg Hc He ltac:(lra) Hg HU) as (E & _). auto.
    - intros L. rewrite update_frozen_lemma in HU by auto. split; [congruence|]. apply fin_inj. congruence.
  Qed.
  Lemma stopped_step x s x1 s' : invar x s -> stopped x s -> update c f (fin x) s = Ok (fin x1, s') -> stopped x1 s'.
  Proof.
    intros HI HS HU. destruct (invar_step x s _ _ HI HU) as (x2 & E & _ & E1 & E2). apply fin_inj in E. subst x2.
    destruct HS as [HS|HS]; [left; rewrite E1; auto|right; destruct (E2 HS) as [-> _]; auto].
  Qed.

  (** the quantity that every update lowers by one *)
  Section Potential.
    Variable L : R.
    Hypothesis HL : bounded_below F sh L.
    Definition potential (x : tree) (s : tr_state A) : R :=
      (F x - L) / (rho_accept c * least_decrease c B) * (shrinks c + 1) + ln (tr_radius s / min_tr_radius c) / ln (/ decrease_factor c).

    Lemma log_pos : 0 < ln (/ decrease_factor c).
    Proof.
      destruct HO as (_ & (_ & _ & _ & Hd) & Hd1 & _). rewrite <- ln_1. apply ln_increasing; [lra|]. rewrite <- Rinv_1. apply Rinv_lt_contravar; lra.
    Qed.
    Lemma log_le r1 r2 : min_tr_radius c <= r1 <= r2 -> ln (r1 / min_tr_radius c) <= ln (r2 / min_tr_radius c).
    Proof.
      intros Hr. destruct HO as (_ & (Hm & _) & _). pose proof (Rinv_0_lt_compat _ Hm). assert (r1 / min_tr_radius c <= r2 / min_tr_radius c) by (apply Rmult_le_compat_r; lra).
      assert (0 < r1 / min_tr_radius c) by (apply Rdiv_lt_0_compat; lra). destruct (Req_dec (r1 / min_tr_radius c) (r2 / min_tr_radius c)) as [->|]; [lra|]. left. apply ln_increasing; lra.
    Qed.
    Lemma log_nonneg r : min_tr_radius c <= r -> 0 <= ln (r / min_tr_radius c) / ln (/ decrease_factor c).
    Proof.
      intros Hr. destruct HO as (_ & (Hm & _) & _). pose proof (log_le (min_tr_radius c) r ltac:(lra)) as H. replace (min_tr_radius c / min_tr_radius c) with 1 in H by (field; lra).
      rewrite ln_1 in H. pose proof log_pos. apply Rmult_le_pos; auto. left. apply Rinv_0_lt_compat; auto.
    Qed.
    Lemma log_shrinks r : min_tr_radius c <= r <= max_tr_radius c -> ln (r / min_tr_radius c) / ln (/ decrease_factor c) <= shrinks c.
    Proof. intros Hr. unfold shrinks. apply Rmult_le_compat_r; [left; apply Rinv_0_lt_compat, log_pos|]. apply log_le; auto. Qed.
    Lemma least_pos : 0 < least_decrease c B.
    Proof.
      destruct HO as (Ht & (Hm & _) & _ & _ & Hl & _). pose proof (damping_nonneg c Hl). unfold least_decrease. apply Rmult_lt_0_compat; [|lra].
      apply Rmin_glb_lt; [nra|]. apply Rdiv_lt_0_compat; nra.
    Qed.
    Lemma potential_nonneg x s : invar x s -> 0 <= potential x s.
    Proof.
      intros (Sx & _ & _ & Hr). unfold potential. pose proof (HL x Sx). pose proof (log_nonneg (tr_radius s) ltac:(lra)). pose proof (log_shrinks (tr_radius s) Hr).
      destruct HO as (_ & _ & _ & Ha & _). pose proof least_pos. assert (0 <= (F x - L) / (rho_accept c * least_decrease c B)).
      { apply Rmult_le_pos; [lra|]. left. apply Rinv_0_lt_compat. apply Rmult_lt_0_compat; lra. }
      assert (0 <= (F x - L) / (rho_accept c * least_decrease c B) * (shrinks c + 1)) by (apply Rmult_le_pos; lra). lra.
    Qed.
    Lemma potential_step x s x1 s' : invar x s -> ~ stopped x s -> update c f (fin x) s = Ok (fin x1, s') -> stopped x1 s' \/ potential x1 s' <= potential x s - 1.
    Proof.
      intros HI HN HU. pose proof HI as (Sx & He & Hd & Hr). destruct (invar_step x s _ _ HI HU) as (x2 & E & HI' & _). apply fin_inj in E. subst x2.
      assert (Hg : tol c <= tnorm (G x)) by (apply Rnot_lt_le; intros X; apply HN; left; auto).
      assert (HR : min_tr_radius c < tr_radius s) by (apply Rnot_le_lt; intros X; apply HN; right; auto).
      destruct (tr_step x s _ _ Sx He HR Hg HU) as (_ & p & pred & Sp & Np & Ep & Hlow & Hpos & (st & Er) & HX).
      destruct HI' as (S1 & _ & _ & Hr'). pose proof HO as (Ht & (Hm & Hi & Hf & Hdf) & Hd1 & Ha & Hl & Hmi & HA). pose proof least_pos as HLP. pose proof log_pos as HLG.
      destruct HX as [(Hacc & E)|(Hrej & E)]; apply fin_inj in E; subst x1.
      - right. unfold potential. pose proof (log_nonneg (tr_radius s) ltac:(lra)). pose proof (log_shrinks (tr_radius s') Hr').
        assert (H1 : F (taxpy x 1 p) <= F x - rho_accept c * least_decrease c B).
        { assert (least_decrease c B <= pred).
          { eapply Rle_trans; [|apply Hlow]. unfold least_decrease, pred_low. apply Rmult_le_compat_r; [lra|]. apply Rle_min_compat_r. apply Rmult_le_compat_l; lra. }
          apply (Rmult_le_compat_r pred) in Hacc; [|lra]. replace ((F x - F (taxpy x 1 p)) / pred * pred) with (F x - F (taxpy x 1 p)) in Hacc by (field; lra). nra. }
        assert (H2 : (F (taxpy x 1 p) - L) / (rho_accept c * least_decrease c B) <= (F x - L) / (rho_accept c * least_decrease c B) - 1).
        { assert (0 < rho_accept c * least_decrease c B) by (apply Rmult_lt_0_compat; lra). apply (Rmult_le_reg_r (rho_accept c * least_decrease c B)); auto.
          replace ((F (taxpy x 1 p) - L) / (rho_accept c * least_decrease c B) * (rho_accept c * least_decrease c B)) with (F (taxpy x 1 p) - L) by (field; nra).
          replace (((F x - L) / (rho_accept c * least_decrease c B) - 1) * (rho_accept c * least_decrease c B)) with (F x - L - rho_accept c * least_decrease c B) by (field; nra). lra. }
        pose proof (log_nonneg (tr_radius s') ltac:(lra)). apply (Rmult_le_compat_r (shrinks c + 1)) in H2; [|lra]. lra.
      - destruct (Rle_dec (tr_radius s') (min_tr_radius c)) as [L1|L1]; [left; right; auto|]. right.
        assert (E1 : tr_radius s' = tr_radius s * decrease_factor c).
        { rewrite Er in L1 |- *. unfold update_tr_radius in *. simpl in *. unfold Rltb in *. destruct (Rlt_dec _ (rho_decrease c)); [|lra]. unfold Rmax in *. destruct (Rle_dec _ _); lra. }
        unfold potential. rewrite E1. replace (tr_radius s * decrease_factor c / min_tr_radius c) with ((tr_radius s / min_tr_radius c) * decrease_factor c) by (field; lra).
        rewrite ln_mult; [|apply Rdiv_lt_0_compat; lra|lra]. rewrite ln_Rinv in * by lra.
        assert (EE : (ln (tr_radius s / min_tr_radius c) + ln (decrease_factor c)) / - ln (decrease_factor c) = ln (tr_radius s / min_tr_radius c) / - ln (decrease_factor c) - 1) by (field; lra).
        lra.
    Qed.
    Lemma potential_run : forall n x s xs', invar x s -> tr_run c f n (fin x, s) = Ok xs' ->
      exists x', fst xs' = fin x' /\ invar x' (snd xs') /\ (stopped x' (snd xs') \/ potential x' (snd xs') <= potential x s - INR n).
    Proof.
      induction n as [|n IH]; intros x s xs' HI; simpl tr_run.
      - intros E. injection E as <-. exists x. split; auto. split; auto. right. simpl. lra.
      - destruct (update c f (fin x) s) as [[y s1]|] eqn:EU; [|discriminate]. intros HRun.
        destruct (invar_step x s _ _ HI EU) as (x1 & -> & HI1 & _). destruct (IH x1 s1 xs' HI1 HRun) as (x' & E' & HI' & HC).
        exists x'. split; auto. split; auto.
        assert (SR : stopped x1 s1 -> stopped x' (snd xs')).
        { clear IH HC EU HI. revert x1 s1 HI1 HRun. induction n as [|n IHn]; intros x1 s1 HI1 HRun HS; simpl in HRun.
          - injection HRun as <-. simpl in *. apply fin_inj in E'. subst. auto.
          - destruct (update c f (fin x1) s1) as [[y2 s2]|] eqn:EU; [|discriminate]. destruct (invar_step x1 s1 _ _ HI1 EU) as (x2 & -> & HI2 & _).
            apply (IHn x2 s2 HI2 HRun). apply (stopped_step x1 s1 x2 s2); auto. }
        destruct HC as [HC|HC]; [auto|]. rewrite S_INR.
        destruct (Classical_Prop.classic (stopped x s)) as [HS|HS]; [left; apply SR; apply (stopped_step x s x1 s1); auto|].
        destruct (potential_step x s x1 s1 HI HS EU) as [HS1|HS1]; [left; auto|right; lra].
    Qed.
    Lemma invar_init x p : shape x = sh -> (forall s, p = Some s -> tr_radius s <= max_tr_radius c) -> invar x (init_state c f (fin x) p).
    Proof.
      intros Sx Hp. split; auto. split; [apply eps_ok_init|]. split; [apply describes_init|]. apply radius_init; auto. apply HO.
    Qed.
    Lemma stops_lemma n x p xs : shape x = sh -> (forall s, p = Some s -> tr_radius s <= max_tr_radius c) ->
      tr_run c f n (fin x, init_state c f (fin x) p) = Ok xs -> tr_budget c B (F x - L) < INR n ->
      exists x', fst xs = fin x' /\ invar x' (snd xs) /\ stopped x' (snd xs).
    Proof.
      intros Sx Hp HRun HN. pose proof (invar_init x p Sx Hp) as HI. destruct (potential_run n x _ xs HI HRun) as (x' & E & HI' & [HS|HS]); [eauto|].
      exfalso. pose proof (potential_nonneg _ _ HI'). destruct HI as (_ & _ & _ & Hr). pose proof (log_shrinks _ Hr). unfold potential in HS at 2. unfold tr_budget in HN. lra.
    Qed.
  End Potential.

  (** with the descent inequality the radius stays away from zero *)
  Section Descent.
    Variable M : R.
    Hypothesis HM : 0 <= M.
    Hypothesis HD : descent_bound F G sh M.
    Hypothesis Hrd : rho_decrease c < 1.
    Definition safe_radius : R := tol c * Rmin (/ (B + damping c)) ((1 - rho_decrease c) / (M + B)).

    Lemma safe_step x s x' s' : shape x = sh -> eps_ok s -> min_tr_radius c < tr_radius s -> tol c <= tnorm (G x) -> update c f (fin x) s = Ok (x', s') ->
      tr_radius s <= max_tr_radius c -> tr_radius s <= safe_radius -> tr_radius s <= tr_radius s'.
    Proof.
      intros Sx He HR Hg HU Hmax Hsafe. destruct (tr_step x s x' s' Sx He HR Hg HU) as (_ & p & pred & Sp & Np & Ep & Hlow & Hpos & (st & Er) & _).
      pose proof HO as (Ht & (Hm & Hi & Hf & Hdf) & Hd1 & Ha & Hl & Hmi & HA). pose proof (damping_nonneg c Hl) as Hdl. set (D := tr_radius s) in *.
      assert (S1 : D * (B + damping c) <= tol c).
      { assert (D <= tol c * / (B + damping c)) by (eapply Rle_trans; [apply Hsafe|]; apply Rmult_le_compat_l; [lra|apply Rmin_l]).
        apply (Rmult_le_compat_r (B + damping c)) in H; [|lra]. replace (tol c * / (B + damping c) * (B + damping c)) with (tol c) in H by (field; lra). auto. }
      assert (S2 : D * (M + B) <= tol c * (1 - rho_decrease c)).
      { assert (D <= tol c * ((1 - rho_decrease c) / (M + B))) by (eapply Rle_trans; [apply Hsafe|]; apply Rmult_le_compat_l; [lra|apply Rmin_r]).
        apply (Rmult_le_compat_r (M + B)) in H; [|lra]. replace (tol c * ((1 - rho_decrease c) / (M + B)) * (M + B)) with (tol c * (1 - rho_decrease c)) in H by (field; lra). auto. }
      assert (HP1 : tol c * D / 2 <= pred).
      { eapply Rle_trans; [|apply Hlow]. unfold pred_low. fold D. apply Rmult_le_compat_r; [lra|]. apply Rmin_glb; [lra|].
        apply (Rmult_le_reg_r (B + damping c)); [lra|]. replace (tol c * tol c / (B + damping c) * (B + damping c)) with (tol c * tol c) by (field; lra). nra. }
      assert (HN : tdot p p <= D * D) by (rewrite <- tnorm_sq; pose proof (tnorm_nonneg p); apply Rmult_le_compat; lra).
      assert (HRho : rho_decrease c <= (F x - F (taxpy x 1 p)) / pred).
      { apply (Rmult_le_reg_r pred); auto. replace ((F x - F (taxpy x 1 p)) / pred * pred) with (F x - F (taxpy x 1 p)) by (field; lra).
        pose proof (HD x p Sx Sp) as HDx. destruct (HP x Sx) as [_ HBx]. specialize (HBx p Sp). apply abs_between in HBx. unfold quad_model in Ep.
        assert (H1 : F x - F (taxpy x 1 p) >= pred - (M + B) / 2 * tdot p p) by lra.
        assert (H2 : (M + B) / 2 * tdot p p <= (M + B) / 2 * (D * D)) by (apply Rmult_le_compat_l; lra).
        assert (H3 : (M + B) / 2 * (D * D) <= (1 - rho_decrease c) * (tol c * D / 2)) by nra.
        assert (H4 : (1 - rho_decrease c) * (tol c * D / 2) <= (1 - rho_decrease c) * pred) by (apply Rmult_le_compat_l; lra). lra. }
      rewrite Er. unfold update_tr_radius. simpl. unfold Rltb at 1. destruct (Rlt_dec _ (rho_decrease c)); [lra|]. eapply Rle_trans; [|apply Rmax_l].
      destruct (andb _ _); [|lra]. apply Rmin_glb; nra.
    Qed.
    Lemma radius_low x s x' s' r0 : invar x s -> update c f (fin x) s = Ok (x', s') -> min_tr_radius c < Rmin r0 (decrease_factor c * safe_radius) ->
      Rmin r0 (decrease_factor c * safe_radius) <= tr_radius s -> tol c <= tnorm (G x) -> Rmin r0 (decrease_factor c * safe_radius) <= tr_radius s'.
    Proof.
      intros (Sx & He & Hd & Hr) HU Hlow HR Hg. set (low := Rmin r0 (decrease_factor c * safe_radius)) in *. assert (Hr1 : min_tr_radius c < tr_radius s) by lra.
      destruct (Rle_dec (tr_radius s) safe_radius) as [L|L].
      - eapply Rle_trans; [apply HR|]. apply (safe_step x s x' s'); auto; lra.
      - pose proof HO as (Ht & (Hm & Hi & Hf & Hdf) & _). destruct (tr_step x s x' s' Sx He Hr1 Hg HU) as (_ & p & pred & _ & _ & _ & _ & _ & (st & Er) & _).
        assert (HL2 : low <= decrease_factor c * safe_radius) by apply Rmin_r. rewrite Er. unfold update_tr_radius. eapply Rle_trans; [|apply Rmax_l].
        destruct (xltb _ _); [apply Rnot_le_lt in L; assert (decrease_factor c * safe_radius <= decrease_factor c * tr_radius s) by (apply Rmult_le_compat_l; lra); lra|].
        destruct (andb _ _); [|lra]. apply Rmin_glb; nra.
    Qed.
    Lemma radius_low_run r0 : min_tr_radius c < Rmin r0 (decrease_factor c * safe_radius) -> forall n x s xs', invar x s ->
      tnorm (G x) < tol c \/ Rmin r0 (decrease_factor c * safe_radius) <= tr_radius s -> tr_run c f n (fin x, s) = Ok xs' ->
      exists x', fst xs' = fin x' /\ (tnorm (G x') < tol c \/ Rmin r0 (decrease_factor c * safe_radius) <= tr_radius (snd xs')).
    Proof.
      intros Hlow. induction n as [|n IH]; intros x s xs' HI HC; simpl tr_run.
      - intros E. injection E as <-. exists x. auto.
      - destruct (update c f (fin x) s) as [[y s1]|] eqn:EU; [|discriminate]. intros HRun. destruct (invar_step x s _ _ HI EU) as (x1 & -> & HI1 & E1 & _).
        apply (IH x1 s1 xs' HI1); auto. destruct (Rlt_dec (tnorm (G x)) (tol c)) as [L|L]; [left; rewrite E1; auto|].
        right. destruct HC as [HC|HC]; [lra|]. apply (radius_low x s (fin x1) s1); auto; lra.
    Qed.
    Lemma converges_lemma L n x p xs : bounded_below F sh L -> shape x = sh -> (forall s, p = Some s -> tr_radius s <= max_tr_radius c) ->
      min_tr_radius c < init_tr_radius c -> min_tr_radius c < decrease_factor c * safe_radius ->
      tr_run c f n (fin x, init_state c f (fin x) p) = Ok xs -> tr_budget c B (F x - L) < INR n ->
      exists x', fst xs = fin x' /\ shape x' = sh /\ error (snd xs) = Fin (tnorm (G x')) /\ tnorm (G x') < tol c.
    Proof.
      intros HL Sx Hp Hin Hs HRun HN. destruct (stops_lemma L HL n x p xs Sx Hp HRun HN) as (x' & E & HI & HS).
      exists x'. split; auto. split; [apply HI|]. split; [apply describes_error; apply HI|].
      assert (Hr0 : min_tr_radius c < tr_radius (init_state c f (fin x) p)).
      { unfold init_state. destruct (vg f (fin x)) as [[v a] g]. cbn [tr_radius]. destruct p as [s|]; auto. destruct (Rle_dec _ _); lra. }
      assert (Hlow : min_tr_radius c < Rmin (tr_radius (init_state c f (fin x) p)) (decrease_factor c * safe_radius)) by (apply Rmin_glb_lt; auto).
      destruct (radius_low_run _ Hlow n x _ xs (invar_init x p Sx Hp)) as (x2 & E2 & HC); auto.
      { right. apply Rmin_l. }
      assert (x2 = x') by (apply fin_inj; congruence). subst x2. destruct HS as [HS|HS]; auto. destruct HC as [HC|HC]; auto. lra.
    Qed.
  End Descent.
End Problem.
