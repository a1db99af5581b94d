(** TR: acceptance, histories, the nan stall, warm start. *)
From Verif Require Import Base BaseFacts S_RFun P_Vec M_Tree M_XR M_Tr S_Tr S_Ode P_Tree P_Tr1 P_Tr2 P_Tr3 P_Tr4.

(** *** damping *)
Definition damped_op (c : tr_cfg) (h : tree -> tree) : tree -> tree :=
  match damping_factor c with None => h | Some l => fun d => taxpy (h d) l d end.
Lemma damped_computes c H h sh : computes H h sh -> computes (damped c H) (damped_op c h) sh.
Proof.
  intros HC d Sd. destruct (HC d Sd) as [E S]. unfold damped, damped_op. destruct (damping_factor c); [|auto].
  rewrite E, xt_axpy_fin. split; auto. rewrite taxpy_shape; congruence.
Qed.
Lemma damped_linear c h sh : (forall u, shape u = sh -> shape (h u) = sh) -> linear_op h sh -> linear_op (damped_op c h) sh.
Proof.
  intros Hs HL u v a Su Sv. unfold damped_op. destruct (damping_factor c) as [l|]; [|auto].
  pose proof (Hs u Su) as S1. pose proof (Hs v Sv) as S2. rewrite HL by auto.
  assert (A1 : shape (taxpy (h u) a (h v)) = sh) by (rewrite taxpy_shape; congruence). assert (A2 : shape (taxpy u a v) = sh) by (rewrite taxpy_shape; congruence).
  assert (A3 : shape (taxpy (h u) l u) = sh) by (rewrite taxpy_shape; congruence). assert (A4 : shape (taxpy (h v) l v) = sh) by (rewrite taxpy_shape; congruence).
  apply tree_ext; [rewrite !taxpy_shape; congruence|]. intros i j. rewrite !entry_axpy by congruence. ring.
Qed.
Lemma damped_symmetric c h sh : (forall u, shape u = sh -> shape (h u) = sh) -> symmetric_op h sh -> symmetric_op (damped_op c h) sh.
Proof.
  intros Hs HS u v Su Sv. unfold damped_op. destruct (damping_factor c) as [l|]; [|auto].
  rewrite tdot_axpy_l, tdot_axpy_r by (rewrite Hs; congruence). rewrite HS by auto. ring.
Qed.
Lemma damped_model c g h p : (forall l, damping_factor c = Some l -> 0 <= l) -> shape (h p) = shape p ->
  quad_model g h p <= quad_model g (damped_op c h) p.
Proof.
  intros Hl Hs. unfold quad_model, damped_op. destruct (damping_factor c) as [l|]; [|lra]. specialize (Hl l eq_refl).
  rewrite tdot_axpy_r by auto. pose proof (tdot_nonneg p). nra.
Qed.

(** *** no iteration *)
Lemma cg_loop_zero g hvp D e mi : 0 < D -> tnorm g < e \/ iter_limit g mi = 0%nat -> cg_loop g hvp D (Fin e) mi = cg_init (fin g).
Proof.
  intros HD H. unfold cg_loop. destruct (iter_limit g mi) as [|n]; auto. simpl.
  rewrite (cg_inv_cond _ _ _ _ _ _ _ HD (cg_inv_init g D HD)). unfold Rleb. destruct (Rle_dec e (tnorm g)); auto. destruct H; [lra|discriminate].
Qed.
Lemma steihaug_zero g hvp D e mi : 0 < D -> tnorm g < e \/ iter_limit g mi = 0%nat -> cg_p (steihaug (fin g) hvp D (Fin e) mi) = fin (tscal 0 g).
Proof. intros HD H. rewrite steihaug_unfold. cbn [cg_p]. rewrite cg_loop_zero by auto. apply xt_zeros_fin. Qed.
Lemma tadd_zero x g : shape g = shape x -> tadd x (tscal 0 g) = x.
Proof.
  intros H. apply tree_ext; [rewrite shape_map2; rewrite ?shape_scal; auto|]. intros i j. rewrite entry_add, entry_scal by (rewrite shape_scal; auto). ring.
Qed.

(** *** C51 *)
Lemma trial_ratio v v' pred ra : 0 < pred -> xgeb (xdiv (xsub (Fin v) v') (Fin pred)) (Fin ra) = true -> v' = NInf \/ exists w, v' = Fin w /\ w <= v - ra * pred.
Proof.
  intros Hp. destruct v' as [w| | |]; simpl; auto; try discriminate.
  - destruct (Req_EM_T pred 0); [lra|]. simpl. unfold Rleb. destruct (Rle_dec ra ((v + - w) / pred)) as [L|]; [|discriminate]. intros _. right. exists w. split; auto.
    apply (Rmult_le_compat_r pred) in L; [|lra]. replace ((v + - w) / pred * pred) with (v - w) in L by (field; lra). lra.
  - destruct (Rlt_dec pred 0); [lra|]. discriminate.
Qed.
Lemma update_accept_lemma {A} c (f : objective A) x s x' s' v g h :
  regular_at c f x v g h -> eps_ok s -> 0 < tol c -> 0 <= min_tr_radius c -> (forall l, damping_factor c = Some l -> 0 <= l) ->
  update c f (fin x) s = Ok (x', s') ->
  (x' = fin x \/ exists p pred, x' = fin (tadd x p) /\ shape p = shape x /\ tnorm p <= tr_radius s /\ pred = - quad_model g h p /\ 0 < pred /\
     (value s' = NInf \/ exists w, value s' = Fin w /\ w <= v - rho_accept c * pred)) /\ eps_ok s'.
Proof.
  intros ((a & Ev) & Sg & Hc & HL & HS) He Ht Hm Hl HU.
  destruct (update_cases c f (fin x) s x' s' _ _ _ Ev HU) as [(_ & -> & ->)|(HR & v' & a' & g' & Ev' & HX)]; [auto|].
  rewrite xt_norm_fin in *. destruct (inner_eps_lemma c (cg_eps (subproblem s)) (tnorm g) (tnorm_nonneg g) He) as (e & Ee & (E1 & _) & _).
  rewrite Ee in *. assert (HD : 0 < tr_radius s) by lra. assert (He0 : 0 < e) by lra.
  assert (Hs : forall u, shape u = shape x -> shape (h u) = shape x) by (intros u Su; apply Hc; auto).
  set (sub := steihaug (fin g) (damped c (tr_hvp c f (fin x))) (tr_radius s) (Fin e) (maxiter_steihaug c)) in *.
  assert (Eps : cg_eps sub = Fin e) by reflexivity.
  split; [|destruct HX as [(_ & _ & ->)|(_ & _ & ->)]; right; exists e; auto].
  destruct HX as [(G & -> & ->)|(_ & -> & _)]; [|auto].
  destruct (Rlt_dec (tnorm g) e) as [L|L].
  { left. unfold sub. rewrite steihaug_zero by auto. rewrite xt_add_fin, tadd_zero by auto. auto. }
  destruct (iter_limit g (maxiter_steihaug c)) as [|n] eqn:En.
  { left. unfold sub. rewrite steihaug_zero by auto. rewrite xt_add_fin, tadd_zero by auto. auto. }
  right. pose proof (damped_computes c _ h (shape x) Hc) as Dc. pose proof (damped_linear c h (shape x) Hs HL) as DL. pose proof (damped_symmetric c h (shape x) Hs HS) as DS.
  rewrite <- Sg in Dc, DL, DS.
  destruct (steihaug_decrease_lemma g (damped c (tr_hvp c f (fin x))) (damped_op c h) (tr_radius s) e (maxiter_steihaug c) HD He0 Dc DL DS ltac:(lra) ltac:(lia)) as (p & Ep & Sp & Hp & _).
  fold sub in Ep.
  destruct (steihaug_region_lemma g (damped c (tr_hvp c f (fin x))) (tr_radius s) e (maxiter_steihaug c) HD He0) as (p2 & Ep2 & _ & _ & Hreg & _).
  { intros d Sd. exists (damped_op c h d). apply Dc. auto. }
  fold sub in Ep2. assert (p2 = p) by (apply fin_inj; congruence). subst p2.
  assert (Spx : shape p = shape x) by congruence. pose proof (damped_model c g h p Hl ltac:(rewrite Hs; congruence)) as DM.
  exists p, (- quad_model g h p). rewrite Ep, xt_add_fin. split; [auto|]. split; [auto|]. split; [auto|]. split; [auto|]. split; [lra|]. cbn [value].
  rewrite Ep in G. destruct (Hc p Spx) as [Ehp Shp]. rewrite Ehp in G.
  rewrite !xt_vdot_fin in G by congruence.
  apply (trial_ratio v v' (- quad_model g h p) (rho_accept c)); [lra|]. rewrite <- G. unfold quad_model. f_equal. f_equal. simpl. f_equal. lra.
Qed.
Lemma run_monotone_lemma {A} c (f : objective A) sh : regular_obj c f sh -> 0 < tol c -> 0 <= min_tr_radius c -> 0 <= rho_accept c ->
  (forall l, damping_factor c = Some l -> 0 <= l) ->
  forall n x s v a g xs', shape x = sh -> vg f (fin x) = (Fin v, a, g) -> eps_ok s -> describes f (fin x) s -> tr_run c f n (fin x, s) = Ok xs' ->
  exists x' v' a' g', fst xs' = fin x' /\ shape x' = sh /\ vg f (fin x') = (Fin v', a', g') /\ v' <= v /\ eps_ok (snd xs').
Proof.
  intros HO Ht Hm Ha Hl. induction n as [|n IH]; intros x s v a g xs' Sx Ev He Hd; simpl.
  - intros E. injection E as <-. exists x, v, a, g. repeat split; auto. lra.
  - destruct (update c f (fin x) s) as [[x1 s1]|] eqn:EU; [|discriminate]. intros HRun.
    destruct (HO x Sx) as [HO1 _]. destruct (HO1 v a g Ev) as (gr & h & HReg).
    destruct (update_accept_lemma c f x s x1 s1 v gr h HReg He Ht Hm Hl EU) as (HA & He').
    pose proof (describes_step c f (fin x) s x1 s1 Hd EU) as Hd1.
    destruct HA as [->|(p & pred & -> & Sp & _ & _ & Hpr & HV)].
    + apply (IH x s1 v a g xs' Sx Ev He' Hd1 HRun).
    + assert (S1 : shape (tadd x p) = sh) by (rewrite shape_map2; congruence). destruct Hd1 as [Hd1 Hd2].
      destruct HV as [HV|(w & HV & Hw)].
      { exfalso. rewrite HV in Hd1. apply (proj2 (HO _ S1) _ _ Hd1). }
      rewrite HV in Hd1. destruct (IH (tadd x p) s1 w _ _ xs' S1 Hd1 He') as (x' & v' & a' & g' & H1 & H2 & H3 & H4 & H5); auto.
      { split; auto. rewrite HV. auto. }
      exists x', v', a', g'. repeat split; auto. assert (0 <= rho_accept c * pred) by (apply Rmult_le_pos; lra). lra.
Qed.
Lemma eps_ok_init {A} c (f : objective A) x p : eps_ok (init_state c f x p).
Proof. unfold eps_ok, init_state. destruct (vg f x) as [[v a] g]. simpl. auto. Qed.

(** a converged solver: the step is zero and rejected *)
Lemma converged_lemma {A} c (f : objective A) x s x' s' v a g h : vg f (fin x) = (Fin v, a, fin g) -> shape g = shape x ->
  computes (tr_hvp c f (fin x)) h (shape x) -> eps_ok s -> 0 <= min_tr_radius c < tr_radius s -> tnorm g < tol c ->
  update c f (fin x) s = Ok (x', s') -> x' = fin x /\ accepted s' = false /\ rho s' = NaN.
Proof.
  intros Ev Sg Hc He HR Hg HU.
  destruct (update_cases c f (fin x) s x' s' _ _ _ Ev HU) as [(L & _ & _)|(_ & v' & a' & g' & Ev' & HX)]; [lra|].
  rewrite xt_norm_fin in *. destruct (inner_eps_lemma c (cg_eps (subproblem s)) (tnorm g) (tnorm_nonneg g) He) as (e & Ee & (E1 & _) & _).
  rewrite Ee in *. rewrite steihaug_zero in * by lra. rewrite xt_add_fin, tadd_zero in Ev' by auto. rewrite Ev in Ev'. injection Ev' as <- <- <-.
  destruct (Hc (tscal 0 g) ltac:(rewrite shape_scal; auto)) as [Eh Sh]. rewrite Eh in HX.
  rewrite !xt_vdot_fin in HX by (rewrite ?Sh, ?shape_scal; congruence). rewrite tdot_scal_l, tdot_scal_r in HX.
  assert (NN : xdiv (xsub (Fin v) (Fin v)) (xneg (xadd (Fin (0 * tdot g g)) (xmul (Fin (1 / 2)) (Fin (0 * tdot g (h (tscal 0 g))))))) = NaN).
  { simpl. destruct (Req_EM_T _ 0) as [|N]; [|exfalso; apply N; ring]. unfold xinf. replace (v + - v) with 0 by ring. destruct (Rlt_dec 0 0); [lra|auto]. }
  rewrite NN in HX. destruct HX as [(G & _)|(_ & -> & ->)]; [discriminate|]. auto.
Qed.

(** *** C54: a nan trial value stalls the solver *)
Lemma nan_step {A} c (f : objective A) x s : (approx_hvp c = true -> fd_h c <> 0) -> nan_trial c f x s ->
  exists s', update c f x s = Ok (x, s') /\ accepted s' = false /\ tr_radius s' = tr_radius s /\ iter_num s' = (iter_num s + 1)%nat /\ nan_trial c f x s'.
Proof.
  intros HA [HR HN]. destruct (update_total c f x s HA) as (x' & s' & HU). destruct (vg f x) as [[v a] g] eqn:Ev. destruct HN as (a' & g' & EN).
  destruct (update_cases c f x s x' s' _ _ _ Ev HU) as [(L & _ & _)|(_ & v1 & a1 & g1 & Ev' & HX)]; [lra|].
  rewrite EN in Ev'. injection Ev' as <- <- <-.
  assert (NN : forall d, xdiv (xsub v NaN) d = NaN) by (intros d; destruct v; destruct d; reflexivity).
  rewrite NN in HX. destruct HX as [(G & _)|(_ & -> & ->)]; [discriminate|].
  eexists. split; [exact HU|]. cbn [accepted tr_radius iter_num]. 
  assert (RR : update_tr_radius (tr_radius s) (max_tr_radius c) (min_tr_radius c) NaN
     (cg_step_length (steihaug g (damped c (tr_hvp c f x)) (tr_radius s) (inner_eps c (cg_eps (subproblem s)) (xt_norm g)) (maxiter_steihaug c)))
     (rho_increase c) (rho_decrease c) (increase_factor c) (decrease_factor c) = tr_radius s).
  { unfold update_tr_radius. simpl. unfold Rmax. destruct (Rle_dec _ _); auto; lra. }
  split; auto. split; [exact RR|]. split; auto. unfold nan_trial. cbn [tr_radius subproblem]. rewrite RR. split; auto. rewrite Ev.
  exists a', g'. rewrite <- EN.
  assert (EE : inner_eps c (cg_eps (steihaug g (damped c (tr_hvp c f x)) (tr_radius s) (inner_eps c (cg_eps (subproblem s)) (xt_norm g)) (maxiter_steihaug c))) (xt_norm g)
     = inner_eps c (cg_eps (subproblem s)) (xt_norm g)).
  { change (cg_eps (steihaug g (damped c (tr_hvp c f x)) (tr_radius s) (inner_eps c (cg_eps (subproblem s)) (xt_norm g)) (maxiter_steihaug c))) with (inner_eps c (cg_eps (subproblem s)) (xt_norm g)).
    unfold inner_eps. apply xmm_idem. }
  rewrite EE. reflexivity.
Qed.
Lemma nan_stall_lemma {A} c (f : objective A) x s : (approx_hvp c = true -> fd_h c <> 0) -> nan_trial c f x s ->
  forall n, exists s', tr_run c f n (x, s) = Ok (x, s') /\ tr_radius s' = tr_radius s /\ iter_num s' = (iter_num s + n)%nat /\ nan_trial c f x s'.
Proof.
  intros HA HN n. revert s HN. induction n as [|n IH]; intros s HN.
  - exists s. simpl. repeat split; auto; try apply HN; try lia.
  - destruct (nan_step c f x s HA HN) as (s1 & E & _ & R1 & I1 & N1). destruct (IH s1 N1) as (s2 & E2 & R2 & I2 & N2).
    exists s2. simpl. rewrite E. split; auto. split; [congruence|]. split; [lia|auto].
Qed.

(** *** C56 *)
Lemma started_lemma g hvp D e mi : 0 < D -> e <= tnorm g -> (1 <= iter_limit g mi)%nat -> (1 <= cg_iter (steihaug (fin g) hvp D (Fin e) mi))%nat.
Proof. intros HD He Hm. rewrite steihaug_unfold. cbn [cg_iter]. apply cg_loop_started; auto. Qed.
Lemma eps_step {A} c (f : objective A) x s x' s' v a g : vg f x = (v, a, fin g) -> eps_ok s -> min_tr_radius c < tr_radius s -> update c f x s = Ok (x', s') ->
  exists e, cg_eps (subproblem s') = Fin e /\ tol c <= e <= Rmax (tol c) (tnorm g / 2) /\
    (forall q, cg_eps (subproblem s) = Fin q -> e <= Rmax (tol c) q) /\ (tol c <= tnorm g -> e <= tnorm g) /\
    (0 <= min_tr_radius c -> tol c <= tnorm g -> (forall m, maxiter_steihaug c = Some m -> 1 <= m)%nat -> (1 <= length (concat g))%nat -> (1 <= cg_iter (subproblem s'))%nat).
Proof.
  intros Ev He HR HU.
  destruct (update_cases c f x s x' s' _ _ _ Ev HU) as [(L & _ & _)|(_ & v' & a' & g' & Ev' & HX)]; [lra|].
  rewrite xt_norm_fin in *. destruct (inner_eps_lemma c (cg_eps (subproblem s)) (tnorm g) (tnorm_nonneg g) He) as (e & Ee & E1 & E2 & E3).
  rewrite Ee in *. exists e.
  assert (ES : subproblem s' = steihaug (fin g) (damped c (tr_hvp c f x)) (tr_radius s) (Fin e) (maxiter_steihaug c)) by (destruct HX as [(_ & _ & ->)|(_ & _ & ->)]; auto).
  rewrite ES. split; [auto|]. split; [auto|]. split; [auto|]. split; [auto|]. intros Hm Ht HI Hlen. apply started_lemma; auto; [lra|].
  unfold iter_limit. destruct (maxiter_steihaug c) as [m|]; [apply HI; auto|lia].
Qed.
(** C57 *)
Lemma make_tr_lemma c : (rho_decrease c < rho_accept c -> make_tr c = Err ValueError) /\ (rho_accept c <= rho_decrease c -> make_tr c = Ok c).
Proof. unfold make_tr. destruct (Rlt_dec (rho_decrease c) (rho_accept c)); split; auto; lra. Qed.
Lemma warm_start_lemma {A} c (f : objective A) x s : let t := init_state c f x (Some s) in
  iter_num t = iter_num s /\ (min_tr_radius c < tr_radius s -> tr_radius t = tr_radius s) /\ (tr_radius s <= min_tr_radius c -> tr_radius t = init_tr_radius c) /\
  describes f x t.
Proof.
  intros t. split; [|split; [|split; [|apply describes_init]]]; unfold t, init_state; destruct (vg f x) as [[v a] g]; cbn [iter_num tr_radius]; auto;
  destruct (Rle_dec _ _); auto; lra.
Qed.
(** every trial value but nan gives a defined ratio *)
Lemma defined_trial_lemma {A} c c0 (f : objective A) x s x' s' v g h : make_tr c0 = Ok c ->
  regular_at c f x v g h -> eps_ok s -> 0 < tol c -> 0 <= min_tr_radius c < tr_radius s -> (forall l, damping_factor c = Some l -> 0 <= l) ->
  tol c <= tnorm g -> (1 <= iter_limit g (maxiter_steihaug c))%nat -> ~ nan_trial c f (fin x) s ->
  update c f (fin x) s = Ok (x', s') -> accepted s' = false ->
  x' = fin x /\ tr_radius s' = Rmax (tr_radius s * decrease_factor c) (min_tr_radius c).
Proof.
  intros HM ((a & Ev) & Sg & Hc & HL & HS) He Ht Hm Hl Hg Hit HNan HU Hacc. apply (reject_radius c c0 f (fin x) s x' s' HM).
  split; auto. split; [lra|]. split; auto.
  destruct (update_cases c f (fin x) s x' s' _ _ _ Ev HU) as [(L & -> & ->)|(HR & v' & a' & g' & Ev' & HX)]; [lra|].
  destruct HX as [(_ & _ & ->)|(G & -> & ->)]; [discriminate|]. cbn [rho]. clear Hacc HU.
  assert (NN : v' <> NaN) by (intros ->; apply HNan; split; auto; rewrite Ev; eauto).
  rewrite xt_norm_fin in *. destruct (inner_eps_lemma c (cg_eps (subproblem s)) (tnorm g) (tnorm_nonneg g) He) as (e & Ee & (E1 & _) & _ & E3).
  rewrite Ee in *. specialize (E3 Hg).
  assert (Hs : forall u, shape u = shape x -> shape (h u) = shape x) by (intros u Su; apply Hc; auto).
  pose proof (damped_computes c _ h (shape x) Hc) as Dc. pose proof (damped_linear c h (shape x) Hs HL) as DL. pose proof (damped_symmetric c h (shape x) Hs HS) as DS.
  rewrite <- Sg in Dc, DL, DS.
  destruct (steihaug_decrease_lemma g (damped c (tr_hvp c f (fin x))) (damped_op c h) (tr_radius s) e (maxiter_steihaug c) ltac:(lra) ltac:(lra) Dc DL DS E3 Hit) as (p & Ep & Sp & Hp & _).
  rewrite Ep. assert (Spx : shape p = shape x) by congruence. pose proof (damped_model c g h p Hl ltac:(rewrite Hs; congruence)) as DM.
  destruct (Hc p Spx) as [Ehp Shp]. rewrite Ehp. rewrite !xt_vdot_fin by congruence.
  assert (EQ : xneg (xadd (Fin (tdot g p)) (xmul (Fin (1 / 2)) (Fin (tdot p (h p))))) = Fin (- quad_model g h p)) by (unfold quad_model; simpl; f_equal; lra).
  rewrite EQ. destruct v' as [w| | |]; simpl; try congruence.
  - destruct (Req_EM_T _ 0); [lra|discriminate].
  - destruct (Rlt_dec _ 0); [lra|discriminate].
  - destruct (Rlt_dec _ 0); [lra|discriminate].
Qed.
