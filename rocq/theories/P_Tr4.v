(** TR.update. *)
From Verif Require Import Base BaseFacts S_RFun P_Vec M_Tree M_XR M_Tr S_Tr S_Ode P_Tree P_Tr1 P_Tr2 P_Tr3.

(** *** C56: the inner tolerance *)
Lemma Rmin_half_pow n p : 0 <= n -> exists m, xmin (Fin (1 / 2)) (xpow (Fin n) p) = Fin m /\ 0 <= m <= 1 / 2.
Proof.
  intros Hn. unfold xpow. destruct (Req_EM_T p 0).
  { exists (1 / 2). simpl. unfold Rleb. destruct (Rle_dec (1 / 2) 1); split; auto; lra. }
  destruct (Rlt_dec n 0); [lra|]. destruct (Req_EM_T n 0).
  - destruct (Rlt_dec p 0).
    + exists (1 / 2). simpl. split; auto; lra.
    + exists 0. simpl. unfold Rleb. destruct (Rle_dec (1 / 2) 0); split; auto; lra.
  - simpl. unfold Rleb. pose proof (exp_pos (p * ln n)) as HP. fold (Rpower n p) in HP.
    destruct (Rle_dec (1 / 2) (Rpower n p)); eexists; split; try reflexivity; lra.
Qed.
Lemma xmax_fin a b : xmax (Fin a) (Fin b) = Fin (Rmax a b).
Proof. simpl. unfold Rleb, Rmax. destruct (Rle_dec a b); auto. Qed.
Lemma xmin_fin a b : xmin (Fin a) (Fin b) = Fin (Rmin a b).
Proof. simpl. unfold Rleb, Rmin. destruct (Rle_dec a b); auto. Qed.
Lemma inner_eps_lemma c pe n : 0 <= n -> (pe = PInf \/ exists e, pe = Fin e) ->
  exists e, inner_eps c pe (Fin n) = Fin e /\ tol c <= e <= Rmax (tol c) (n / 2) /\
    (forall q, pe = Fin q -> e <= Rmax (tol c) q) /\ (tol c <= n -> e <= n).
Proof.
  intros Hn Hp. unfold inner_eps. destruct (Rmin_half_pow n (forcing_parameter c) Hn) as (m & E & Hm). rewrite E.
  change (xmul (Fin m) (Fin n)) with (Fin (m * n)). assert (Hmn : m * n <= n / 2) by nra. destruct Hp as [->|(q & ->)].
  - assert (EM : xmin PInf (Fin (m * n)) = Fin (m * n)) by reflexivity. rewrite EM, xmax_fin. exists (Rmax (tol c) (m * n)). split; auto.
    unfold Rmax. destruct (Rle_dec (tol c) (m * n)), (Rle_dec (tol c) (n / 2)); repeat split; try lra; discriminate.
  - rewrite xmin_fin, xmax_fin. exists (Rmax (tol c) (Rmin q (m * n))). split; auto.
    assert (Rmin q (m * n) <= q) by apply Rmin_l. assert (Rmin q (m * n) <= m * n) by apply Rmin_r.
    assert (X : forall y, Rmin q (m * n) <= y -> Rmax (tol c) (Rmin q (m * n)) <= Rmax (tol c) y) by (intros; apply Rle_max_compat_l; auto).
    split; [split; [apply Rmax_l|apply X; lra]|]. split; [intros q' Eq; apply X; congruence|]. intros Ht. apply Rmax_lub; lra.
Qed.
Lemma xmm_idem a p q : xmax a (xmin (xmax a (xmin p q)) q) = xmax a (xmin p q).
Proof.
  destruct a as [a| | |], p as [p| | |], q as [q| | |]; simpl; auto;
  unfold Rleb; repeat (match goal with |- context [Rle_dec ?x ?y] => destruct (Rle_dec x y) end; unfold xmin, xleb, Rleb; simpl); auto; try (exfalso; lra);
  try (f_equal; lra).
Qed.

(** *** C52, C53: the radius *)
Lemma radius_bounds_lemma r M m rh sz ri rd fi fd : 0 < m -> m <= M -> m <= r <= M -> 1 <= fi -> 0 < fd <= 1 ->
  m <= update_tr_radius r M m rh sz ri rd fi fd <= M.
Proof.
  intros Hm HM Hr Hi Hd. unfold update_tr_radius. destruct (xltb rh (Fin rd)); [|destruct (andb _ _)].
  - assert (r * fd <= r) by nra. split; [apply Rmax_r|apply Rmax_lub; lra].
  - split; [apply Rmax_r|apply Rmax_lub; auto]. apply Rmin_r.
  - split; [apply Rmax_r|apply Rmax_lub; lra].
Qed.

(** *** update, case by case *)
Lemma update_frozen_lemma {A} c (f : objective A) x s : (approx_hvp c = true -> fd_h c <> 0) -> tr_radius s <= min_tr_radius c -> update c f x s = Ok (x, s).
Proof.
  intros HA Hr. unfold update. destruct (andb (approx_hvp c) (Reqb (fd_h c) 0)) eqn:E.
  { apply Bool.andb_true_iff in E as [E1 E2]. apply Reqb_true in E2. exfalso. apply HA; auto. }
  destruct (vg f x) as [[v a] g]. destruct (Rle_dec (tr_radius s) (min_tr_radius c)); [auto|lra].
Qed.
Lemma update_cases {A} c (f : objective A) x s x' s' v a g : vg f x = (v, a, g) -> update c f x s = Ok (x', s') ->
  (tr_radius s <= min_tr_radius c /\ x' = x /\ s' = s) \/
  (min_tr_radius c < tr_radius s /\
   let eps := inner_eps c (cg_eps (subproblem s)) (xt_norm g) in
   let sub := steihaug g (damped c (tr_hvp c f x)) (tr_radius s) eps (maxiter_steihaug c) in
   exists v' a' g', vg f (xt_add x (cg_p sub)) = (v', a', g') /\
   let rh := xdiv (xsub v v') (xneg (xadd (xt_vdot g (cg_p sub)) (xmul (Fin (1 / 2)) (xt_vdot (cg_p sub) (tr_hvp c f x (cg_p sub)))))) in
   let radius := update_tr_radius (tr_radius s) (max_tr_radius c) (min_tr_radius c) rh (cg_step_length sub) (rho_increase c) (rho_decrease c) (increase_factor c) (decrease_factor c) in
   (xgeb rh (Fin (rho_accept c)) = true /\ x' = xt_add x (cg_p sub) /\ s' = mkTrs (iter_num s + 1) true v' g' (xt_norm g') rh radius a' sub) \/
   (xgeb rh (Fin (rho_accept c)) = false /\ x' = x /\ s' = mkTrs (iter_num s + 1) false v g (xt_norm g) rh radius a sub)).
Proof.
  intros Ev E. unfold update in E. destruct (andb (approx_hvp c) (Reqb (fd_h c) 0)); [discriminate|]. rewrite Ev in E.
  destruct (Rle_dec (tr_radius s) (min_tr_radius c)) as [L|L].
  - injection E as <- <-. left. auto.
  - right. split; [lra|]. intros eps sub. fold eps in E. fold sub in E.
    destruct (vg f (xt_add x (cg_p sub))) as [[v' a'] g'] eqn:Ev'. exists v', a', g'. split; [reflexivity|]. intros rh radius. fold rh in E. fold radius in E.
    destruct (xgeb rh (Fin (rho_accept c))); [left|right]; repeat split; congruence.
Qed.
(** C55 *)
Lemma describes_init {A} c (f : objective A) x p : describes f x (init_state c f x p).
Proof. unfold describes, init_state. destruct (vg f x) as [[v a] g]. simpl. auto. Qed.
Lemma describes_step {A} c (f : objective A) x s x' s' : describes f x s -> update c f x s = Ok (x', s') -> describes f x' s'.
Proof.
  intros HD HU. destruct (vg f x) as [[v a] g] eqn:Ev. destruct (update_cases c f x s x' s' v a g Ev HU) as [(_ & -> & ->)|(_ & v' & a' & g' & E' & [(_ & -> & ->)|(_ & -> & ->)])]; auto.
  - split; simpl; auto.
  - split; simpl; auto.
Qed.
Lemma describes_run {A} c (f : objective A) : forall n xs xs', describes f (fst xs) (snd xs) -> tr_run c f n xs = Ok xs' -> describes f (fst xs') (snd xs').
Proof.
  induction n as [|n IH]; intros xs xs' HD; simpl; [intros E; injection E as <-; auto|].
  destruct (update c f (fst xs) (snd xs)) as [[x1 s1]|] eqn:E; [|discriminate]. apply IH. simpl. eapply describes_step; eauto.
Qed.
(** iter_num: every update counts, unless the radius is at the minimum, then nothing changes for ever *)
Lemma iter_step {A} c (f : objective A) x s x' s' : update c f x s = Ok (x', s') ->
  (tr_radius s <= min_tr_radius c -> x' = x /\ s' = s) /\ (min_tr_radius c < tr_radius s -> iter_num s' = (iter_num s + 1)%nat).
Proof.
  intros HU. destruct (vg f x) as [[v a] g] eqn:Ev. destruct (update_cases c f x s x' s' v a g Ev HU) as [(L & -> & ->)|(L & v' & a' & g' & E' & [(_ & -> & ->)|(_ & -> & ->)])].
  - split; auto. lra.
  - split; [lra|auto].
  - split; [lra|auto].
Qed.
Lemma frozen_run {A} c (f : objective A) n xs : (approx_hvp c = true -> fd_h c <> 0) -> tr_radius (snd xs) <= min_tr_radius c -> tr_run c f n xs = Ok xs.
Proof.
  intros HA HR. induction n as [|n IH]; simpl; auto. rewrite update_frozen_lemma by auto. destruct xs. auto.
Qed.
Lemma update_total {A} c (f : objective A) x s : (approx_hvp c = true -> fd_h c <> 0) -> exists x' s', update c f x s = Ok (x', s').
Proof.
  intros HA. unfold update. destruct (andb (approx_hvp c) (Reqb (fd_h c) 0)) eqn:E.
  { apply Bool.andb_true_iff in E as [E1 E2]. apply Reqb_true in E2. exfalso. apply HA; auto. }
  destruct (vg f x) as [[v a] g]. destruct (Rle_dec (tr_radius s) (min_tr_radius c)); [eauto|].
  destruct (vg f (xt_add x _)) as [[v' a'] g']. eauto.
Qed.
(** C52 *)
Lemma radius_step {A} c (f : objective A) x s x' s' : good_radii c -> min_tr_radius c <= tr_radius s <= max_tr_radius c ->
  update c f x s = Ok (x', s') -> min_tr_radius c <= tr_radius s' <= max_tr_radius c.
Proof.
  intros (Hm & Hi & Hf & Hd) HR HU. destruct (vg f x) as [[v a] g] eqn:Ev.
  destruct (update_cases c f x s x' s' v a g Ev HU) as [(_ & _ & ->)|(_ & v' & a' & g' & _ & [(_ & _ & ->)|(_ & _ & ->)])]; auto; cbn [tr_radius];
  apply radius_bounds_lemma; auto; lra.
Qed.
Lemma radius_run {A} c (f : objective A) : good_radii c -> forall n xs xs', min_tr_radius c <= tr_radius (snd xs) <= max_tr_radius c ->
  tr_run c f n xs = Ok xs' -> min_tr_radius c <= tr_radius (snd xs') <= max_tr_radius c.
Proof.
  intros HG. induction n as [|n IH]; intros xs xs' HR; simpl; [intros E; injection E as <-; auto|].
  destruct (update c f (fst xs) (snd xs)) as [[x1 s1]|] eqn:E; [|discriminate]. apply IH. simpl. eapply radius_step; eauto.
Qed.
Lemma radius_init {A} c (f : objective A) x p : good_radii c -> (forall s, p = Some s -> tr_radius s <= max_tr_radius c) ->
  min_tr_radius c <= tr_radius (init_state c f x p) <= max_tr_radius c.
Proof.
  intros (Hm & Hi & _) HP. unfold init_state. destruct (vg f x) as [[v a] g]. cbn [tr_radius]. destruct p as [s|]; auto.
  specialize (HP s eq_refl). destruct (Rle_dec (tr_radius s) (min_tr_radius c)); lra.
Qed.
(** C53 *)
Lemma reject_radius {A} c c0 (f : objective A) x s x' s' : make_tr c0 = Ok c -> rejects c f x s x' s' ->
  x' = x /\ tr_radius s' = Rmax (tr_radius s * decrease_factor c) (min_tr_radius c).
Proof.
  intros HM (HU & HR & HA & HN). assert (Hacc : rho_accept c <= rho_decrease c).
  { unfold make_tr in HM. destruct (Rlt_dec _ _); [discriminate|]. injection HM as <-. lra. }
  destruct (vg f x) as [[v a] g] eqn:Ev.
  destruct (update_cases c f x s x' s' v a g Ev HU) as [(L & _ & _)|(_ & v' & a' & g' & _ & [(_ & _ & ->)|(G & -> & ->)])]; [lra|discriminate|].
  split; auto. cbn [tr_radius]. cbn [rho] in HN. unfold update_tr_radius.
  set (rh := xdiv _ _) in *. assert (L : xltb rh (Fin (rho_decrease c)) = true).
  { destruct rh as [q| | |]; try congruence; try discriminate; auto. simpl in G |- *. unfold Rleb, Rltb in *.
    destruct (Rle_dec (rho_accept c) q); [discriminate|]. destruct (Rlt_dec q (rho_decrease c)); auto; lra. }
  rewrite L. auto.
Qed.
Lemma rejections_radius {A} c c0 (f : objective A) x n s s' : make_tr c0 = Ok c -> 0 < decrease_factor c < 1 ->
  rejections c f x n s s' -> (n = 0%nat \/ tr_radius s' = Rmax (tr_radius s * decrease_factor c ^ n) (min_tr_radius c)) /\
  (forall m, n = S m -> min_tr_radius c < tr_radius s * decrease_factor c ^ m).
Proof.
  intros HM Hd. induction 1 as [|n s s1 s2 HR [IH1 IH2] HJ]; [split; auto; discriminate|].
  destruct (reject_radius c c0 f x s1 x s2 HM HJ) as [_ E]. pose proof HJ as (_ & Hr & _).
  assert (E1 : tr_radius s1 = tr_radius s * decrease_factor c ^ n).
  { destruct IH1 as [->|IH1]; [inversion HR; subst; simpl; ring|]. rewrite IH1 in Hr |- *. unfold Rmax in *. destruct (Rle_dec _ _); auto; lra. }
  split.
  - right. rewrite E, E1. simpl. f_equal. ring.
  - intros m Em. injection Em as <-. rewrite <- E1. auto.
Qed.
Lemma rejections_bounded {A} c c0 (f : objective A) x n s s' : make_tr c0 = Ok c -> 0 < decrease_factor c < 1 -> 0 < min_tr_radius c ->
  0 < tr_radius s -> rejections c f x n s s' -> INR n < ln (tr_radius s / min_tr_radius c) / ln (/ decrease_factor c) + 1 \/ n = 0%nat.
Proof.
  intros HM Hd Hm Hr HR. destruct n as [|m]; [auto|]. left. destruct (rejections_radius c c0 f x _ s s' HM Hd HR) as [_ H]. specialize (H m eq_refl).
  assert (Hl : 0 < ln (/ decrease_factor c)). { rewrite <- ln_1. apply ln_increasing; [lra|]. rewrite <- Rinv_1. apply Rinv_lt_contravar; lra. }
  rewrite S_INR. apply Rplus_lt_compat_r. apply (Rmult_lt_reg_r (ln (/ decrease_factor c))); auto.
  replace (ln (tr_radius s / min_tr_radius c) / ln (/ decrease_factor c) * ln (/ decrease_factor c)) with (ln (tr_radius s / min_tr_radius c)) by (field; lra).
  assert (Hp : 0 < decrease_factor c ^ m) by (apply pow_lt; lra).
  assert (HI : INR m * ln (/ decrease_factor c) = ln (/ (decrease_factor c ^ m))).
  { rewrite !ln_Rinv by lra. rewrite ln_pow by lra. ring. }
  rewrite HI. apply ln_increasing; [apply Rinv_0_lt_compat; auto|].
  apply (Rmult_lt_reg_r (decrease_factor c ^ m * min_tr_radius c)); [nra|].
  replace (/ decrease_factor c ^ m * (decrease_factor c ^ m * min_tr_radius c)) with (min_tr_radius c) by (field; lra).
  replace (tr_radius s / min_tr_radius c * (decrease_factor c ^ m * min_tr_radius c)) with (tr_radius s * decrease_factor c ^ m) by (field; lra). auto.
Qed.
Lemma error_optimality {A} c (f : objective A) x p n xs : tr_run c f n (x, init_state c f x p) = Ok xs ->
  error (snd xs) = xt_norm (optimality_fun f (fst xs)) /\ grad (snd xs) = optimality_fun f (fst xs).
Proof.
  intros H. destruct (describes_run c f n (x, init_state c f x p) xs (describes_init c f x p) H) as (E1 & E2).
  unfold optimality_fun. rewrite E1. auto.
Qed.

(** C128 *)
Lemma radius_rule_lemma {A} c (f : objective A) x s x' s' r l :
  update c f x s = Ok (x', s') -> min_tr_radius c < tr_radius s -> rho s' = Fin r -> cg_step_length (subproblem s') = Fin l ->
  (accepted s' = true <-> rho_accept c <= r) /\ (accepted s' = false -> x' = x) /\
  (r < rho_decrease c -> tr_radius s' = Rmax (tr_radius s * decrease_factor c) (min_tr_radius c)) /\
  (rho_decrease c <= r -> rho_increase c < r -> Rabs (l - tr_radius s) <= 1 / 100000000 + Rabs (tr_radius s) / 100000 ->
   tr_radius s' = Rmax (Rmin (tr_radius s * increase_factor c) (max_tr_radius c)) (min_tr_radius c)) /\
  (rho_decrease c <= r -> r <= rho_increase c \/ 1 / 100000000 + Rabs (tr_radius s) / 100000 < Rabs (l - tr_radius s) ->
   tr_radius s' = tr_radius s).
Proof.
  intros HU HR Er El. destruct (vg f x) as [[v a] g] eqn:Ev.
  destruct (update_cases c f x s x' s' v a g Ev HU) as [(L & _ & _)|(_ & v' & a' & g' & _ & H)]; [lra|].
  set (sub := steihaug _ _ _ _ _) in H. set (rh := xdiv _ _) in H.
  assert (K : rh = Fin r /\ cg_step_length sub = Fin l /\ tr_radius s' = update_tr_radius (tr_radius s) (max_tr_radius c) (min_tr_radius c) (Fin r) (Fin l)
                 (rho_increase c) (rho_decrease c) (increase_factor c) (decrease_factor c) /\
              accepted s' = xgeb (Fin r) (Fin (rho_accept c)) /\ (accepted s' = false -> x' = x)).
  { destruct H as [(E & -> & ->)|(E & -> & ->)]; cbn [rho subproblem tr_radius accepted] in *; rewrite Er in *; rewrite El; auto 8.
    repeat split; auto. discriminate. }
  destruct K as (_ & _ & Et & Ea & Ex). clear H. clearbody sub rh. split; [|split; [exact Ex|]].
  - rewrite Ea. unfold xgeb, xleb, Rleb. destruct (Rle_dec (rho_accept c) r); split; intros; auto; try discriminate; lra.
  - rewrite Et. unfold update_tr_radius, xgtb, xltb, xisclose, Rltb, Rleb.
    split; [|split].
    + intros H. destruct (Rlt_dec r (rho_decrease c)); [reflexivity|lra].
    + intros H H1 H2. destruct (Rlt_dec r (rho_decrease c)); [lra|]. destruct (Rlt_dec (rho_increase c) r); [|lra].
      destruct (Rle_dec _ _); [reflexivity|exfalso; lra].
    + intros H H1. destruct (Rlt_dec r (rho_decrease c)); [lra|]. assert (M : Rmax (tr_radius s) (min_tr_radius c) = tr_radius s) by (apply Rmax_left; lra).
      destruct (Rlt_dec (rho_increase c) r); [|exact M].
      destruct (Rle_dec _ _); [|exact M]. exfalso. destruct H1; lra.
Qed.
