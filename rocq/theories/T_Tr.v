(** Theorems on magpi/tr.py.  Float trees are xtree; [fin t] is the tree of the finite numbers t. *)
From Verif Require Import Base BaseFacts S_RFun M_Tree M_XR M_Tr S_Tr S_Ode P_Tree P_Tr1 P_Tr2 P_Tr3 P_Tr4 P_Tr5 P_Tr6.

(** A concrete objective used in the examples: x^2/2 on a single number. *)
Definition ex_square : objective unit :=
  mkObj (fun t => match t with [[Fin x]] => (Fin (x * x / 2), tt, [[Fin x]]) | _ => (NaN, tt, t) end) (fun _ d => d).
(** An objective that is undefined everywhere except at 1. *)
Definition ex_point : objective unit :=
  mkObj (fun t => match t with [[Fin x]] => if Req_EM_T x 1 then (Fin 0, tt, [[Fin 1]]) else (NaN, tt, t) | _ => (NaN, tt, t) end) (fun _ d => d).

(** ** C49 *)
Theorem steihaug_region g hvp D e mi : 0 < D -> 0 < e -> finite_op hvp (shape g) ->
  let res := steihaug (fin g) hvp D (Fin e) mi in
  exists p, cg_p res = fin p /\ shape p = shape g /\ cg_step_length res = Fin (tnorm p) /\ tnorm p <= D /\
    (xleb (cg_curvature res) (Fin 0) = true -> tnorm p = D) /\
    (cg_converged res = true -> xltb (cg_norm_r res) (Fin e) = false -> tnorm p = D) /\
    (tnorm p = D -> cg_limit_step res = true) /\
    (tnorm p < D -> exists n, cg_norm_r res = Fin n /\ 0 <= n /\ (cg_converged res = true -> n < e)) /\
    cg_eps res = Fin e.
Proof. exact (steihaug_region_lemma g hvp D e mi). Qed.
Print Assumptions steihaug_region.
(** the step counts as limited within the tolerances of jnp.isclose, relative to the radius *)
Theorem steihaug_limit_step g hvp D e mi : 0 < D -> 0 < e -> finite_op hvp (shape g) ->
  let res := steihaug (fin g) hvp D (Fin e) mi in
  exists p, cg_p res = fin p /\ (cg_limit_step res = true <-> D - tnorm p <= 1 / 100000000 + D / 100000).
Proof. exact (steihaug_limit_lemma g hvp D e mi). Qed.
Print Assumptions steihaug_limit_step.
Theorem steihaug_iterations g hvp D e mi : let res := steihaug (fin g) hvp D e mi in
  (cg_iter res <= iter_limit g mi)%nat /\ (cg_converged res = false -> cg_iter res = iter_limit g mi).
Proof. exact (steihaug_iter_lemma g hvp D e mi). Qed.
Print Assumptions steihaug_iterations.
(** a callback that is not linear (a finite-difference one is not either) *)
Example steihaug_region_meets : finite_op (fun t => map (map (fun x => match x with Fin r => Fin (r * r - 1) | y => y end)) t) (shape [[3; 4]; [1]]).
Proof.
  intros d Sd. exists (map (map (fun r => r * r - 1)) d). split.
  - unfold fin. rewrite !map_map. apply map_ext. intros l. rewrite !map_map. auto.
  - rewrite <- Sd. unfold shape. rewrite map_map. apply map_ext. intros l. apply map_length.
Qed.

(** ** C50 *)
Theorem steihaug_decrease g hvp h D e mi : 0 < D -> 0 < e -> computes hvp h (shape g) -> linear_op h (shape g) -> symmetric_op h (shape g) ->
  e <= tnorm g -> (1 <= iter_limit g mi)%nat ->
  let res := steihaug (fin g) hvp D (Fin e) mi in
  exists p, cg_p res = fin p /\ shape p = shape g /\ quad_model g h p < 0 /\
    (forall t, 0 <= t -> t * tnorm g <= D -> quad_model g h p <= quad_model g h (tree_scalar_mul (- t) g)) /\
    (tnorm p < D -> cg_norm_r res = Fin (tnorm (taxpy g 1 (h p)))) /\
    (tnorm p < D -> cg_converged res = true -> tnorm (taxpy g 1 (h p)) < e).
Proof. exact (steihaug_decrease_lemma g hvp h D e mi). Qed.
Print Assumptions steihaug_decrease.
(** an indefinite symmetric operator *)
Definition ex_op (t : tree) : tree := match t with [[x; y]] => [[x + 2 * y; 2 * x - y]] | _ => t end.
Definition ex_hvp (t : xtree) : xtree :=
  match t with [[x; y]] => [[xadd x (xmul (Fin 2) y); xsub (xmul (Fin 2) x) y]] | _ => t end.
Example steihaug_decrease_meets : let g := [[3; 4]] in computes ex_hvp ex_op (shape g) /\ linear_op ex_op (shape g) /\ symmetric_op ex_op (shape g) /\ 1 <= tnorm g.
Proof.
  assert (I : forall d, shape d = [2%nat] -> exists x y, d = [[x; y]]).
  { intros d Sd. destruct d as [|[|x [|y [|? ?]]] [|? ?]]; try discriminate. eauto. }
  intros g. change (shape g) with [2%nat]. split; [|split; [|split]].
  - intros d Sd. destruct (I d Sd) as (x & y & ->). split; reflexivity.
  - intros u v a Su Sv. destruct (I u Su) as (x & y & ->). destruct (I v Sv) as (x' & y' & ->). cbn.
    assert (Q : forall a b c d : R, a = c -> b = d -> [[a; b]] = [[c; d]]) by congruence. apply Q; ring.
  - intros u v Su Sv. destruct (I u Su) as (x & y & ->). destruct (I v Sv) as (x' & y' & ->). unfold tdot, dotR. cbn. ring.
  - unfold tnorm, tdot, dotR. cbn. rewrite <- sqrt_1 at 1. apply sqrt_le_1_alt. lra.
Qed.

(** ** C80 *)
Theorem steihaug_terminates g hvp h D e mi : 0 < D -> 0 < e -> computes hvp h (shape g) -> symmetric_op h (shape g) ->
  let res := steihaug (fin g) hvp D (Fin e) mi in
  (cg_iter res <= length (concat g))%nat /\ ((length (concat g) <= iter_limit g mi)%nat -> cg_converged res = true).
Proof. exact (steihaug_terminates_lemma g hvp h D e mi). Qed.
Print Assumptions steihaug_terminates.
Theorem steihaug_default_converges g hvp h D e : 0 < D -> 0 < e -> computes hvp h (shape g) -> symmetric_op h (shape g) ->
  cg_converged (steihaug (fin g) hvp D (Fin e) None) = true.
Proof. exact (fun HD He Hc HS => proj2 (steihaug_terminates_lemma g hvp h D e None HD He Hc HS) (Nat.le_add_r _ _)). Qed.
Print Assumptions steihaug_default_converges.
Theorem steihaug_longer_steps g hvp h D e m n : 0 < D -> 0 < e -> computes hvp h (shape g) -> symmetric_op h (shape g) ->
  (m <= n)%nat -> exists p q, cg_p (steihaug (fin g) hvp D (Fin e) (Some m)) = fin p /\ cg_p (steihaug (fin g) hvp D (Fin e) (Some n)) = fin q /\ tnorm p <= tnorm q.
Proof. exact (steihaug_longer_lemma g hvp h D e m n). Qed.
Print Assumptions steihaug_longer_steps.

(** ** C51 *)
Theorem update_improves A c (f : objective A) x s x' s' v g h :
  regular_at c f x v g h -> eps_ok s -> 0 < tol c -> 0 <= min_tr_radius c -> (forall l, damping_factor c = Some l -> 0 <= l) ->
  update c f (fin x) s = Ok (x', s') ->
  (x' = fin x \/ exists p pred, x' = fin (tmap2 Rplus x p) /\ shape p = shape x /\ tnorm p <= tr_radius s /\ pred = - quad_model g h p /\ 0 < pred /\
     (value s' = NInf \/ exists w, value s' = Fin w /\ w <= v - rho_accept c * pred)) /\ eps_ok s'.
Proof. exact (update_accept_lemma c f x s x' s' v g h). Qed.
Print Assumptions update_improves.
Theorem run_monotone A c (f : objective A) sh : regular_obj c f sh -> 0 < tol c -> 0 <= min_tr_radius c -> 0 <= rho_accept c ->
  (forall l, damping_factor c = Some l -> 0 <= l) ->
  forall n x s v a g xs', shape x = sh -> vg f (fin x) = (Fin v, a, g) -> eps_ok s -> describes f (fin x) s -> tr_run c f n (fin x, s) = Ok xs' ->
  exists x' v' a' g', fst xs' = fin x' /\ shape x' = sh /\ vg f (fin x') = (Fin v', a', g') /\ v' <= v /\ eps_ok (snd xs').
Proof. exact (run_monotone_lemma c f sh). Qed.
Print Assumptions run_monotone.
Theorem converged_stays A c (f : objective A) x s x' s' v a g h : vg f (fin x) = (Fin v, a, fin g) -> shape g = shape x ->
  computes (tr_hvp c f (fin x)) h (shape x) -> eps_ok s -> 0 <= min_tr_radius c < tr_radius s -> tnorm g < tol c ->
  update c f (fin x) s = Ok (x', s') -> x' = fin x /\ accepted s' = false /\ rho s' = NaN.
Proof. exact (converged_lemma c f x s x' s' v a g h). Qed.
Print Assumptions converged_stays.
Example regular_meets : regular_obj default_tr ex_square [1%nat] /\ regular_at default_tr ex_square [[3]] (9 / 2) [[3]] (fun d => d) /\
  eps_ok (init_state default_tr ex_square (fin [[3]]) None) /\ describes ex_square (fin [[3]]) (init_state default_tr ex_square (fin [[3]]) None).
Proof.
  assert (R1 : forall x, regular_at default_tr ex_square [[x]] (x * x / 2) [[x]] (fun d => d)).
  { intros x. split; [exists tt; reflexivity|]. split; [reflexivity|]. split; [intros d Sd; split; auto|]. split; [intros u v a _ _; auto|intros u v _ _; auto]. }
  split; [|split; [|split; [apply eps_ok_init|apply describes_init]]].
  - intros x Sx. destruct x as [|[|x [|? ?]] [|? ?]]; try discriminate. split.
    + intros v a g E. assert (Ev : Fin v = Fin (x * x / 2)) by (simpl in E; congruence). injection Ev as ->. eauto.
    + intros a g E. simpl in E. congruence.
  - replace (9 / 2) with (3 * 3 / 2) by lra. apply R1.
Qed.

(** ** C52 *)
Theorem radius_in_bounds A c (f : objective A) x p n xs : good_radii c -> (forall s, p = Some s -> tr_radius s <= max_tr_radius c) ->
  tr_run c f n (x, init_state c f x p) = Ok xs -> min_tr_radius c <= tr_radius (snd xs) <= max_tr_radius c.
Proof. exact (fun HG HP => radius_run c f HG n (x, init_state c f x p) xs (radius_init c f x p HG HP)). Qed.
Print Assumptions radius_in_bounds.
Theorem runs_succeed A c (f : objective A) x s : (approx_hvp c = true -> fd_h c <> 0) -> exists x' s', update c f x s = Ok (x', s').
Proof. exact (update_total c f x s). Qed.
Print Assumptions runs_succeed.
Example good_radii_meets : good_radii default_tr.
Proof. unfold good_radii, default_tr. simpl. lra. Qed.

(** ** C128 *)
Theorem radius_rule A c (f : objective A) x s x' s' r l :
  update c f x s = Ok (x', s') -> min_tr_radius c < tr_radius s -> rho s' = Fin r -> cg_step_length (subproblem s') = Fin l ->
  (accepted s' = true <-> rho_accept c <= r) /\ (accepted s' = false -> x' = x) /\
  (r < rho_decrease c -> tr_radius s' = Rmax (tr_radius s * decrease_factor c) (min_tr_radius c)) /\
  (rho_decrease c <= r -> rho_increase c < r -> Rabs (l - tr_radius s) <= 1 / 100000000 + Rabs (tr_radius s) / 100000 ->
   tr_radius s' = Rmax (Rmin (tr_radius s * increase_factor c) (max_tr_radius c)) (min_tr_radius c)) /\
  (rho_decrease c <= r -> r <= rho_increase c \/ 1 / 100000000 + Rabs (tr_radius s) / 100000 < Rabs (l - tr_radius s) ->
   tr_radius s' = tr_radius s).
Proof. exact (radius_rule_lemma c f x s x' s' r l). Qed.
Print Assumptions radius_rule.
(** one step from 3 for x^2 / 2: the step -1 is limited, the ratio is 1, the radius doubles *)
Example radius_rule_case : exists x' s', update default_tr ex_square (fin [[3]]) (init_state default_tr ex_square (fin [[3]]) None) = Ok (x', s') /\
  tr_radius (init_state default_tr ex_square (fin [[3]]) None) = 1 /\ rho s' = Fin 1 /\ cg_step_length (subproblem s') = Fin 1 /\ tr_radius s' = 2.
Proof.
  set (s := init_state default_tr ex_square (fin [[3]]) None). assert (Er : tr_radius s = 1) by reflexivity.
  destruct (update_total default_tr ex_square (fin [[3]]) s) as (x' & s' & HU); [discriminate|].
  assert (Nx : forall x, tnorm [[x]] = Rabs x).
  { intros x. unfold tnorm, tdot, dotR. cbn. rewrite Rplus_0_r. apply sqrt_Rsqr_abs. }
  destruct (update_cases default_tr ex_square (fin [[3]]) s x' s' (Fin (3 * 3 / 2)) tt (fin [[3]]) eq_refl HU) as [(L & _)|(_ & v' & a' & g' & Ev & H)].
  { rewrite Er in L. simpl in L. lra. }
  rewrite xt_norm_fin in *.
  destruct (inner_eps_lemma default_tr (cg_eps (subproblem s)) (tnorm [[3]]) (tnorm_nonneg _)) as (e & Ee & (E1 & _) & _ & E3); [apply eps_ok_init|].
  rewrite Ee in *. rewrite Nx, Rabs_right in E3 by lra. specialize (E3 ltac:(simpl; lra)). simpl in E1.
  change (damped default_tr (tr_hvp default_tr ex_square (fin [[3]]))) with (fun d : xtree => d) in *.
  change (tr_hvp default_tr ex_square (fin [[3]])) with (fun d : xtree => d) in *. change (maxiter_steihaug default_tr) with (@None nat) in *.
  rewrite Er in *.
  assert (Hc : computes (fun d : xtree => d) (fun d => d) (shape [[3]])) by (intros d Sd; split; auto).
  destruct (steihaug_region [[3]] (fun d => d) 1 e None ltac:(lra) ltac:(lra)) as (p & Ep & Sp & El & Lp & _).
  { intros d Sd. exists d. auto. }
  destruct (steihaug_decrease [[3]] (fun d => d) (fun d => d) 1 e None ltac:(lra) ltac:(lra) Hc) as (q & Eq & _ & _ & Hq & _).
  { intros u v r _ _. reflexivity. } { intros u v _ _. reflexivity. } { rewrite Nx, Rabs_right by lra. exact E3. } { simpl. lia. }
  set (sub := steihaug _ _ _ _ _) in *. clearbody sub.
  assert (fin p = fin q) as Epq by congruence. assert (q = p) as -> by (apply fin_inj; congruence). clear Eq Epq.
  destruct p as [|[|y [|? ?]] [|? ?]]; try discriminate Sp. rewrite Nx in *.
  specialize (Hq (1 / 3) ltac:(lra) ltac:(rewrite ?Nx, Rabs_right by lra; lra)).
  unfold quad_model, tdot, dotR in Hq. cbn in Hq.
  assert (Ab : -1 <= y <= 1) by (split; [pose proof (Rle_abs (- y)) as B; rewrite Rabs_Ropp in B; lra|pose proof (Rle_abs y); lra]).
  assert (y = -1) by nra. subst y. rewrite Rabs_left in El, Lp by lra. replace (- -1) with 1 in El by ring.
  rewrite Ep in *. assert (v' = Fin (2 * 2 / 2)) as ->.
  { cbn in Ev. injection Ev as <- _. f_equal. field. }
  set (rh := xdiv _ _) in H. assert (Erh : rh = Fin 1).
  { unfold rh. cbn. destruct (Req_EM_T _ 0) as [Z|Z]; [exfalso; lra|]. f_equal. field. }
  clearbody rh. subst rh.
  assert (K : rho s' = Fin 1 /\ cg_step_length (subproblem s') = Fin 1) by (destruct H as [(_ & _ & ->)|(_ & _ & ->)]; auto).
  destruct K as (K1 & K2). exists x', s'. split; [exact HU|]. split; [exact Er|]. split; [exact K1|]. split; [exact K2|].
  destruct (radius_rule unit default_tr ex_square (fin [[3]]) s x' s' 1 1 HU ltac:(rewrite Er; simpl; lra) K1 K2) as (_ & _ & _ & Hg & _).
  rewrite Hg; rewrite ?Er; simpl; try lra.
  - rewrite Rmin_left, Rmax_left; lra.
  - replace (1 - 1) with 0 by ring. rewrite Rabs_R0, Rabs_R1. lra.
Qed.

(** ** C53 *)
Theorem rejection_shrinks A c c0 (f : objective A) x s x' s' : make_tr c0 = Ok c -> rejects c f x s x' s' ->
  x' = x /\ tr_radius s' = Rmax (tr_radius s * decrease_factor c) (min_tr_radius c).
Proof. exact (reject_radius c c0 f x s x' s'). Qed.
Print Assumptions rejection_shrinks.
Theorem rejections_bound A c c0 (f : objective A) x n s s' : make_tr c0 = Ok c -> 0 < decrease_factor c < 1 -> 0 < min_tr_radius c ->
  0 < tr_radius s -> rejections c f x n s s' -> INR n < ln (tr_radius s / min_tr_radius c) / ln (/ decrease_factor c) + 1 \/ n = 0%nat.
Proof. exact (rejections_bounded c c0 f x n s s'). Qed.
Print Assumptions rejections_bound.

(** an objective with a wall around the point 3 *)
Definition ex_wall : objective unit :=
  mkObj (fun t => match t with [[Fin x]] => (if Req_EM_T x 3 then Fin 0 else Fin 100, tt, [[Fin x]]) | _ => (NaN, tt, t) end) (fun _ d => d).
Example rejects_meets : exists s x' s', rejects default_tr ex_wall (fin [[3]]) s x' s'.
Proof.
  set (s := init_state default_tr ex_wall (fin [[3]]) None). exists s.
  destruct (update_total default_tr ex_wall (fin [[3]]) s ltac:(discriminate)) as (x' & s' & HU). exists x', s'.
  assert (V : vg ex_wall (fin [[3]]) = (Fin 0, tt, fin [[3]])) by (cbn; destruct (Req_EM_T 3 3); [auto|lra]).
  assert (I1 : tr_radius s = 1) by (unfold s, init_state; rewrite V; reflexivity).
  assert (I2 : cg_eps (subproblem s) = PInf) by (unfold s, init_state; rewrite V; reflexivity).
  assert (N1 : tnorm [[3]] = 3) by (unfold tnorm, tdot, dotR; cbn; replace (3 * 3 + 0) with (3 * 3) by ring; apply sqrt_square; lra).
  destruct (inner_eps_lemma default_tr PInf (tnorm [[3]]) (tnorm_nonneg _) (or_introl eq_refl)) as (e & Ee & (E1 & _) & _ & E3).
  assert (T : tol default_tr = 1 / 100) by reflexivity. rewrite T in *. rewrite N1 in E3. specialize (E3 ltac:(lra)).
  destruct (steihaug_decrease [[3]] (damped default_tr (tr_hvp default_tr ex_wall (fin [[3]]))) (fun d => d) 1 e (maxiter_steihaug default_tr)) as (p & Ep & Sp & Hp & _); try lra.
  { intros d Sd. split; auto. }
  { intros u v a _ _. auto. }
  { intros u v _ _. auto. }
  { simpl. lia. }
  destruct (update_cases default_tr ex_wall (fin [[3]]) s x' s' _ _ _ V HU) as [(L & _)|(L & v' & a' & g' & Ev' & HX)]; [rewrite I1 in L; simpl in L; lra|].
  rewrite I1, I2, xt_norm_fin, Ee, Ep in *. destruct p as [|[|y [|? ?]] [|? ?]]; try discriminate. unfold quad_model, tdot, dotR in Hp. cbn in Hp.
  assert (v' = Fin 100). { cbn in Ev'. destruct (Req_EM_T (3 + y) 3); [|congruence]. exfalso. assert (y = 0) by lra. subst y. lra. } subst v'.
  change (tr_hvp default_tr ex_wall (fin [[3]]) (fin [[y]])) with (fin [[y]]) in HX. rewrite !xt_vdot_fin in HX by reflexivity.
  unfold tdot, dotR in HX. cbn -[xgeb xdiv update_tr_radius steihaug Rmult] in HX.
  match type of HX with context [xdiv ?a ?b] => set (rh := xdiv a b) in * end.
  assert (RH : exists q, rh = Fin q /\ q < 0).
  { unfold rh. simpl. destruct (Req_EM_T _ 0) as [Z|Z]; [exfalso; lra|]. eexists. split; [reflexivity|]. apply Ropp_lt_cancel. rewrite Ropp_0. unfold Rdiv. rewrite Ropp_mult_distr_l. apply Rmult_lt_0_compat; [lra|apply Rinv_0_lt_compat; lra]. }
  destruct RH as (q & Eq & Hq). rewrite Eq in HX. unfold rejects. split; auto. rewrite I1. split; [auto|].
  destruct HX as [(G & _)|(_ & _ & ->)]; [|split; [auto|discriminate]].
  exfalso. simpl in G. unfold Rleb in G. destruct (Rle_dec (1 / 4) q); [lra|discriminate].
Qed.

(** ** C54 *)
Theorem nan_trial_stalls A c (f : objective A) x s : (approx_hvp c = true -> fd_h c <> 0) -> nan_trial c f x s ->
  forall n, exists s', tr_run c f n (x, s) = Ok (x, s') /\ tr_radius s' = tr_radius s /\ iter_num s' = (iter_num s + n)%nat /\ nan_trial c f x s'.
Proof. exact (nan_stall_lemma c f x s). Qed.
Print Assumptions nan_trial_stalls.
Lemma ex_point_nan : nan_trial default_tr ex_point (fin [[1]]) (init_state default_tr ex_point (fin [[1]]) None).
Proof.
  assert (V : vg ex_point (fin [[1]]) = (Fin 0, tt, fin [[1]])) by (cbn; destruct (Req_EM_T 1 1); [auto|lra]).
  assert (I1 : tr_radius (init_state default_tr ex_point (fin [[1]]) None) = 1) by (unfold init_state; rewrite V; reflexivity).
  assert (I2 : cg_eps (subproblem (init_state default_tr ex_point (fin [[1]]) None)) = PInf) by (unfold init_state; rewrite V; reflexivity).
  unfold nan_trial. rewrite I1, I2, V. split; [simpl; lra|]. rewrite xt_norm_fin.
  assert (N1 : tnorm [[1]] = 1) by (unfold tnorm, tdot, dotR; cbn; replace (1 * 1 + 0) with 1 by ring; apply sqrt_1).
  destruct (inner_eps_lemma default_tr PInf (tnorm [[1]]) (tnorm_nonneg _) (or_introl eq_refl)) as (e & Ee & (E1 & _) & _ & E3). rewrite Ee.
  assert (T : tol default_tr = 1 / 100) by reflexivity. rewrite T in *. rewrite N1 in E3.
  destruct (steihaug_decrease [[1]] (damped default_tr (tr_hvp default_tr ex_point (fin [[1]]))) (fun d => d) 1 e (maxiter_steihaug default_tr)) as (p & Ep & Sp & Hp & _); try lra.
  - intros d Sd. split; auto.
  - intros u v a _ _. auto.
  - intros u v _ _. auto.
  - simpl. lia.
  - rewrite Ep. destruct p as [|[|y [|? ?]] [|? ?]]; try discriminate. unfold quad_model, tdot, dotR in Hp. cbn in Hp. exists tt. eexists. cbn.
    destruct (Req_EM_T (1 + y) 1) as [E|E]; [|reflexivity]. exfalso. assert (y = 0) by lra. subst y. lra.
Qed.
Theorem nan_trial_shrinks_refuted : make_tr default_tr = Ok default_tr /\
  exists (f : objective unit) x, let s := init_state default_tr f x None in nan_trial default_tr f x s /\
    forall n, exists s', tr_run default_tr f n (x, s) = Ok (x, s') /\ tr_radius s' = tr_radius s /\ iter_num s' = n.
Proof.
  split. { unfold make_tr, default_tr. simpl. destruct (Rlt_dec _ _); [lra|auto]. }
  exists ex_point, (fin [[1]]). intros s. split; [apply ex_point_nan|]. intros n.
  destruct (nan_trial_stalls unit default_tr ex_point (fin [[1]]) s ltac:(discriminate) ex_point_nan n) as (s' & E1 & E2 & E3 & _).
  exists s'. split; auto. split; auto. rewrite E3. unfold s, init_state. cbn. destruct (Req_EM_T 1 1); [reflexivity|lra].
Qed.
Print Assumptions nan_trial_shrinks_refuted.

(** All other rejected trials, in particular those with value +inf, do shrink the radius. *)
Theorem nan_trial_shrinks_partial A c c0 (f : objective A) x s x' s' v g h : make_tr c0 = Ok c ->
  regular_at c f x v g h -> eps_ok s -> 0 < tol c -> 0 <= min_tr_radius c < tr_radius s -> (forall l, damping_factor c = Some l -> 0 <= l) ->
  tol c <= tnorm g -> (1 <= iter_limit g (maxiter_steihaug c))%nat -> ~ nan_trial c f (fin x) s ->
  update c f (fin x) s = Ok (x', s') -> accepted s' = false ->
  x' = fin x /\ tr_radius s' = Rmax (tr_radius s * decrease_factor c) (min_tr_radius c).
Proof. exact (defined_trial_lemma c c0 f x s x' s' v g h). Qed.
Print Assumptions nan_trial_shrinks_partial.

(** ** C55 *)
Theorem state_describes A c (f : objective A) x p n xs : tr_run c f n (x, init_state c f x p) = Ok xs -> describes f (fst xs) (snd xs).
Proof. exact (describes_run c f n (x, init_state c f x p) xs (describes_init c f x p)). Qed.
Print Assumptions state_describes.
(** the error is the norm of optimality_fun at the returned parameters *)
Theorem error_is_optimality A c (f : objective A) x p n xs : tr_run c f n (x, init_state c f x p) = Ok xs ->
  error (snd xs) = xt_norm (optimality_fun f (fst xs)) /\ grad (snd xs) = optimality_fun f (fst xs).
Proof. exact (error_optimality c f x p n xs). Qed.
Print Assumptions error_is_optimality.
Theorem update_counts A c (f : objective A) x s x' s' : update c f x s = Ok (x', s') ->
  (tr_radius s <= min_tr_radius c -> x' = x /\ s' = s) /\ (min_tr_radius c < tr_radius s -> iter_num s' = (iter_num s + 1)%nat).
Proof. exact (iter_step c f x s x' s'). Qed.
Print Assumptions update_counts.
Theorem frozen_forever A c (f : objective A) n xs : (approx_hvp c = true -> fd_h c <> 0) -> tr_radius (snd xs) <= min_tr_radius c -> tr_run c f n xs = Ok xs.
Proof. exact (frozen_run c f n xs). Qed.
Print Assumptions frozen_forever.
Example frozen_meets : exists s : tr_state unit, tr_radius s <= min_tr_radius default_tr.
Proof. exists (mkTrs 5 false (Fin 0) [] (Fin 0) (Fin 0) (1 / 10000) tt (mkCg 0 false false (Fin 0) (Fin 0) [] PInf PInf)). simpl. lra. Qed.

(** ** C56 *)
Theorem inner_tolerance A c (f : objective A) x s x' s' v a g : vg f x = (v, a, fin g) -> eps_ok s -> min_tr_radius c < tr_radius s -> update c f x s = Ok (x', s') ->
  exists e, cg_eps (subproblem s') = Fin e /\ tol c <= e <= Rmax (tol c) (tnorm g / 2) /\
    (forall q, cg_eps (subproblem s) = Fin q -> e <= Rmax (tol c) q) /\ (tol c <= tnorm g -> e <= tnorm g) /\
    (0 <= min_tr_radius c -> tol c <= tnorm g -> (forall m, maxiter_steihaug c = Some m -> 1 <= m)%nat -> (1 <= length (concat g))%nat -> (1 <= cg_iter (subproblem s'))%nat).
Proof. exact (eps_step c f x s x' s' v a g). Qed.
Print Assumptions inner_tolerance.
Example inner_tolerance_meets : exists v a, vg ex_square (fin [[3]]) = (v, a, fin [[3]]) /\ min_tr_radius default_tr < tr_radius (init_state default_tr ex_square (fin [[3]]) None) /\
  tol default_tr <= tnorm [[3]] /\ (1 <= length (concat [[3]]))%nat.
Proof.
  exists (Fin (3 * 3 / 2)), tt. split; [reflexivity|]. split; [simpl; lra|]. split; [|simpl; lia].
  unfold tnorm, tdot, dotR. cbn. replace (3 * 3 + 0) with (3 * 3) by ring. rewrite sqrt_square; lra.
Qed.

(** ** C57 *)
Theorem tr_construction c : (rho_decrease c < rho_accept c -> make_tr c = Err ValueError) /\ (rho_accept c <= rho_decrease c -> make_tr c = Ok c).
Proof. exact (make_tr_lemma c). Qed.
Print Assumptions tr_construction.
Theorem warm_start A c (f : objective A) x s : let t := init_state c f x (Some s) in
  iter_num t = iter_num s /\ (min_tr_radius c < tr_radius s -> tr_radius t = tr_radius s) /\ (tr_radius s <= min_tr_radius c -> tr_radius t = init_tr_radius c) /\
  describes f x t.
Proof. exact (warm_start_lemma c f x s). Qed.
Print Assumptions warm_start.
