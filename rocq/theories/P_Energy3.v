(** A loss of hysteresis.ipynb on which TR makes no progress. *)
From Coq Require Import Lra Lia.
From Coquelicot Require Import Coquelicot.
From Verif Require Import Base BaseFacts S_RFun P_Vec M_Tree M_XR M_Tr S_Tr P_Tree P_Tr1 P_Tr2 P_Tr3 P_Tr4 P_Tr5 P_TrFd2.
From Verif Require Import M_Quat M_RFun M_Domain M_Tensor M_Calc M_Integrate M_Surface M_Mumag M_HvpTree M_TrFun M_Energy
  S_Calc S_Integrate S_Surface S_Mumag S_Energy P_Calc P_Mumag1 T_Mumag P_Energy P_Energy2.
Import ListNotations.
Open Scope R_scope.

(** a thin film: the field opposes the third component *)
Definition film_solver (m : field) (x : tensor) (dt : list tensor) : res tensor :=
  y <- m x ;; Ok (tvec [0; 0; - M_Tensor.entry y [2%nat]]).
(** the last layer of the network has only a bias *)
Definition bias_net (theta : list R) (z : list R) : res (list R) := Ok [0; - nth 0 theta 0; 0].
Definition unit_cube : brick := match Cuboid [0; 1] [0; 1] [0; 1] with Ok c => c | Err _ => mkBrick [] [] [] (mkHypercube [] []) [] end.
Definition film_mag (theta : list R) : field := mag unit_cube m_x (bias_net theta).
Definition film_points : list sample := [(tvec [1 / 2; 1 / 2; 1 / 2], [])].
Definition film_loss (theta theta' : list R) : res outcome :=
  hyst_loss film_solver 1 (3 / 4) (tvec [0; 0; 1]) (tvec [1; 0; 0]) film_points (film_mag theta) (film_mag theta') 0.

Lemma cube_ok : Cuboid [0; 1] [0; 1] [0; 1] = Ok unit_cube.
Proof.
  destruct (cuboid_constructor [0; 1] [0; 1] [0; 1]) as (K & _).
  assert (G : good_grid [0; 1]).
  { split; [simpl; lia|]. simpl. split; [lra|exact I]. }
  destruct (K (conj G (conj G G))) as (c & E & _). unfold unit_cube. rewrite E. reflexivity.
Qed.
Definition m3 (a : R) : R := 2 * a / (1 + a ^ 2).
Definition film_field (a : R) (i : nat) (x : list R) : R := nth i [(1 - a ^ 2) / (1 + a ^ 2); 0; m3 a] 0.
Lemma den a : 1 + a ^ 2 <> 0. Proof. pose proof (pow2_ge_0 a). lra. Qed.
Lemma list3_eq (a b c a' b' c' : R) : a = a' -> b = b' -> c = c' -> [a; b; c] = [a'; b'; c'].
Proof. now intros -> -> ->. Qed.
Lemma film_rep theta : rep1 3 3 (film_mag theta) (film_field (nth 0 theta 0)).
Proof.
  intros t Ht. set (a := nth 0 theta 0). exists (tvec [(1 - a ^ 2) / (1 + a ^ 2); 0; m3 a]). split; [|split; [reflexivity|]].
  - unfold film_mag, mag. rewrite Ht. pose proof (tlist_length t 3 Ht) as L.
    destruct (cuboid_normalize _ _ _ _ (tlist t) cube_ok L) as (N & _).
    destruct N as (z & Ez & Lz & _); try (unfold first, final; simpl; lra).
    rewrite Ez. cbn [bind ravel]. unfold bias_net. cbn [bind]. fold a.
    destruct z as [|z1 [|z2 [|z3 [|? ?]]]]; try discriminate. cbn [m_x map bind].
    rewrite cayley_ok by reflexivity. cbn [bind]. f_equal. f_equal.
    unfold cayley_value, times, plus, vec_prod, dotR, sumR. cbn [map map2 fold_right nth]. unfold m3.
    pose proof (den a). apply list3_eq; field; try (replace (1 + - a * - a) with (1 + a ^ 2) by ring); try exact H; nra.
  - intros [|[|[|i]]] Hi; try lia; reflexivity.
Qed.
Lemma film_gives theta : gives (film_solver (film_mag theta)) film_points (fun _ => [0; 0; - m3 (nth 0 theta 0)]).
Proof.
  intros p [<-|[]]. cbn [fst snd]. unfold film_solver. destruct (film_rep theta (tvec [1 / 2; 1 / 2; 1 / 2]) eq_refl) as (y & -> & Sy & V).
  cbn [bind]. eexists. split; [reflexivity|]. split; [reflexivity|]. rewrite V by lia. intros [|[|[|i]]] Hi; try lia; reflexivity.
Qed.
Lemma film_points_ok : points film_points.
Proof. split; [discriminate|]. intros p [<-|[]]. reflexivity. Qed.
Lemma film_value theta theta' : let m := m3 (nth 0 theta 0) in let m' := m3 (nth 0 theta' 0) in
  exists o, film_loss theta theta' = Ok o /\ l_value o = 3 / 4 * (1 - m ^ 2) + m * m' /\ e_tot o = 3 / 4 * (1 - m ^ 2) + m * m' / 2 /\
    e_ex o = 0 /\ e_ani o = 3 / 4 * (1 - m ^ 2) /\ e_mag o = m * m' / 2 /\ e_ext o = 0.
Proof.
  intros m m'.
  destruct (hyst_ok film_solver 1 (3 / 4) (tvec [0; 0; 1]) (tvec [1; 0; 0]) film_points (film_mag theta) (film_mag theta') 0
    (film_field (nth 0 theta 0)) (fun _ => [0; 0; - m']) film_points_ok (film_rep theta) (film_gives theta') eq_refl eq_refl)
    as (o & E & E1 & E2 & E3 & E4 & E5 & E6).
  assert (G0 : forall x, gradient_sq (film_field (nth 0 theta 0)) x = 0).
  { intros x. apply gradient_sq_zero. intros i j _ _. unfold pd, film_field. apply Derive_const. }
  exists o. split; [exact E|]. rewrite E6, E5, E1, E2, E3, E4. unfold avg, film_points, interaction, avg.
  cbn [map sumR fold_right length INR fst]. rewrite G0. unfold along, film_field. cbn [nth tlist tvec M_Tensor.shape M_Tensor.entry hd seq map length].
  fold m. repeat split; field; apply den.
Qed.
Lemma m3_derive a : is_derive m3 a (2 * (1 - a ^ 2) / (1 + a ^ 2) ^ 2).
Proof.
  pose proof (den a). unfold m3. auto_derive; [|field; exact H]. replace (a * (a * 1)) with (a ^ 2) by ring. exact H.
Qed.
Definition m3' (a : R) : R := 2 * (1 - a ^ 2) / (1 + a ^ 2) ^ 2.
Lemma m3'_derive a : ex_derive m3' a.
Proof.
  pose proof (den a). unfold m3'. auto_derive. replace (a * (a * 1)) with (a ^ 2) by ring.
  split; [|exact I] || idtac. nra.
Qed.
Definition slope (b s : R) : R := - (3 / 2) * m3 s * m3' s + m3' s * m3 b.
Lemma film_stop_grad a b : stop_grad film_loss [b] [a] = [slope b a].
Proof.
  unfold stop_grad. cbn [length seq map nth upd]. f_equal. apply is_derive_unique.
  apply (is_derive_ext (fun s => 3 / 4 * (1 - m3 s ^ 2) + m3 s * m3 b)).
  - assert (V : forall s, 3 / 4 * (1 - m3 s ^ 2) + m3 s * m3 b = out_of l_value (film_loss [s] [b])).
    { intros s. destruct (film_value [s] [b]) as (o & EE & E & _). rewrite EE. cbn [out_of]. rewrite E. reflexivity. }
    exact V.
  - pose proof (m3_derive a) as D. fold (m3' a) in D. unfold slope.
    assert (X : ex_derive m3 a) by (eexists; exact D). pose proof (is_derive_unique _ _ _ D) as U.
    auto_derive; [repeat split; exact X|]. change (Derive (fun x => m3 x) a) with (Derive m3 a). rewrite U. field.
Qed.
Lemma slope_derive b a : ex_derive (slope b) a.
Proof.
  unfold slope. auto_derive. assert (X : ex_derive m3 a) by (eexists; apply m3_derive). pose proof (m3'_derive a) as Y. repeat split; trivial.
Qed.
Definition film_objective := stop_objective film_loss.
Lemma film_vg a : exists o, vg film_objective [[Fin a]] = (Fin (3 / 4 + / 4 * m3 a ^ 2), Some o, [[Fin (slope a a)]]) /\
  film_loss [a] [a] = Ok o.
Proof.
  destruct (film_value [a] [a]) as (o & E & El & _). exists o. split; [|exact E]. unfold film_objective, stop_objective. cbn [vg number_tree numbers option_map].
  rewrite E, El, film_stop_grad. cbn [map nth]. f_equal. f_equal. f_equal. field.
Qed.
Lemma film_hess a w : hess film_objective [[Fin a]] [[Fin w]] = [[Fin (w * Derive (slope a) a)]].
Proof.
  unfold film_objective, stop_objective. cbn [hess number_tree numbers option_map length seq map]. do 3 f_equal.
  transitivity (Derive (fun s => slope a (a + s * w)) 0).
  - apply Derive_ext. intros s. cbn [map2]. rewrite film_stop_grad. reflexivity.
  - rewrite (Derive_comp (slope a) (fun s => a + s * w) 0).
    + f_equal; [apply is_derive_unique; auto_derive; trivial; ring|f_equal; ring].
    + apply slope_derive.
    + auto_derive. exact I.
Qed.
Lemma slope_half : slope (1 / 2) (1 / 2) = - (48 / 125).
Proof. unfold slope, m3, m3'. field. Qed.
Lemma m3_grows t : 1 / 2 < t < 2 -> 4 / 5 < m3 t.
Proof.
  intros Ht. unfold m3. apply Rmult_lt_reg_r with (1 + t ^ 2); [pose proof (pow2_ge_0 t); lra|].
  unfold Rdiv at 2. rewrite Rmult_assoc, Rinv_l, Rmult_1_r by apply den. nra.
Qed.

(** every update rejects its step *)
Lemma film_update s x' s' : eps_ok s -> tr_radius s <= 1 -> update hyst_tr film_objective [[Fin (1 / 2)]] s = Ok (x', s') ->
  x' = [[Fin (1 / 2)]] /\ eps_ok s' /\ tr_radius s' <= 1.
Proof.
  intros HE HR HU. destruct (film_vg (1 / 2)) as (o & EV & EO). rewrite slope_half in EV.
  destruct (update_cases hyst_tr film_objective _ s x' s' _ _ _ EV HU) as [(L & -> & ->)|(L & C)]; [auto|].
  assert (HE' : eps_ok s').
  { destruct (eps_step hyst_tr film_objective _ s x' s' _ _ [[- (48 / 125)]] EV HE L HU) as (e & Ee & _). right. now exists e. }
  revert C. set (g := [[- (48 / 125)]]). change [[Fin (- (48 / 125))]] with (fin g). 
  change (damped hyst_tr (tr_hvp hyst_tr film_objective [[Fin (1 / 2)]])) with (hess film_objective [[Fin (1 / 2)]]).
  change (tr_hvp hyst_tr film_objective [[Fin (1 / 2)]]) with (hess film_objective [[Fin (1 / 2)]]).
  rewrite xt_norm_fin.
  destruct (inner_eps_lemma hyst_tr (cg_eps (subproblem s)) (S_Tr.tnorm g) (tnorm_nonneg g) HE) as (e & Ee & He1 & He2).
  rewrite Ee. cbv zeta. cbn [tol hyst_tr min_tr_radius] in He1, L.
  set (c := Derive (slope (1 / 2)) (1 / 2)).
  assert (HC : S_Tr.computes (hess film_objective [[Fin (1 / 2)]]) (tscal c) (M_Tree.shape g)).
  { intros d Hd. destruct d as [|[|w [|? ?]] [|? ?]]; try discriminate Hd. split; [|reflexivity]. cbn [fin map]. rewrite film_hess. fold c.
    unfold tscal, tree_map1. cbn [map]. now rewrite (Rmult_comm w c). }
  destruct (steihaug_one g (hess film_objective [[Fin (1 / 2)]]) (tscal c) (tr_radius s) e (maxiter_steihaug hyst_tr)) as (tau & EP & HT);
    [lra|lra|exact HC|right; reflexivity|].
  rewrite EP. set (q := 48 / 125 * tau).
  assert (Eg : tscal (- tau) g = [[q]]) by (unfold g, tscal, tree_map1, q; cbn [map]; do 2 f_equal; ring).
  rewrite Eg. change (fin [[q]]) with [[Fin q]]. change (fin g) with [[Fin (- (48 / 125))]].
  replace (xt_add [[Fin (1 / 2)]] [[Fin q]]) with [[Fin (1 / 2 + q)]] by reflexivity.
  rewrite film_hess. fold c.
  intros (v' & a' & g' & EV' & C).
  destruct (film_vg (1 / 2 + q)) as (o' & EV2 & _). remember (3 / 4 + / 4 * m3 (1 / 2 + q) ^ 2) as w eqn:Ew. rewrite EV2 in EV'. injection EV' as <- <- <-. rewrite Ew in C.
  assert (TG : S_Tr.tnorm g = 48 / 125).
  { unfold S_Tr.tnorm, tdot, g, dotR. cbn [concat app map2 sumR fold_right].
    replace (- (48 / 125) * - (48 / 125) + 0) with ((48 / 125) * (48 / 125)) by ring. apply sqrt_square. lra. }
  set (pred := 48 / 125 * q - q * (q * c) / 2).
  assert (ED : xneg (xadd (xt_vdot [[Fin (- (48 / 125))]] [[Fin q]]) (xmul (Fin (1 / 2)) (xt_vdot [[Fin q]] [[Fin (q * c)]]))) = Fin pred).
  { cbn. f_equal. unfold pred. field. }
  rewrite ED in C.
  replace (xsub (Fin (3 / 4 + / 4 * m3 (1 / 2) ^ 2)) (Fin (3 / 4 + / 4 * m3 (1 / 2 + q) ^ 2))) with (Fin (/ 4 * (m3 (1 / 2) ^ 2 - m3 (1 / 2 + q) ^ 2))) in C
    by (cbn; f_equal; field).
  assert (M1 : m3 (1 / 2) = 4 / 5) by (unfold m3; field).
  set (nom := / 4 * (m3 (1 / 2) ^ 2 - m3 (1 / 2 + q) ^ 2)) in *.
  assert (RJ : (q = 0 /\ pred = 0 /\ nom = 0) \/ (0 < q <= 1 /\ 0 < pred /\ nom < 0)).
  { destruct HT as [(-> & _)|(_ & T1 & T2 & T3 & _)].
    - left. assert (Q0 : q = 0) by (unfold q; ring). split; [exact Q0|]. unfold pred, nom. rewrite Q0, Rplus_0_r. split; [field|rewrite M1; field].
    - right. rewrite TG in T2. assert (Q1 : 0 < q <= 1) by (unfold q; lra). split; [exact Q1|]. split.
      + unfold tdot, g, tscal, tree_map1, dotR in T3. cbn [map concat app map2 sumR fold_right] in T3. unfold pred.
        assert (T4 : tau * c <= 1) by nra. replace (q * (q * c) / 2) with (48 / 125 * q * (tau * c) / 2) by (unfold q; field). nra.
      + assert (M2 : 4 / 5 < m3 (1 / 2 + q)) by (apply m3_grows; lra). unfold nom. rewrite M1. nra. }
  assert (RH : xgeb (xdiv (Fin nom) (Fin pred)) (Fin (rho_accept hyst_tr)) = false /\
     update_tr_radius (tr_radius s) (max_tr_radius hyst_tr) (min_tr_radius hyst_tr) (xdiv (Fin nom) (Fin pred))
       (cg_step_length (steihaug [[Fin (- (48 / 125))]] (hess film_objective [[Fin (1 / 2)]]) (tr_radius s) (Fin e) (maxiter_steihaug hyst_tr)))
       (rho_increase hyst_tr) (rho_decrease hyst_tr) (increase_factor hyst_tr) (decrease_factor hyst_tr) <= 1).
  { unfold update_tr_radius. cbn [hyst_tr rho_accept max_tr_radius min_tr_radius rho_increase rho_decrease increase_factor decrease_factor].
    destruct RJ as [(_ & -> & ->)|(_ & P & N)].
    - assert (XX : xdiv (Fin 0) (Fin 0) = NaN) by (unfold xdiv, xinf; destruct (Req_EM_T 0 0); [|lra]; destruct (Rlt_dec 0 0); [lra|reflexivity]).
      rewrite XX. cbn. split; [reflexivity|]. apply Rmax_lub; lra.
    - assert (XX : xdiv (Fin nom) (Fin pred) = Fin (nom / pred)).
      { cbn. destruct (Req_EM_T pred 0); [lra|]. reflexivity. }
      rewrite XX. assert (NP : nom / pred < 0) by (unfold Rdiv; rewrite Rmult_comm; apply Rmult_pos_neg || (apply Ropp_lt_cancel; rewrite Ropp_0; replace (- (/ pred * nom)) with (/ pred * - nom) by ring; apply Rmult_lt_0_compat; [now apply Rinv_0_lt_compat|lra])).
      split.
      + unfold xgeb, xleb, Rleb. destruct (Rle_dec (1 / 5) (nom / pred)); [lra|reflexivity].
      + unfold xltb, Rltb. destruct (Rlt_dec (nom / pred) (1 / 4)); [|lra]. apply Rmax_lub; lra. }
  destruct RH as (RH1 & RH2). destruct C as [(C & _)|(_ & -> & ->)]; [congruence|].
  split; [reflexivity|]. split; [exact HE'|]. cbn [tr_radius]. exact RH2.
Qed.
Lemma film_stuck_lemma n : exists s, tr_run hyst_tr film_objective n ([[Fin (1 / 2)]], init_state hyst_tr film_objective [[Fin (1 / 2)]] None) = Ok ([[Fin (1 / 2)]], s) /\
  M_Tr.error s = Fin (48 / 125).
Proof.
  assert (G : forall n s, describes film_objective [[Fin (1 / 2)]] s -> eps_ok s -> tr_radius s <= 1 ->
     exists s', tr_run hyst_tr film_objective n ([[Fin (1 / 2)]], s) = Ok ([[Fin (1 / 2)]], s') /\ describes film_objective [[Fin (1 / 2)]] s').
  { clear n. induction n as [|n IH]; intros s Hd He Hr; [exists s; now split|]. cbn [tr_run fst snd].
    destruct (update_total hyst_tr film_objective [[Fin (1 / 2)]] s) as (x1 & s1 & E); [discriminate|]. rewrite E.
    destruct (film_update s x1 s1 He Hr E) as (-> & He1 & Hr1). apply IH; trivial. exact (describes_step _ _ _ _ _ _ Hd E). }
  destruct (G n (init_state hyst_tr film_objective [[Fin (1 / 2)]] None)) as (s' & E & Hd).
  - apply describes_init.
  - apply eps_ok_init.
  - unfold init_state. destruct (vg film_objective _) as [[? ?] ?]. cbn. lra.
  - exists s'. split; [exact E|]. destruct Hd as (V & ->). destruct (film_vg (1 / 2)) as (o & EV & _). rewrite EV, slope_half in V.
    injection V as _ _ <-. change [[Fin (- (48 / 125))]] with (fin [[- (48 / 125)]]). rewrite xt_norm_fin. f_equal.
    unfold S_Tr.tnorm, tdot, dotR. cbn [concat app map2 sumR fold_right].
    replace (- (48 / 125) * - (48 / 125) + 0) with ((48 / 125) * (48 / 125)) by ring. apply sqrt_square. lra.
Qed.
Lemma film_interaction s u : interaction film_points (film_field s) (fun _ => [0; 0; - m3 u]) = - (m3 s * m3 u).
Proof.
  unfold interaction, avg, film_points, along, film_field. cbn [map sumR fold_right length INR nth]. field; apply den.
Qed.
Lemma mult_differentiable x y : differentiable_pt_lim Rmult x y y x.
Proof.
  intros e. exists e. intros u v Hu Hv. replace (u * v - x * y - (y * (u - x) + x * (v - y))) with ((u - x) * (v - y)) by ring.
  rewrite Rabs_mult. apply Rmult_le_compat; try apply Rabs_pos; [lra|apply Rmax_r].
Qed.
Lemma second_differentiable (g : R -> R) x y l : derivable_pt_lim g y l -> differentiable_pt_lim (fun _ v => g v) x y 0 l.
Proof.
  intros D e. destruct (differentiable_pt_lim_proj1_0 g y x l D e) as (d & K). exists d. intros u v Hu Hv.
  rewrite Rmax_comm. rewrite Rplus_comm. apply K; trivial.
Qed.
Lemma film_differentiable t : differentiable_pt_lim (fun s u => interaction film_points (film_field s) (fun _ => [0; 0; - m3 u])) t t
  (m3 t * - m3' t + - m3 t * 0) (m3 t * 0 + - m3 t * m3' t).
Proof.
  apply (differentiable_pt_lim_ext (fun s u => - m3 s * m3 u)).
  - exists (mkposreal 1 Rlt_0_1). intros s u _ _. rewrite film_interaction. ring.
  - pose proof (m3_derive t) as D. fold (m3' t) in D.
    assert (D1 : is_derive (fun s => - m3 s) t (- m3' t)) by (apply (is_derive_opp m3 t (m3' t)); exact D).
    apply (differentiable_pt_lim_comp Rmult (fun u _ => - m3 u) (fun _ v => m3 v) t t).
    + apply mult_differentiable.
    + apply differentiable_pt_lim_proj1_0. apply is_derive_Reals. exact D1.
    + apply second_differentiable. apply is_derive_Reals. exact D.
Qed.
