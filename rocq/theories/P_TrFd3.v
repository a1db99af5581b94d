(** Proofs for the trust region solver with difference quotients: a step that increases the objective. *)
From Coquelicot Require Import Coquelicot.
From Verif Require Import Base BaseFacts S_RFun P_Vec M_Tree M_XR M_Tr S_Tr P_Tree P_Tr1 P_Tr2 P_Tr3 P_Tr4 P_Tr5 M_Tensor M_Surface M_Calc M_HvpTree M_TrFun
  S_Calc S_Model S_Jac S_HvpTree S_TrFun S_TrFd P_AD P_Calc P_Calc2 P_Jac P_HvpTree P_Surface2 P_Stray1 P_TrFun P_TrFun2 P_TrFun3 P_TrFd P_TrFd2.
Import ListNotations.
Open Scope R_scope.

(** ** functions of one number *)
Definition one (f : R -> R) (X : list R) : R := f (nth 0 X 0).
Lemma pd_one f f1 X : (forall t, is_derive f t (f1 t)) -> length X = 1%nat -> pd 0 (one f) X = f1 (nth 0 X 0).
Proof.
  intros H. destruct X as [|a [|b X]]; try discriminate. intros _. unfold pd, one. cbn [nth upd]. apply is_derive_unique. exact (H a).
Qed.
Lemma pd_one2 f f1 f2 X : (forall t, is_derive f t (f1 t)) -> (forall t, is_derive f1 t (f2 t)) -> length X = 1%nat -> pd 0 (pd 0 (one f)) X = f2 (nth 0 X 0).
Proof.
  intros H1 H2. destruct X as [|a [|b X]]; try discriminate. intros _. unfold pd at 1. cbn [nth upd].
  transitivity (Derive f1 a); [apply Derive_ext; intros t; apply (pd_one f f1 [t]); auto|]. apply is_derive_unique. exact (H2 a).
Qed.
Lemma one_cont (g : R -> R) X : continuous g (nth 0 X 0) -> forall e, 0 < e -> exists d, 0 < d /\ forall Y, near d X Y -> Rabs (g (nth 0 Y 0) - g (nth 0 X 0)) < e.
Proof.
  intros H e He. apply (proj1 (filterlim_locally g (g (nth 0 X 0)))) with (eps := mkposreal e He) in H. destruct H as (d & Hd).
  exists d. split; [apply cond_pos|]. intros Y (L & HY). apply Hd. apply HY.
Qed.
Lemma one_C2 f f1 f2 : (forall t, is_derive f t (f1 t)) -> (forall t, is_derive f1 t (f2 t)) -> (forall t, continuous f2 t) -> C2 1 (whole 1) (one f).
Proof.
  intros H1 H2 H3. split.
  - intros [|i] X Hi LX; [|lia]. split.
    + destruct X as [|a [|b X]]; try discriminate. unfold one. cbn [nth upd]. exact (ex_intro _ _ (H1 a)).
    + intros e He. destruct (one_cont f1 X) with (e := e) as (d & Hd & K); [apply (ex_derive_continuous f1); exact (ex_intro _ _ (H2 _))|exact He|].
      exists d. split; [exact Hd|]. intros Y HY. rewrite !(pd_one f f1) by (auto; destruct HY; unfold whole in *; congruence). apply K, HY.
  - intros [|i] Hi; [|lia]. intros [|j] X Hj LX; [|lia]. split.
    + destruct X as [|a [|b X]]; try discriminate. cbn [nth upd].
      apply (ex_derive_ext f1); [intros t; symmetry; apply (pd_one f f1 [t]); auto|]. exact (ex_intro _ _ (H2 a)).
    + intros e He. destruct (one_cont f2 X (H3 _) e He) as (d & Hd & K).
      exists d. split; [exact Hd|]. intros Y HY. rewrite !(pd_one2 f f1 f2) by (auto; destruct HY; unfold whole in *; congruence). apply K, HY.
Qed.
(** the user's function that computes [f] of a scalar parameter *)
Definition one_user (f f1 : R -> R) (vag has_aux : bool) (x : list tensor) : res outL :=
  let v := tsc (one f (flats x)) in let g := [tsc (one f1 (flats x))] in
  Ok (match vag, has_aux with
      | true, true => LAuxGrad v 7 g | true, false => LGrad v g | false, true => LAux v 7 | false, false => LVal v end).
Lemma one_is_user f f1 vag has_aux : (forall t, is_derive f t (f1 t)) ->
  user_function [[]] (whole 1) (one f) (fun _ => 7%nat) vag has_aux (one_user f f1 vag has_aux).
Proof.
  intros H x Sx Dx. exists (tsc (one f (flats x))). split; [reflexivity|]. split; [reflexivity|].
  destruct vag; [|destruct has_aux; reflexivity]. exists [tsc (one f1 (flats x))]. split; [reflexivity|].
  split; [|destruct has_aux; reflexivity]. cbn. rewrite (pd_one f f1) by auto. reflexivity.
Qed.

(** ** the polynomial *)
Definition up_f (x : R) : R := 20000 * x ^ 4 + (50000 / 3 + 8) * x ^ 3 + (5 + 1 / 1250) * x ^ 2 + 2 * x.
Definition up_f1 (x : R) : R := 80000 * x ^ 3 + 50024 * x ^ 2 + (10 + 1 / 625) * x + 2.
Definition up_f2 (x : R) : R := 240000 * x ^ 2 + 100048 * x + (10 + 1 / 625).
Lemma up_d1 t : is_derive up_f t (up_f1 t). Proof. unfold up_f, up_f1. auto_derive; [exact I|field]. Qed.
Lemma up_d2 t : is_derive up_f1 t (up_f2 t). Proof. unfold up_f1, up_f2. auto_derive; [exact I|field]. Qed.
Lemma up_c t : continuous up_f2 t. Proof. apply (ex_derive_continuous up_f2). unfold up_f2. auto_derive. exact I. Qed.
Lemma up_C2 : C2 1 (whole 1) (one up_f). Proof. exact (one_C2 up_f up_f1 up_f2 up_d1 up_d2 up_c). Qed.
Lemma up_grad x : gradient 1 (one up_f) [x] = [up_f1 x].
Proof. unfold gradient. cbn [seq map]. rewrite (pd_one up_f up_f1) by (auto using up_d1). reflexivity. Qed.
Lemma up_diff x v : diff_vec 1 (1 / 10000) (one up_f) [x] [v] = [(up_f1 (x + 1 / 10000 * v) - up_f1 x) / (1 / 10000)].
Proof. unfold diff_vec. cbn [seq map]. rewrite !(pd_one up_f up_f1) by (auto using up_d1). reflexivity. Qed.
Lemma normR_one a : normR [a] = Rabs a.
Proof. unfold normR. cbn [map sumR fold_right]. rewrite Rplus_0_r. apply sqrt_Rsqr_abs. Qed.

Lemma fd_increases_lemma vag has_aux : let ob := tr_objective (one_user up_f up_f1 vag has_aux) vag has_aux [[]] in
  exists s, update approx_tr ob (fin [[0]]) (init_state approx_tr ob (fin [[0]]) None) = Ok (fin [[-1]], s) /\
    M_Tr.accepted s = true /\ M_Tr.value (init_state approx_tr ob (fin [[0]]) None) = Fin 0 /\ M_Tr.value s = Fin (up_f (-1)) /\ 3000 < up_f (-1).
Proof.
  intros ob. pose proof (one_is_user up_f up_f1 vag has_aux up_d1) as HU. set (s0 := init_state approx_tr ob (fin [[0]]) None).
  assert (H3 : 3000 < up_f (-1)) by (unfold up_f; lra).
  assert (S0 : sized [[]] [[0]]) by reflexivity.
  destruct (update_total approx_tr ob (fin [[0]]) s0) as (x1 & s & E); [intros _; cbn; lra|].
  destruct (update_fd_lemma approx_tr [[]] (one up_f) _ vag has_aux _ [[0]] s0 x1 s up_C2 HU eq_refl ltac:(cbn; lra) ltac:(cbn; lra) ltac:(cbn; lra) S0
    (eps_ok_init approx_tr ob (fin [[0]]) None) E) as [(K & _)|(_ & p & Sp & Np & Ep & K & _)].
  { exfalso. unfold s0, init_state in K. destruct (vg ob (fin [[0]])) as [[? ?] ?]. cbn in K. lra. }
  fold ob in Ep. fold s0 in Ep.
  assert (R0 : M_Tr.tr_radius s0 = 1) by (unfold s0, init_state; destruct (vg ob (fin [[0]])) as [[? ?] ?]; reflexivity).
  assert (V0 : M_Tr.value s0 = Fin 0).
  { destruct (vg_ok [[]] _ (one up_f) _ vag has_aux _ [[0]] (whole_open _) HU S0 eq_refl) as (g & Eg & _). fold ob in Eg.
    unfold s0, init_state. rewrite Eg. cbn [M_Tr.value]. f_equal. unfold one, up_f. cbn [concat app nth]. ring. }
  assert (Eps : cg_eps (subproblem s0) = PInf) by (unfold s0, init_state; destruct (vg ob (fin [[0]])) as [[? ?] ?]; reflexivity).
  set (g := grad_tree [[]] (one up_f) [[0]]) in *.
  assert (Eg : g = [[2]]).
  { apply (sized_eq [[]]); [apply grad_tree_ok|reflexivity|]. unfold g. rewrite (proj2 (grad_tree_ok _ _ _)).
    change (size_ [[]]) with 1%nat. cbn [concat app]. rewrite up_grad. unfold up_f1. f_equal. ring. }
  rewrite Eg, R0, Eps in Ep. change (size_ [[]]) with 1%nat in Ep. cbn [concat app] in Ep. rewrite up_grad, normR_one in Ep.
  replace (Rabs (up_f1 0)) with 2 in Ep by (unfold up_f1; rewrite Rabs_pos_eq; lra).
  destruct (inner_eps_lemma approx_tr PInf 2 ltac:(lra) (or_introl eq_refl)) as (e & Ee & He & _). rewrite Ee in Ep. cbn [tol approx_tr] in He.
  assert (He2 : e <= 1) by (destruct He as (_ & He); unfold Rmax in He; destruct (Rle_dec _ _); lra).
  pose proof (damped_computes approx_tr _ _ _ (fd_computes approx_tr [[]] (one up_f) _ vag has_aux _ [[0]] up_C2 HU eq_refl S0)) as HCm. fold ob in HCm.
  change (map size1 [[]]) with (M_Tree.shape [[2]]) in HCm.
  destruct (steihaug_one [[2]] _ _ 1 e None ltac:(lra) ltac:(lra) HCm (or_intror eq_refl)) as (tau & Et & HT).
  change (maxiter_steihaug approx_tr) with (@None nat) in Ep. rewrite Et in Ep. apply fin_inj in Ep.
  assert (N2 : S_Tr.tnorm [[2]] = 2) by (rewrite tnorm_normR; cbn [concat app]; rewrite normR_one, Rabs_pos_eq; lra).
  rewrite N2 in HT. cbn [damped_op approx_tr damping_factor] in HT. change (damped_op approx_tr ?h) with h in HT.
  assert (HK : tdot (tscal (-1) [[2]]) (fd_tree (fd_h approx_tr) [[]] (one up_f) [[0]] (tscal (-1) [[2]])) = 0).
  { unfold tdot. rewrite (proj2 (fd_tree_ok _ _ _ _ _)). change (size_ [[]]) with 1%nat. cbn [concat app tree_scalar_mul tree_map1 map fd_h approx_tr].
    rewrite up_diff. unfold dotR, up_f1. cbn [map2 sumR fold_right]. field. }
  destruct HT as [(_ & [T|T])|(_ & _ & _ & _ & T)]; [discriminate T|lra|].
  rewrite HK in T. specialize (T ltac:(lra)). assert (Hp : p = [[-1]]).
  { rewrite <- Ep. cbn [tree_scalar_mul tree_map1 map]. do 2 f_equal. lra. }
  subst p. rewrite Hp in K. cbn [concat app] in K. change (size_ [[]]) with 1%nat in K.
  assert (EN : axpy 1 [0] [-1] = [-1]) by (unfold axpy; cbn [map2]; f_equal; ring). rewrite EN in K.
  assert (EF : fd_reduction 1 (fd_h approx_tr) (one up_f) [0] [-1] = -1 / 2).
  { unfold fd_reduction. cbn [fd_h approx_tr]. rewrite up_diff, up_grad. unfold dotR, up_f1. cbn [map2 sumR fold_right]. field. }
  rewrite EF in K. change (one up_f [-1]) with (up_f (-1)) in K. change (one up_f [0]) with (up_f 0) in K.
  assert (E0 : up_f 0 = 0) by (unfold up_f; ring). rewrite E0 in K. cbn [rho_accept approx_tr] in K.
  destruct K as [(_ & A & -> & V)|(K & _)]; [|exfalso; apply K; right; right; lra].
  exists s. split; [rewrite E; do 3 f_equal; unfold tree_add; cbn; repeat f_equal; ring|]. auto.
Qed.
Lemma fd_refuted_lemma vag has_aux : exists phi f s, let ob := tr_objective f vag has_aux [[]] in
  C2 1 (whole 1) phi /\ user_function [[]] (whole 1) phi (fun _ => 7%nat) vag has_aux f /\
  update approx_tr ob (fin [[0]]) (init_state approx_tr ob (fin [[0]]) None) = Ok (fin [[-1]], s) /\
  M_Tr.accepted s = true /\ M_Tr.value s = Fin (phi [-1]) /\ phi [0] = 0 /\ 3000 < phi [-1].
Proof.
  destruct (fd_increases_lemma vag has_aux) as (s & E & A & _ & V & B). exists (one up_f), (one_user up_f up_f1 vag has_aux), s.
  split; [exact up_C2|]. split; [exact (one_is_user up_f up_f1 vag has_aux up_d1)|]. split; [exact E|]. split; [exact A|]. split; [exact V|].
  split; [unfold one, up_f; cbn [nth]; ring|exact B].
Qed.
Lemma fd_accepts_lemma c sh phi aux vag (has_aux : bool) f x s x1 s1 : C2 (size_ sh) (whole (size_ sh)) phi ->
  user_function sh (whole (size_ sh)) phi aux vag has_aux f -> approx_hvp c = true -> fd_h c <> 0 -> 0 < tol c -> 0 <= min_tr_radius c ->
  sized sh x -> eps_ok s -> update c (tr_objective f vag has_aux sh) (fin x) s = Ok (x1, s1) -> min_tr_radius c < M_Tr.tr_radius s ->
  exists p, sized sh p /\ normR (concat p) <= M_Tr.tr_radius s /\
    let pred := fd_reduction (size_ sh) (fd_h c) phi (concat x) (concat p) in let new := phi (axpy 1 (concat x) (concat p)) in
    ((accept_rule (rho_accept c) pred (phi (concat x)) new /\ M_Tr.accepted s1 = true /\ x1 = fin (S_Tr.taxpy x 1 p) /\ M_Tr.value s1 = Fin new) \/
     (~ accept_rule (rho_accept c) pred (phi (concat x)) new /\ M_Tr.accepted s1 = false /\ x1 = fin x /\ M_Tr.value s1 = Fin (phi (concat x)))).
Proof.
  intros HC H HA Hh Ht Hm Sx He E HR. destruct (update_fd_lemma c sh phi aux vag has_aux f x s x1 s1 HC H HA Hh Ht Hm Sx He E) as [(K & _)|(_ & p & Sp & Np & _ & K & _)]; [lra|].
  exists p. destruct (concat_add sh x p Sx Sp) as (S1 & C1). destruct (sized_taxpy sh x 1 p Sx Sp) as (S2 & C2').
  assert (EQ : tmap2 Rplus x p = S_Tr.taxpy x 1 p) by (apply (sized_eq sh); auto; congruence). rewrite <- EQ. auto.
Qed.
Lemma fd_decreases_lemma c sh phi aux vag (has_aux : bool) f M n x p : C2 (size_ sh) (whole (size_ sh)) phi ->
  user_function sh (whole (size_ sh)) phi aux vag has_aux f -> approx_hvp c = true -> fd_h c <> 0 -> 0 < tol c -> good_radii c -> 0 <= rho_accept c ->
  (forall l, damping_factor c = Some l -> 0 <= l) -> one_direction c (size_ sh) -> 0 <= M -> hessian_lipschitz (size_ sh) phi M ->
  small_differences c M (max_tr_radius c) -> sized sh x -> (forall s, p = Some s -> M_Tr.tr_radius s <= max_tr_radius c) ->
  exists x' s, tr_run c (tr_objective f vag has_aux sh) n (fin x, init_state c (tr_objective f vag has_aux sh) (fin x) p) = Ok (fin x', s) /\
    sized sh x' /\ M_Tr.value s = Fin (phi (concat x')) /\ phi (concat x') <= phi (concat x).
Proof.
  intros HC H HA Hh Ht HG Hr Hl HO M0 HM HS Sx Hp. set (ob := tr_objective f vag has_aux sh).
  destruct (run_total c ob (fun _ => Hh) n (fin x, init_state c ob (fin x) p)) as ((y & s) & ER).
  destruct (fd_run_lemma c sh phi aux vag has_aux f M HC H HA Hh Ht HG Hr Hl HO M0 HM HS n x _ _ Sx (eps_ok_init c ob (fin x) p) (radius_init c ob (fin x) p HG Hp) ER) as (x' & Ex & Sx' & Hv).
  cbn [fst] in Ex. subst y. exists x', s. split; [exact ER|]. split; [exact Sx'|]. split; [|exact Hv].
  apply (state_ok sh phi aux vag has_aux f x' s); auto.
  exact (describes_run c ob n (fin x, init_state c ob (fin x) p) (fin x', s) (describes_init c ob (fin x) p) ER).
Qed.
