(** Proofs: monotone decrease and convergence of the trust region solver on functions. *)
From Coquelicot Require Import Coquelicot.
From Verif Require Import Base BaseFacts S_RFun P_Vec M_Tree M_XR M_Tr S_Tr P_Tree P_Tr1 P_Tr4 P_Tr5 M_Tensor M_Surface M_Calc M_HvpTree M_TrFun
  S_Calc S_Model S_Jac S_HvpTree S_TrFun P_AD P_TrFun P_TrFun2 T_Tr T_Tr2.
Import ListNotations.
Open Scope R_scope.

Lemma run_total {A} c (f : M_Tr.objective A) : (approx_hvp c = true -> fd_h c <> 0) -> forall n xs, exists xs', tr_run c f n xs = Ok xs'.
Proof.
  intros H. induction n as [|n IH]; intros (x & s); [eexists; reflexivity|]. cbn [tr_run fst snd].
  destruct (update_total c f x s H) as (x' & s' & E). rewrite E. apply IH.
Qed.
Lemma tnorm_normR t : S_Tr.tnorm t = normR (concat t).
Proof. unfold S_Tr.tnorm, normR, tdot. f_equal. rewrite dotR_self. reflexivity. Qed.
(** what the state says about the parameters *)
Lemma state_ok sh phi aux vag (has_aux : bool) f x s : user_function sh (whole (size_ sh)) phi aux vag has_aux f ->
  sized sh x -> describes (tr_objective f vag has_aux sh) (fin x) s ->
  M_Tr.value s = Fin (phi (concat x)) /\ M_Tr.aux s = (if has_aux then Some (aux (concat x)) else None) /\
  (exists g, M_Tr.grad s = fin g /\ sized sh g /\ concat g = gradient (size_ sh) phi (concat x)) /\
  M_Tr.error s = Fin (normR (gradient (size_ sh) phi (concat x))).
Proof.
  intros H Sx (E & Ee). pose proof (sized_length sh x Sx) as Lx.
  destruct (vg_ok sh _ phi aux vag has_aux f x (whole_open _) H Sx Lx) as (g & Eg & Sg & Cg). rewrite Eg in E.
  injection E as E1 E2 E3. split; [auto|]. split; [auto|]. split; [exists g; auto|].
  rewrite Ee, <- E3. rewrite xt_norm_fin, tnorm_normR, Cg. reflexivity.
Qed.
Lemma tr_function_monotone_lemma c sh phi aux vag (has_aux : bool) f n x p : C2 (size_ sh) (whole (size_ sh)) phi ->
  user_function sh (whole (size_ sh)) phi aux vag has_aux f ->
  (approx_hvp c = true -> fd_h c <> 0 /\ exact_differences (size_ sh) (fd_h c) phi) ->
  0 < tol c -> 0 <= min_tr_radius c -> 0 <= rho_accept c -> (forall l, damping_factor c = Some l -> 0 <= l) -> sized sh x ->
  exists x' s, tr_run c (tr_objective f vag has_aux sh) n (fin x, init_state c (tr_objective f vag has_aux sh) (fin x) p) = Ok (fin x', s) /\
    sized sh x' /\ phi (concat x') <= phi (concat x) /\
    M_Tr.value s = Fin (phi (concat x')) /\ M_Tr.aux s = (if has_aux then Some (aux (concat x')) else None) /\
    (exists g, M_Tr.grad s = fin g /\ sized sh g /\ concat g = gradient (size_ sh) phi (concat x')) /\
    M_Tr.error s = Fin (normR (gradient (size_ sh) phi (concat x'))).
Proof.
  intros HC H HE Ht Hm Hr Hd Sx. set (ob := tr_objective f vag has_aux sh).
  assert (HE1 : approx_hvp c = true -> fd_h c <> 0) by apply HE.
  assert (HE2 : approx_hvp c = true -> exact_differences (size_ sh) (fd_h c) phi) by apply HE.
  destruct (run_total c ob HE1 n (fin x, init_state c ob (fin x) p)) as ((y & s) & ER).
  assert (VG : forall x, sized sh x -> exists a g, vg ob (fin x) = (Fin (phi (concat x)), a, g)).
  { intros z Sz. destruct (vg_ok sh _ phi aux vag has_aux f z (whole_open _) H Sz (sized_length sh z Sz)) as (g & Eg & _). eauto. }
  assert (RO : regular_obj c ob (map size1 sh)).
  { intros z Sz. destruct (VG z Sz) as (a0 & g0 & E0). split.
    - intros v a g E. rewrite E0 in E. injection E as <- _ _. eexists. eexists. apply (regular_ok c sh phi aux vag has_aux f z); auto.
    - intros a g. rewrite E0. discriminate. }
  destruct (VG x Sx) as (a0 & g0 & E0).
  destruct (run_monotone _ c ob _ RO Ht Hm Hr Hd n x _ _ _ _ _ Sx E0 (eps_ok_init c ob (fin x) p) (describes_init c ob (fin x) p) ER)
    as (x' & v' & a' & g' & Ex & Sx' & Eg & Hv & _).
  cbn [fst] in Ex. subst y. exists x', s. split; [exact ER|]. split; [exact Sx'|].
  destruct (VG x' Sx') as (a1 & g1 & E1). rewrite E1 in Eg. injection Eg as <- _ _. split; [exact Hv|].
  apply (state_ok sh phi aux vag has_aux f x' s); auto.
  exact (describes_run c ob n (fin x, init_state c ob (fin x) p) (fin x', s) (describes_init c ob (fin x) p) ER).
Qed.
Lemma tr_function_converges_lemma c sh phi aux vag (has_aux : bool) f n x p B L : C2 (size_ sh) (whole (size_ sh)) phi ->
  user_function sh (whole (size_ sh)) phi aux vag has_aux f ->
  (approx_hvp c = true -> exact_differences (size_ sh) (fd_h c) phi) -> 0 < B -> curvature_bound (size_ sh) phi B ->
  (forall X, length X = size_ sh -> L <= phi X) -> progress_options c -> rho_decrease c < 1 -> min_tr_radius c < init_tr_radius c ->
  min_tr_radius c < decrease_factor c * (tol c * Rmin (/ (B + damping c)) ((1 - rho_decrease c) / (B + B))) ->
  sized sh x -> (forall s, p = Some s -> tr_radius s <= max_tr_radius c) -> tr_budget c B (phi (concat x) - L) < INR n ->
  exists x' s, tr_run c (tr_objective f vag has_aux sh) n (fin x, init_state c (tr_objective f vag has_aux sh) (fin x) p) = Ok (fin x', s) /\
    sized sh x' /\ normR (gradient (size_ sh) phi (concat x')) < tol c /\
    M_Tr.error s = Fin (normR (gradient (size_ sh) phi (concat x'))) /\ M_Tr.value s = Fin (phi (concat x')) /\ phi (concat x') <= phi (concat x).
Proof.
  intros HC H HE HB HCB HL HO Hrd Hi Hs Sx Hp HN.
  pose proof HO as (Ht & (Hm & _) & _ & (Hra & _) & Hd & _ & Hfd).
  destruct (tr_function_monotone_lemma c sh phi aux vag has_aux f n x p HC H) as (x' & s & ER & Sx' & Hle & Ev & _ & _ & Ee); auto; try lra.
  destruct (tr_converges _ c (tr_objective f vag has_aux sh) (map size1 sh) (fun x => phi (concat x)) (grad_tree sh phi) (hess_tree sh phi) B L B n x p (fin x', s))
    as (x2 & Ex & Sx2 & Ee2 & Hlt); auto; try lra.
  - intros z Sz. split; [apply (regular_ok c sh phi aux vag has_aux f z); auto|]. intros q Sq. unfold tdot.
    rewrite (proj2 (hess_tree_ok sh phi z q)). apply HCB; apply sized_length; auto.
  - intros z Sz. apply HL. apply sized_length. exact Sz.
  - intros z q Sz Sq. rewrite (proj2 (sized_taxpy sh z 1 q Sz Sq)). unfold tdot. rewrite (proj2 (grad_tree_ok sh phi z)).
    apply descent_line; auto; apply sized_length; auto.
  - cbn [fst snd] in Ex, Ee2. apply fin_inj in Ex. subst x2. exists x', s. split; [exact ER|]. split; [exact Sx'|].
    rewrite tnorm_normR, (proj2 (grad_tree_ok sh phi x')) in Hlt. auto.
Qed.
