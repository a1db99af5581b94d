(** Proofs for the trust region solver with difference quotients of the gradient: the steps. *)
From Coquelicot Require Import Coquelicot.
From Verif Require Import Base BaseFacts S_RFun P_Vec M_Tree M_XR M_Tr S_Tr P_Tree P_Tr1 P_Tr2 P_Tr3 P_Tr4 P_Tr5 M_Tensor M_Surface M_Calc M_HvpTree M_TrFun
  S_Calc S_Model S_Jac S_HvpTree S_TrFun S_TrFd P_AD P_Calc P_Calc2 P_Jac P_HvpTree P_Surface2 P_Stray1 P_TrFun P_TrFun2 P_TrFun3 P_TrFd.
Import ListNotations.
Open Scope R_scope.

Lemma hess_scal n phi X V a : length V = n -> hess_vec n phi X (vscal a V) = vscal a (hess_vec n phi X V).
Proof.
  intros L. assert (E : forall U, vscal a U = axpy (a - 1) U U).
  { intros U. unfold vscal, axpy. induction U as [|u U IH]; [reflexivity|]. cbn [map map2]. f_equal; [ring|exact IH]. }
  rewrite !E. apply hess_linear; auto.
Qed.
Lemma quad_error n h phi M X P : h <> 0 -> C2 n (whole n) phi -> hessian_lipschitz n phi M -> length X = n -> length P = n ->
  Rabs (dotR P (diff_vec n h phi X P) - dotR P (hess_vec n phi X P)) <= M * Rabs h / 2 * (normR P * normR P * normR P).
Proof.
  intros Hh HC HM LX LP. rewrite !(dotR_comm P). rewrite <- dotR_sub_l by (rewrite ?diff_vec_length, ?hess_vec_length; auto).
  eapply Rle_trans; [apply cauchy_schwarz_norm; rewrite map2_length; rewrite diff_vec_length, ?hess_vec_length; auto|].
  pose proof (fd_error_lemma n h phi M X P Hh HC HM LX LP) as B. pose proof (normR_nonneg P). nra.
Qed.
Lemma reduction_error n h phi M X P : h <> 0 -> C2 n (whole n) phi -> hessian_lipschitz n phi M -> length X = n -> length P = n ->
  Rabs (fd_reduction n h phi X P - exact_reduction n phi X P) <= M * Rabs h / 4 * normR P ^ 3.
Proof.
  intros Hh HC HM LX LP. pose proof (quad_error n h phi M X P Hh HC HM LX LP) as B. unfold fd_reduction, exact_reduction.
  set (q := dotR P (diff_vec n h phi X P)) in *. set (r := dotR P (hess_vec n phi X P)) in *.
  replace (- (dotR (gradient n phi X) P + 1 / 2 * q) - - (dotR (gradient n phi X) P + 1 / 2 * r)) with (- (1 / 2 * (q - r))) by ring.
  rewrite Rabs_Ropp, Rabs_mult, (Rabs_pos_eq (1 / 2)) by lra. simpl. lra.
Qed.
(** steps along the negative gradient are predicted to decrease the objective *)
Lemma one_direction_reduction n h phi M X D t tau : h <> 0 -> C2 n (whole n) phi -> 0 <= M -> hessian_lipschitz n phi M -> length X = n ->
  0 < t -> let G := gradient n phi X in t <= normR G -> 0 < tau -> tau * normR G <= D ->
  tau * dotR (vscal (-1) G) (diff_vec n h phi X (vscal (-1) G)) <= dotR G G -> M * Rabs h * D * (1 + D / t) < 2 ->
  0 < fd_reduction n h phi X (vscal (- tau) G).
Proof.
  intros Hh HC M0 HM LX Ht G HG Htau HD HK HS.
  assert (LG : length G = n) by apply gradient_length.
  assert (L1 : forall a, length (vscal a G) = n) by (intros; rewrite vscal_length; auto).
  pose proof (quad_error n h phi M X _ Hh HC HM LX (L1 (-1))) as B1.
  pose proof (quad_error n h phi M X _ Hh HC HM LX (L1 (- tau))) as B2.
  unfold fd_reduction. fold G. rewrite dotR_vscal_r. rewrite !hess_scal, !dotR_vscal, !dotR_vscal_r in B1, B2 by auto.
  assert (N : forall a, normR (vscal a G) = Rabs a * normR G) by (intros; apply normR_scal).
  rewrite !N in B1, B2. rewrite Rabs_Ropp, (Rabs_pos_eq tau) in B2 by lra. rewrite (Rabs_left (-1)) in B1 by lra.
  rewrite dotR_vscal in HK. rewrite dotR_vscal.
  assert (EG : dotR G G = normR G * normR G) by (rewrite dotR_self, normR_sq; reflexivity). rewrite EG in *.
  set (g := normR G) in *. set (k := dotR G (hess_vec n phi X G)) in *.
  set (q1 := dotR G (diff_vec n h phi X (vscal (-1) G))) in *. set (q2 := dotR G (diff_vec n h phi X (vscal (- tau) G))) in *.
  apply Rabs_le_between in B1. apply Rabs_le_between in B2. set (e := M * Rabs h) in *.
  assert (He : 0 <= e) by (apply Rmult_le_pos; [exact M0|apply Rabs_pos]).
  assert (Hg : 0 < g) by lra. assert (0 < tau * g) by (apply Rmult_lt_0_compat; auto).
  assert (T : tau <= D / t).
  { apply (Rmult_le_reg_r t); [exact Ht|]. replace (D / t * t) with D by (field; lra). nra. }
  assert (HP : e * (tau * g) * (1 + tau) < 2).
  { eapply Rle_lt_trans; [|exact HS]. apply Rmult_le_compat; [apply Rmult_le_pos; lra|lra| |lra]. apply Rmult_le_compat_l; lra. }
  (* k <= - q1 + e/2 g^3 *)
  assert (K1 : k <= - q1 + e / 2 * (g * g * g)) by lra.
  assert (K2 : - tau * q2 <= tau * tau * k + e / 2 * (tau * tau * tau * (g * g * g))) by lra.
  assert (K3 : tau * tau * k <= tau * (g * g) + e / 2 * (tau * tau * (g * g * g))).
  { replace (tau * tau * k) with (tau * (tau * k)) by ring.
    assert (tau * k <= g * g + e / 2 * (tau * (g * g * g))) by nra. nra. }
  assert (K4 : 0 < tau * (g * g) * (1 - e * (tau * g) * (1 + tau) / 2)) by (apply Rmult_lt_0_compat; [nra|lra]).
  assert (K5 : tau * (g * g) * (1 - e * (tau * g) * (1 + tau) / 2) = tau * (g * g) - e / 2 * (tau * tau * (g * g * g)) - e / 2 * (tau * tau * tau * (g * g * g))) by field.
  lra.
Qed.

(** ** one direction *)
Lemma while_stop {A} n (cond : A -> bool) body s : cond s = false -> while_loop n cond body s = s.
Proof. intros E. destruct n; simpl; [|rewrite E]; reflexivity. Qed.
Lemma neg_scal g t : S_Tr.taxpy (tscal 0 g) t (tscal (-1) g) = tscal (- t) g.
Proof.
  apply tree_ext; [rewrite taxpy_shape; rewrite ?shape_scal; auto|]. intros i j.
  rewrite entry_axpy, !entry_scal by (rewrite ?shape_scal; auto). ring.
Qed.
Lemma tnorm_negscal t g : 0 <= t -> S_Tr.tnorm (tscal (- t) g) = t * S_Tr.tnorm g.
Proof.
  intros Ht. unfold S_Tr.tnorm. rewrite tdot_scal_l, tdot_scal_r. replace (- t * (- t * tdot g g)) with (t * t * tdot g g) by ring.
  rewrite sqrt_mult; [|nra|apply tdot_nonneg]. rewrite sqrt_square by exact Ht. reflexivity.
Qed.
Lemma one_residual g hd : length (concat g) = 1%nat -> M_Tree.shape hd = M_Tree.shape g ->
  0 < tdot (tscal (-1) g) hd -> S_Tr.tnorm (S_Tr.taxpy g (tdot g g / tdot (tscal (-1) g) hd) hd) = 0.
Proof.
  intros L1 Sh HK. pose proof (concat_length_shape hd g Sh) as L2. rewrite tdot_scal_l in HK |- *.
  unfold S_Tr.tnorm. unfold tdot at 1. rewrite concat_axpy by congruence. unfold tdot in *.
  destruct (concat g) as [|a [|? ?]]; try discriminate L1. destruct (concat hd) as [|b [|? ?]]; try discriminate L2.
  unfold dotR, vadd, vscal in *. cbn [map map2 sumR fold_right] in *. 
  assert (a <> 0) by (intros ->; lra). assert (b <> 0) by (intros ->; lra).
  transitivity (sqrt 0); [f_equal; field; split; lra|apply sqrt_0].
Qed.
Lemma steihaug_one g H h D e mi : 0 < D -> 0 < e -> S_Tr.computes H h (M_Tree.shape g) ->
  ((exists m, mi = Some m /\ (m <= 1)%nat) \/ length (concat g) = 1%nat) ->
  exists tau, cg_p (steihaug (fin g) H D (Fin e) mi) = fin (tscal (- tau) g) /\
    (tau = 0 /\ ((iter_limit g mi = 0)%nat \/ S_Tr.tnorm g < e) \/
     e <= S_Tr.tnorm g /\ 0 < tau /\ tau * S_Tr.tnorm g <= D /\ tau * tdot (tscal (-1) g) (h (tscal (-1) g)) <= tdot g g /\
     (tdot (tscal (-1) g) (h (tscal (-1) g)) <= 0 -> tau * S_Tr.tnorm g = D)).
Proof.
  intros HD He HC HO. rewrite steihaug_unfold. cbn [cg_p]. unfold cg_loop.
  assert (Z : s_z (cg_init (fin g)) = fin (tscal (- 0) g)) by (cbn [cg_init s_z]; rewrite xt_zeros_fin, Ropp_0; reflexivity).
  destruct (iter_limit g mi) as [|m] eqn:Em; [exists 0; split; [exact Z|left; auto]|].
  pose proof (cg_inv_init g D HD) as HI. destruct (cg_cond D (Fin e) (cg_init (fin g))) eqn:EC; [|rewrite while_stop by exact EC; exists 0; split; [exact Z|left; split; [reflexivity|right]];
    rewrite (cg_inv_cond _ D _ _ _ _ e HD HI) in EC; unfold Rleb in EC; destruct (Rle_dec e (S_Tr.tnorm g)); [discriminate|lra]].
  rewrite while_first by exact EC. set (d := tscal (-1) g) in *.
  assert (Sd : M_Tree.shape d = M_Tree.shape g) by apply shape_scal.
  destruct (HC d Sd) as (Eh & Sh).
  destruct (cg_inv_step _ D _ _ d g e H (h d) HD He HI EC Eh Sh) as (Hrr & HS).
  assert (Hn : e <= S_Tr.tnorm g).
  { rewrite (cg_inv_cond _ D _ _ _ _ e HD HI) in EC. unfold Rleb in EC. destruct (Rle_dec e (S_Tr.tnorm g)); [auto|discriminate]. }
  set (s1 := cg_step H D (cg_init (fin g))) in *. set (kap := tdot d (h d)) in *.
  assert (HM : m = 0%nat \/ length (concat g) = 1%nat).
  { destruct HO as [(m' & -> & Hm)|L]; [left|right; exact L]. cbn [iter_limit] in Em. lia. }
  destruct HS as [(K & I1)|(K & tau & T1 & T2 & I1)].
  - assert (ES : while_loop m (cg_cond D (Fin e)) (cg_step H D) s1 = s1).
    { destruct HM as [->|L1]; [reflexivity|]. apply while_stop. rewrite (cg_inv_cond _ D _ _ _ _ e HD I1).
      unfold kap, d. rewrite one_residual by auto. unfold Rleb. destruct (Rle_dec e 0); [lra|reflexivity]. }
    rewrite ES. destruct I1 as ((Ez & _) & _ & _ & _ & Hz & _). exists (tdot g g / kap). unfold d in Ez, Hz. rewrite neg_scal in Ez, Hz.
    split; [exact Ez|]. right. assert (0 < tdot g g / kap) by (apply Rdiv_lt_0_compat; auto). rewrite tnorm_negscal in Hz by lra.
    fold d kap. repeat split; auto; [lra| |lra]. right. field. lra.
  - assert (ES : while_loop m (cg_cond D (Fin e)) (cg_step H D) s1 = s1) by (apply while_stop; exact (cg_term_cond _ D s1 _ (Fin e) I1)).
    rewrite ES. destruct I1 as (Ez & _ & Hz & _). exists tau. unfold d in Ez, Hz. rewrite neg_scal in Ez, Hz. rewrite tnorm_negscal in Hz by lra.
    split; [exact Ez|]. right. fold d kap. repeat split; auto; [lra|]. destruct (Rle_dec kap 0) as [N|N].
    + assert (tau * kap <= 0) by nra. lra.
    + assert (tau <= tdot g g / kap) by (apply T2; lra). apply (Rmult_le_compat_r kap) in H0; [|lra].
      replace (tdot g g / kap * kap) with (tdot g g) in H0 by (field; lra). exact H0.
Qed.

(** ** the solver's operator *)
Definition fd_tree h sh phi (x p : tree) : tree := chopped sh (diff_vec (size_ sh) h phi (concat x) (concat p)).
Lemma fd_tree_ok h sh phi x p : sized sh (fd_tree h sh phi x p) /\ concat (fd_tree h sh phi x p) = diff_vec (size_ sh) h phi (concat x) (concat p).
Proof. apply chopped_ok, diff_vec_length. Qed.
Lemma fd_computes c sh phi aux vag (has_aux : bool) f x : C2 (size_ sh) (whole (size_ sh)) phi ->
  user_function sh (whole (size_ sh)) phi aux vag has_aux f -> approx_hvp c = true -> sized sh x ->
  S_Tr.computes (tr_hvp c (tr_objective f vag has_aux sh) (fin x)) (fd_tree (fd_h c) sh phi x) (map size1 sh).
Proof.
  intros HC H HA Sx p Sp. destruct (fd_tree_ok (fd_h c) sh phi x p) as (S1 & C1). split; [|exact S1].
  destruct (tr_hvp_ok c sh (whole (size_ sh)) phi aux vag has_aux f x p (whole_open _) HC H Sx Sp (sized_length sh x Sx)) as (h & E & S2 & C2).
  { intros _. unfold whole. rewrite axpy_length; rewrite (sized_length sh x Sx); auto. rewrite (sized_length sh p Sp). reflexivity. }
  rewrite E. f_equal. rewrite HA in C2. apply (sized_eq sh); auto. congruence.
Qed.
Lemma fd_hvp_error_lemma c sh phi aux vag (has_aux : bool) f x p M : C2 (size_ sh) (whole (size_ sh)) phi -> hessian_lipschitz (size_ sh) phi M ->
  user_function sh (whole (size_ sh)) phi aux vag has_aux f -> approx_hvp c = true -> fd_h c <> 0 -> sized sh x -> sized sh p ->
  exists h, tr_hvp c (tr_objective f vag has_aux sh) (fin x) (fin p) = fin h /\ sized sh h /\
    normR (map2 Rminus (concat h) (hess_vec (size_ sh) phi (concat x) (concat p))) <= M * Rabs (fd_h c) / 2 * normR (concat p) ^ 2.
Proof.
  intros HC HM H HA Hh Sx Sp. destruct (fd_tree_ok (fd_h c) sh phi x p) as (S1 & C1). exists (fd_tree (fd_h c) sh phi x p).
  split; [exact (proj1 (fd_computes c sh phi aux vag has_aux f x HC H HA Sx p Sp))|]. split; [exact S1|]. rewrite C1.
  replace (normR (concat p) ^ 2) with (normR (concat p) * normR (concat p)) by ring.
  apply fd_error_lemma; auto using sized_length.
Qed.
Lemma ratio_rule v w pred ra : xgeb (xdiv (xsub (Fin v) (Fin w)) (Fin pred)) (Fin ra) = true <-> accept_rule ra pred v w.
Proof.
  unfold accept_rule. change (xsub (Fin v) (Fin w)) with (Fin (v + - w)). unfold xdiv. destruct (Req_EM_T pred 0) as [E|N].
  - subst pred. unfold xinf. destruct (Rlt_dec 0 (v + - w)) as [P|P]; [|destruct (Rlt_dec (v + - w) 0) as [Q|Q]]; cbn; (split; [intros T|intros [T|[T|T]]]); try discriminate T; auto; try lra.
  - assert (E : (v + - w) / pred * pred = v - w) by (field; exact N). set (q := (v + - w) / pred) in *. cbn. unfold Rleb.
    destruct (Rlt_dec 0 pred) as [P|P]; destruct (Rle_dec ra q) as [L|L]; (split; [intros T|intros [T|[T|T]]]); try discriminate T; auto; try lra.
    + left. split; [exact P|]. nra.
    + exfalso. destruct T as (_ & T). nra.
    + right. right. split; [lra|]. nra.
    + exfalso. destruct T as (T1 & T). nra.
Qed.

(** ** one update *)
Lemma concat_add sh x p : sized sh x -> sized sh p -> sized sh (tadd x p) /\ concat (tadd x p) = axpy 1 (concat x) (concat p).
Proof.
  intros Sx Sp. assert (S : M_Tree.shape x = M_Tree.shape p) by (rewrite sized_shape in Sx, Sp; congruence).
  split; [apply sized_shape; rewrite shape_map2 by exact S; exact Sx|].
  rewrite concat_map2 by exact S. unfold axpy. assert (L : length (concat x) = length (concat p)) by (apply concat_length_shape; exact S).
  revert L. generalize (concat x), (concat p). clear. induction l as [|a l IH]; intros [|b m] L; try discriminate; [reflexivity|].
  cbn [map2]. f_equal; [ring|]. apply IH. injection L; auto.
Qed.
Lemma update_fd_lemma c sh phi aux vag (has_aux : bool) f x s x1 s1 : C2 (size_ sh) (whole (size_ sh)) phi ->
  user_function sh (whole (size_ sh)) phi aux vag has_aux f -> approx_hvp c = true -> fd_h c <> 0 -> 0 < tol c -> 0 <= min_tr_radius c ->
  sized sh x -> eps_ok s -> update c (tr_objective f vag has_aux sh) (fin x) s = Ok (x1, s1) ->
  (M_Tr.tr_radius s <= min_tr_radius c /\ x1 = fin x /\ s1 = s) \/
  (min_tr_radius c < M_Tr.tr_radius s /\ exists p, sized sh p /\ normR (concat p) <= M_Tr.tr_radius s /\
    cg_p (steihaug (fin (grad_tree sh phi x)) (damped c (tr_hvp c (tr_objective f vag has_aux sh) (fin x))) (M_Tr.tr_radius s)
      (inner_eps c (cg_eps (subproblem s)) (Fin (normR (gradient (size_ sh) phi (concat x))))) (maxiter_steihaug c)) = fin p /\
    let pred := fd_reduction (size_ sh) (fd_h c) phi (concat x) (concat p) in let new := phi (axpy 1 (concat x) (concat p)) in
    ((accept_rule (rho_accept c) pred (phi (concat x)) new /\ M_Tr.accepted s1 = true /\ x1 = fin (tadd x p) /\ M_Tr.value s1 = Fin new) \/
     (~ accept_rule (rho_accept c) pred (phi (concat x)) new /\ M_Tr.accepted s1 = false /\ x1 = fin x /\ M_Tr.value s1 = Fin (phi (concat x)))) /\
    (one_direction c (size_ sh) -> (forall l, damping_factor c = Some l -> 0 <= l) -> forall M, 0 <= M -> hessian_lipschitz (size_ sh) phi M ->
      small_differences c M (M_Tr.tr_radius s) -> 0 < pred \/ concat p = vscal 0 (gradient (size_ sh) phi (concat x)))).
Proof.
  intros HC H HA Hh Ht Hm Sx He HU. set (ob := tr_objective f vag has_aux sh) in *. pose proof (sized_length sh x Sx) as Lx.
  destruct (vg_ok sh _ phi aux vag has_aux f x (whole_open _) H Sx Lx) as (g & Eg & Sg & Cg). fold ob in Eg.
  destruct (update_cases c ob (fin x) s x1 s1 _ _ _ Eg HU) as [K|(HR & K)]; [left; exact K|]. right. split; [exact HR|].
  cbv zeta in K. rewrite xt_norm_fin in K. destruct (inner_eps_lemma c (cg_eps (subproblem s)) (S_Tr.tnorm g) (tnorm_nonneg g) He) as (e & Ee & He1 & _ & He2).
  rewrite Ee in K. assert (He0 : 0 < e) by lra. assert (HD : 0 < M_Tr.tr_radius s) by lra.
  pose proof (damped_computes c _ _ _ (fd_computes c sh phi aux vag has_aux f x HC H HA Sx)) as HCm. fold ob in HCm.
  assert (Sg' : M_Tree.shape g = map size1 sh) by (apply sized_shape; exact Sg).
  set (hd := damped_op c (fd_tree (fd_h c) sh phi x)) in *.
  rewrite <- Sg' in HCm.
  assert (HF : finite_op (damped c (tr_hvp c ob (fin x))) (M_Tree.shape g)).
  { intros d Sd. exists (hd d). apply HCm. exact Sd. }
  destruct (steihaug_region_lemma g _ (M_Tr.tr_radius s) e (maxiter_steihaug c) HD He0 HF) as (p & Ep & Sp & _ & Np & _).
  rewrite Ep in K. rewrite Sg' in Sp. assert (Sp' : sized sh p) by (apply sized_shape; exact Sp).
  exists p. split; [exact Sp'|]. split; [rewrite <- tnorm_normR; exact Np|].
  assert (Eg0 : grad_tree sh phi x = g) by (apply (sized_eq sh); [apply grad_tree_ok|exact Sg|rewrite Cg; apply grad_tree_ok]).
  split; [rewrite Eg0, <- Cg, <- tnorm_normR, Ee; exact Ep|]. intros pred new.
  rewrite xt_add_fin in K. destruct (concat_add sh x p Sx Sp') as (Sq & Cq).
  destruct (vg_ok sh _ phi aux vag has_aux f _ (whole_open _) H Sq (sized_length sh _ Sq)) as (g' & Eg' & _ & _). fold ob in Eg'. rewrite Cq in Eg'. fold new in Eg'.
  destruct K as (v' & a' & g1 & E1 & K). rewrite Eg' in E1. injection E1 as <- <- <-.
  destruct (fd_computes c sh phi aux vag has_aux f x HC H HA Sx p Sp) as (Eh & _). fold ob in Eh. rewrite Eh in K.
  destruct (fd_tree_ok (fd_h c) sh phi x p) as (Sh & Ch).
  rewrite !xt_vdot_fin in K by (rewrite sized_shape in Sh; congruence).
  assert (ED : xneg (xadd (Fin (tdot g p)) (xmul (Fin (1 / 2)) (Fin (tdot p (fd_tree (fd_h c) sh phi x p))))) = Fin pred).
  { cbn. f_equal. unfold pred, fd_reduction, tdot. rewrite Ch, Cg. ring. }
  rewrite ED in K. split.
  - pose proof (ratio_rule (phi (concat x)) new pred (rho_accept c)) as RR.
    destruct K as [(A & -> & ->)|(A & -> & ->)]; [left|right]; cbn [M_Tr.accepted M_Tr.value]; (split; [|auto]).
    + apply RR. exact A.
    + intros F. apply RR in F. congruence.
  - intros HO Hl M M0 HM HS.
    assert (HO' : (exists m, maxiter_steihaug c = Some m /\ (m <= 1)%nat) \/ length (concat g) = 1%nat).
    { destruct HO as [HO|HO]; [left; exact HO|right]. rewrite (sized_length sh g Sg). exact HO. }
    destruct (steihaug_one g _ hd (M_Tr.tr_radius s) e (maxiter_steihaug c) HD He0 HCm HO') as (tau & Et & HT). rewrite Ep in Et. apply fin_inj in Et. subst p.
    rewrite concat_scal, Cg. destruct HT as [(-> & _)|(T1 & T2 & T3 & T4 & _)]; [right; rewrite Ropp_0; reflexivity|left].
    unfold pred. rewrite concat_scal, Cg. rewrite tnorm_normR, Cg in T1, T3.
    apply (one_direction_reduction (size_ sh) (fd_h c) phi M (concat x) (M_Tr.tr_radius s) (tol c) tau); auto; [lra|].
    assert (EQ : dotR (vscal (-1) (gradient (size_ sh) phi (concat x))) (diff_vec (size_ sh) (fd_h c) phi (concat x) (vscal (-1) (gradient (size_ sh) phi (concat x))))
      = tdot (tscal (-1) g) (fd_tree (fd_h c) sh phi x (tscal (-1) g))).
    { unfold tdot. rewrite (proj2 (fd_tree_ok _ _ _ _ _)), concat_scal, Cg. reflexivity. }
    rewrite EQ. assert (EG : dotR (gradient (size_ sh) phi (concat x)) (gradient (size_ sh) phi (concat x)) = tdot g g) by (unfold tdot; rewrite Cg; reflexivity).
    rewrite EG. eapply Rle_trans; [|exact T4]. apply Rmult_le_compat_l; [lra|]. unfold hd, damped_op.
    destruct (damping_factor c) as [l|]; [|lra]. specialize (Hl l eq_refl).
    rewrite tdot_axpy_r by (rewrite shape_scal, Sg'; apply sized_shape; apply fd_tree_ok).
    pose proof (tdot_nonneg (tscal (-1) g)). nra.
Qed.

(** ** runs *)
Lemma fd_run_lemma c sh phi aux vag (has_aux : bool) f M : C2 (size_ sh) (whole (size_ sh)) phi ->
  user_function sh (whole (size_ sh)) phi aux vag has_aux f -> approx_hvp c = true -> fd_h c <> 0 -> 0 < tol c -> good_radii c -> 0 <= rho_accept c ->
  (forall l, damping_factor c = Some l -> 0 <= l) -> one_direction c (size_ sh) -> 0 <= M -> hessian_lipschitz (size_ sh) phi M ->
  small_differences c M (max_tr_radius c) ->
  forall n x s xs, sized sh x -> eps_ok s -> min_tr_radius c <= M_Tr.tr_radius s <= max_tr_radius c -> tr_run c (tr_objective f vag has_aux sh) n (fin x, s) = Ok xs ->
  exists x', fst xs = fin x' /\ sized sh x' /\ phi (concat x') <= phi (concat x).
Proof.
  intros HC H HA Hh Ht HG Hr Hl HO M0 HM HS. set (ob := tr_objective f vag has_aux sh).
  induction n as [|n IH]; intros x s xs Sx He HR HU; cbn [tr_run] in HU.
  { injection HU as <-. exists x. split; [reflexivity|]. split; [exact Sx|lra]. }
  cbn [fst snd] in HU. destruct (update c ob (fin x) s) as [[x1 s1]|] eqn:E; [|discriminate].
  assert (Hm : 0 <= min_tr_radius c) by (destruct HG; lra).
  pose proof (radius_step c ob (fin x) s x1 s1 HG HR E) as HR1. pose proof (sized_length sh x Sx) as Lx.
  assert (GO : forall y, x1 = fin y -> sized sh y -> phi (concat y) <= phi (concat x) -> eps_ok s1 -> exists x', fst xs = fin x' /\ sized sh x' /\ phi (concat x') <= phi (concat x)).
  { intros y -> Sy Hy He1. destruct (IH y s1 xs Sy He1 HR1 HU) as (x' & Ex & Sx' & Hx). exists x'. split; [exact Ex|]. split; [exact Sx'|lra]. }
  destruct (vg_ok sh _ phi aux vag has_aux f x (whole_open _) H Sx Lx) as (g & Eg & _ & _). fold ob in Eg.
  destruct (update_fd_lemma c sh phi aux vag has_aux f x s x1 s1 HC H HA Hh Ht Hm Sx He E) as [(_ & -> & ->)|(HD & p & Sp & Np & _ & K & KO)].
  - apply (GO x); auto. lra.
  - assert (He1 : eps_ok s1) by (destruct (eps_step c ob (fin x) s x1 s1 _ _ _ Eg He HD E) as (e & Ee & _); right; exists e; exact Ee).
    destruct K as [(A & _ & Ex & _)|(_ & _ & Ex & _)]; [|apply (GO x); auto; lra].
    destruct (concat_add sh x p Sx Sp) as (Sq & Cq). apply (GO (tadd x p)); auto. rewrite Cq.
    assert (HS1 : small_differences c M (M_Tr.tr_radius s)).
    { unfold small_differences in *. eapply Rle_lt_trans; [|exact HS]. pose proof (Rabs_pos (fd_h c)).
      assert (0 <= M * Rabs (fd_h c)) by (apply Rmult_le_pos; auto). pose proof (Rinv_0_lt_compat _ Ht).
      assert (0 <= M_Tr.tr_radius s / tol c <= max_tr_radius c / tol c).
      { unfold Rdiv. split; [apply Rmult_le_pos; lra|apply Rmult_le_compat_r; lra]. }
      apply Rmult_le_compat; [apply Rmult_le_pos; lra|lra| |lra]. apply Rmult_le_compat_l; lra. }
    destruct (KO HO Hl M M0 HM HS1) as [P|Z].
    + destruct A as [(_ & A)|[(A & _)|(A & _)]]; [|lra|lra]. nra.
    + rewrite Z. right. f_equal. apply vec_ext; [rewrite axpy_length; auto; rewrite vscal_length, gradient_length; auto|].
      intros i _. rewrite nth_axpy by (rewrite vscal_length, gradient_length; auto). unfold vscal. rewrite Rmult_1_l.
      assert (Z0 : forall l k, nth k (map (fun x => 0 * x) l) 0 = 0).
      { induction l as [|a l IHl]; intros [|k]; cbn [map nth]; auto. ring. }
      rewrite Z0. ring.
Qed.
