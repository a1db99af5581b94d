(** Proofs for the trust region solver on twice continuously differentiable functions. *)
From Coquelicot Require Import Coquelicot.
From Verif Require Import Base BaseFacts S_RFun P_Vec M_Tree M_XR M_Tr S_Tr P_Tree P_Tr1 P_Tr4 P_Tr5 M_Tensor M_Surface M_Calc M_HvpTree M_TrFun
  S_Calc S_Model S_Jac S_HvpTree S_TrFun P_Surface1 P_AD P_Calc P_Calc2 P_CalcTree P_Jac P_HvpTree P_Surface2 P_Stray1 P_TrFun.
Import ListNotations.
Open Scope R_scope.

Lemma whole_open n : openset n (whole n).
Proof. intros x H. split; [exact H|]. exists 1. split; [lra|]. intros y (L & _). unfold whole in *. congruence. Qed.
Lemma sized_shape sh t : sized sh t <-> M_Tree.shape t = map size1 sh.
Proof. reflexivity. Qed.
Lemma hess_vec_length n phi X V : length (hess_vec n phi X V) = n.
Proof. unfold hess_vec. rewrite map_length, seq_length. reflexivity. Qed.
Lemma gradient_length n phi X : length (gradient n phi X) = n.
Proof. unfold gradient. rewrite map_length, seq_length. reflexivity. Qed.

(** ** Hessian vector products of both kinds *)
Lemma concat_move h x p : M_Tree.shape x = M_Tree.shape p -> concat (tadd x (tscal h p)) = axpy h (concat x) (concat p).
Proof.
  intros S. rewrite concat_map2 by (rewrite shape_scal; exact S). rewrite concat_scal.
  unfold axpy, S_RFun.vscal. pose proof (concat_length_shape x p S) as L. revert L. generalize (concat x), (concat p). clear.
  induction l as [|a l IH]; intros [|b m] L; try discriminate; [reflexivity|]. cbn [map map2]. f_equal. apply IH. injection L; auto.
Qed.
Lemma sized_move h sh x p : sized sh x -> sized sh p -> sized sh (tadd x (tscal h p)).
Proof.
  rewrite !sized_shape. intros Sx Sp. rewrite shape_map2; [exact Sx|]. rewrite shape_scal. congruence.
Qed.
Lemma map2_map_seq (f : R -> R -> R) u v l : map2 f (map u l) (map v l) = map (fun i : nat => f (u i) (v i)) l.
Proof. induction l as [|a l IH]; [reflexivity|]. cbn [map map2]. congruence. Qed.
Lemma tr_hvp_ok c sh D phi aux vag (has_aux : bool) f x p : openset (size_ sh) D -> C2 (size_ sh) D phi ->
  user_function sh D phi aux vag has_aux f -> sized sh x -> sized sh p -> D (concat x) ->
  (approx_hvp c = true -> D (axpy (fd_h c) (concat x) (concat p))) ->
  exists h, tr_hvp c (tr_objective f vag has_aux sh) (fin x) (fin p) = fin h /\ sized sh h /\
    concat h = if approx_hvp c then diff_vec (size_ sh) (fd_h c) phi (concat x) (concat p)
               else hess_vec (size_ sh) phi (concat x) (concat p).
Proof.
  intros HO HC H Sx Sp Dx Dp. unfold tr_hvp. destruct (approx_hvp c).
  - specialize (Dp eq_refl). destruct (vg_ok sh D phi aux vag has_aux f x HO H Sx Dx) as (g & Eg & Sg & Cg).
    rewrite Eg. rewrite xt_scal_fin, xt_add_fin.
    assert (Sm : sized sh (tadd x (tscal (fd_h c) p))) by (apply sized_move; auto).
    assert (Cm : concat (tadd x (tscal (fd_h c) p)) = axpy (fd_h c) (concat x) (concat p)).
    { apply concat_move. rewrite sized_shape in *. congruence. }
    destruct (vg_ok sh D phi aux vag has_aux f _ HO H Sm) as (g' & Eg' & Sg' & Cg'); [rewrite Cm; exact Dp|].
    rewrite Eg'. rewrite sized_shape in *. unfold xt_sub.
    rewrite (xt_map2_fin xsub Rminus) by reflexivity. rewrite xt_scal_fin.
    eexists. split; [reflexivity|]. split; [apply sized_shape; rewrite shape_scal, shape_map2; congruence|].
    rewrite concat_scal, concat_map2 by congruence. rewrite Cg, Cg', Cm. unfold gradient, diff_vec, S_RFun.vscal.
    rewrite map2_map_seq, map_map. apply map_ext. intros i. unfold Rdiv. ring.
  - apply (hess_ok sh D phi aux vag has_aux f x p); auto.
Qed.

(** ** the Hessian is linear and symmetric *)
Lemma dotR_map_seq n u V : length V = n -> dotR (map u (seq 0 n)) V = lsum n (fun i => u i * nth i V 0).
Proof. intros <-. unfold dotR, lsum. rewrite dot_seq. reflexivity. Qed.
Lemma hess_symmetric n phi X U V : C2 n (whole n) phi -> length X = n -> length U = n -> length V = n ->
  dotR (hess_vec n phi X U) V = dotR U (hess_vec n phi X V).
Proof.
  intros HC LX LU LV. rewrite (dotR_comm U). unfold hess_vec. rewrite !dotR_map_seq by auto.
  transitivity (lsum n (fun i => lsum n (fun j => pd i (pd j phi) X * nth j U 0 * nth i V 0))).
  { apply lsum_ext. intros i Hi. symmetry. exact (lsum_scal_r n (nth i V 0) (fun j => pd i (pd j phi) X * nth j U 0)). }
  rewrite lsum_swap. apply lsum_ext. intros i Hi.
  transitivity (lsum n (fun j => pd i (pd j phi) X * nth j V 0 * nth i U 0));
    [|exact (lsum_scal_r n (nth i U 0) (fun j => pd i (pd j phi) X * nth j V 0))]. apply lsum_ext. intros j Hj.
  rewrite (schwarz_n n (whole n) phi X j i (whole_open n) HC LX Hj Hi). ring.
Qed.
Lemma hess_linear n phi X U V a : length U = n -> length V = n ->
  hess_vec n phi X (axpy a U V) = axpy a (hess_vec n phi X U) (hess_vec n phi X V).
Proof.
  intros LU LV. unfold hess_vec. unfold axpy at 2. rewrite map2_map_seq. apply map_ext. intros i. apply hv_linear; auto.
Qed.

(** ** the objective as a smooth problem *)
Definition chopped (sh : list (list nat)) (l : list R) : tree := chop (map size1 sh) l.
Lemma chopped_ok sh l : length l = size_ sh -> sized sh (chopped sh l) /\ concat (chopped sh l) = l.
Proof. intros L. apply chop_ok. exact L. Qed.
Lemma sized_eq sh s t : sized sh s -> sized sh t -> concat s = concat t -> s = t.
Proof. unfold sized. intros H1 H2. apply concat_inj. congruence. Qed.
Definition grad_tree sh phi (x : tree) : tree := chopped sh (gradient (size_ sh) phi (concat x)).
Definition hess_tree sh phi (x p : tree) : tree := chopped sh (hess_vec (size_ sh) phi (concat x) (concat p)).
Lemma grad_tree_ok sh phi x : sized sh (grad_tree sh phi x) /\ concat (grad_tree sh phi x) = gradient (size_ sh) phi (concat x).
Proof. apply chopped_ok, gradient_length. Qed.
Lemma hess_tree_ok sh phi x p : sized sh (hess_tree sh phi x p) /\ concat (hess_tree sh phi x p) = hess_vec (size_ sh) phi (concat x) (concat p).
Proof. apply chopped_ok, hess_vec_length. Qed.
Lemma sized_taxpy sh x a p : sized sh x -> sized sh p -> sized sh (S_Tr.taxpy x a p) /\ concat (S_Tr.taxpy x a p) = axpy a (concat x) (concat p).
Proof.
  intros Sx Sp. rewrite sized_shape in *. split; [apply sized_shape; rewrite taxpy_shape; congruence|].
  rewrite concat_axpy by congruence. unfold vadd, vscal, axpy. assert (L : length (concat x) = length (concat p)) by (apply concat_length_shape; congruence).
  revert L. generalize (concat x), (concat p). clear.
  induction l as [|u l IH]; intros [|b m] L; try discriminate; [reflexivity|]. cbn [map map2]. f_equal. apply IH. injection L; auto.
Qed.
Lemma regular_ok c sh phi aux vag (has_aux : bool) f x : C2 (size_ sh) (whole (size_ sh)) phi ->
  user_function sh (whole (size_ sh)) phi aux vag has_aux f -> (approx_hvp c = true -> exact_differences (size_ sh) (fd_h c) phi) ->
  sized sh x -> regular_at c (tr_objective f vag has_aux sh) x (phi (concat x)) (grad_tree sh phi x) (hess_tree sh phi x).
Proof.
  intros HC H HE Sx. pose proof (sized_length sh x Sx) as Lx. pose proof (whole_open (size_ sh)) as HO.
  destruct (grad_tree_ok sh phi x) as (SG & CG). split; [|split; [|split; [|split]]].
  - destruct (vg_ok sh _ phi aux vag has_aux f x HO H Sx Lx) as (g & E & Sg & Cg). eexists. rewrite E. do 2 f_equal.
    apply (sized_eq sh); auto. congruence.
  - rewrite sized_shape in *. congruence.
  - intros d Sd. assert (Sd' : sized sh d) by (rewrite sized_shape in *; congruence).
    destruct (hess_tree_ok sh phi x d) as (SH & CH). split; [|rewrite sized_shape in *; congruence].
    pose proof (sized_length sh d Sd') as Ld.
    destruct (tr_hvp_ok c sh _ phi aux vag has_aux f x d HO HC H Sx Sd' Lx) as (h & E & Sh & Ch).
    { intros _. unfold whole. rewrite axpy_length; congruence. }
    rewrite E. f_equal. apply (sized_eq sh); auto. rewrite Ch, CH. destruct (approx_hvp c); [apply HE; auto|reflexivity].
  - intros u v a Su Sv. assert (Su' : sized sh u) by (rewrite sized_shape in *; congruence).
    assert (Sv' : sized sh v) by (rewrite sized_shape in *; congruence).
    destruct (hess_tree_ok sh phi x u) as (S1 & C1). destruct (hess_tree_ok sh phi x v) as (S2 & C2).
    destruct (hess_tree_ok sh phi x (S_Tr.taxpy u a v)) as (S3 & C3).
    destruct (sized_taxpy sh _ a _ S1 S2) as (S4 & C4). destruct (sized_taxpy sh _ a _ Su' Sv') as (S5 & C5).
    apply (sized_eq sh); auto. rewrite C3, C4, C5, C1, C2. apply hess_linear; apply sized_length; auto.
  - intros u v Su Sv. assert (Su' : sized sh u) by (rewrite sized_shape in *; congruence).
    assert (Sv' : sized sh v) by (rewrite sized_shape in *; congruence).
    unfold tdot. rewrite (proj2 (hess_tree_ok sh phi x u)), (proj2 (hess_tree_ok sh phi x v)).
    apply hess_symmetric; auto; apply sized_length; auto.
Qed.

(** ** Taylor along a segment *)
Lemma axpy_axpy s t X V : length X = length V -> axpy s (axpy t X V) V = axpy (t + s) X V.
Proof.
  intros L. apply vec_ext; [rewrite !axpy_length; auto; rewrite axpy_length; auto|]. intros i _.
  rewrite !nth_axpy; auto; [ring|rewrite axpy_length; auto].
Qed.
Lemma axpy_0 X V : length X = length V -> axpy 0 X V = X.
Proof. intros L. apply vec_ext; [apply axpy_length; auto|]. intros i _. rewrite nth_axpy by auto. ring. Qed.
Lemma line_derive n phi X V t : C1 n (whole n) phi -> length X = n -> length V = n ->
  is_derive (fun t => phi (axpy t X V)) t (dotR (gradient n phi (axpy t X V)) V).
Proof.
  intros HC LX LV. assert (L : length (axpy t X V) = n) by (rewrite axpy_length; congruence).
  pose proof (chain_line n (whole n) phi (axpy t X V) V (whole_open n) HC L LV) as H.
  unfold gradient. rewrite dotR_map_seq by auto.
  apply (is_derive_ext (fun s => phi (axpy (s - t) (axpy t X V) V))).
  { intros s. rewrite axpy_axpy by congruence. do 2 f_equal. ring. }
  evar_last; [apply (is_derive_comp (fun s => phi (axpy s (axpy t X V) V)) (fun s => s - t))|].
  - replace (t - t) with 0 by ring. exact H.
  - auto_derive; [exact I|reflexivity].
  - cbn. unfold scal; cbn. unfold mult; cbn. ring.
Qed.
Lemma line_derive2 n phi X V t : C2 n (whole n) phi -> length X = n -> length V = n ->
  is_derive (fun t => dotR (gradient n phi (axpy t X V)) V) t (dotR V (hess_vec n phi (axpy t X V) V)).
Proof.
  intros HC LX LV. apply (is_derive_ext (fun t => lsum n (fun i => pd i phi (axpy t X V) * nth i V 0))).
  { intros s. unfold gradient. rewrite dotR_map_seq by auto. reflexivity. }
  rewrite dotR_comm. unfold hess_vec. rewrite dotR_map_seq by auto.
  assert (G : forall k, (k <= n)%nat -> is_derive (fun t => lsum k (fun i => pd i phi (axpy t X V) * nth i V 0)) t
    (lsum k (fun i => hv_ n phi (axpy t X V) V i * nth i V 0))); [|apply G; lia].
  induction k as [|k IH]; intros Hk.
  - apply (is_derive_ext (fun _ => 0)); [reflexivity|]. change (lsum 0 _) with 0. apply is_derive_Reals. apply derivable_pt_lim_const.
  - apply (is_derive_ext (fun t => lsum k (fun i => pd i phi (axpy t X V) * nth i V 0) + pd k phi (axpy t X V) * nth k V 0)).
    { intros s. rewrite lsum_S. reflexivity. }
    rewrite lsum_S. apply (is_derive_plus (fun t => lsum k _)); [apply IH; lia|].
    pose proof (line_derive n (pd k phi) X V t (proj2 HC k ltac:(lia)) LX LV) as H.
    replace (hv_ n phi (axpy t X V) V k) with (dotR (gradient n (pd k phi) (axpy t X V)) V).
    + evar_last; [apply (is_derive_mult (fun t => pd k phi (axpy t X V)) (fun _ => nth k V 0)); [exact H|apply is_derive_const|intros; apply Rmult_comm]|].
      cbn. unfold plus, mult, zero; cbn. ring.
    + unfold gradient. rewrite dotR_map_seq by auto. unfold hv_, total. change (sumR (map ?g (seq 0 n))) with (lsum n g).
      apply lsum_ext. intros j Hj. f_equal. apply (schwarz_n n (whole n)); auto using whole_open; try lia. unfold whole. rewrite axpy_length; congruence.
Qed.
Lemma descent_line n phi B X V : C2 n (whole n) phi -> curvature_bound n phi B -> length X = n -> length V = n ->
  phi (axpy 1 X V) <= phi X + dotR (gradient n phi X) V + B / 2 * dotR V V.
Proof.
  intros HC HB LX LV. set (b := B * dotR V V). set (g1 := fun t => dotR (gradient n phi (axpy t X V)) V).
  assert (HD2 : forall s, is_derive g1 s (dotR V (hess_vec n phi (axpy s X V) V))) by (intros s; exact (line_derive2 n phi X V s HC LX LV)).
  assert (HD1 : forall s, is_derive (fun t => phi (axpy t X V)) s (g1 s)) by (intros s; exact (line_derive n phi X V s (proj1 HC) LX LV)).
  assert (H1 : forall t, 0 <= t -> g1 t <= g1 0 + b * t).
  { intros t Ht. destruct (MVT_gen g1 0 t (fun t => dotR V (hess_vec n phi (axpy t X V) V))) as (s & _ & E).
    - intros s _. exact (HD2 s).
    - intros s _. apply continuity_pt_filterlim. apply (ex_derive_continuous g1). exact (ex_intro _ _ (HD2 s)).
    - assert (LE : dotR V (hess_vec n phi (axpy s X V) V) <= b).
      { eapply Rle_trans; [apply Rle_abs|]. apply HB; auto. rewrite axpy_length; congruence. }
      assert (dotR V (hess_vec n phi (axpy s X V) V) * (t - 0) <= b * (t - 0)) by (apply Rmult_le_compat_r; lra). lra. }
  assert (HD : forall s, is_derive (fun t => phi (axpy t X V) - b / 2 * t ^ 2) s (g1 s - b * s)).
  { intros s. apply (is_derive_minus (fun t => phi (axpy t X V)) (fun t => b / 2 * t ^ 2) s (g1 s) (b * s)).
    - exact (HD1 s).
    - auto_derive; [exact I|]. field. }
  destruct (MVT_gen (fun t => phi (axpy t X V) - b / 2 * t ^ 2) 0 1 (fun t => g1 t - b * t)) as (s & Hs & E).
  - intros s _. exact (HD s).
  - intros s _. apply continuity_pt_filterlim. apply (ex_derive_continuous (fun t => phi (axpy t X V) - b / 2 * t ^ 2)). exact (ex_intro _ _ (HD s)).
  - rewrite Rmin_left, Rmax_right in Hs by lra. rewrite (axpy_0 X V) in E by congruence.
    assert (G0 : g1 0 = dotR (gradient n phi X) V) by (unfold g1; rewrite axpy_0 by congruence; reflexivity).
    pose proof (H1 s ltac:(lra)). rewrite <- G0. fold b. replace (B / 2 * dotR V V) with (b / 2) by (unfold b; field). lra.
Qed.
