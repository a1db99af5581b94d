(** Property theorems for the trust region solver of tr.py on functions of pytrees (C112). *)
From Coquelicot Require Import Coquelicot.
From Verif Require Import Base BaseFacts P_Vec M_Tree M_XR M_Tr S_Tr M_Tensor M_Surface M_Calc M_HvpTree M_TrFun
  S_Calc S_Jac S_HvpTree S_TrFun P_AD P_Calc P_HvpTree P_TrFun P_TrFun2 P_TrFun3 T_Calc T_Tr2.
Import ListNotations.
Open Scope R_scope.

Theorem tr_objective_of_function c sh D phi aux vag (has_aux : bool) f x p : openset (size_ sh) D -> C2 (size_ sh) D phi ->
  user_function sh D phi aux vag has_aux f -> sized sh x -> sized sh p -> D (concat x) ->
  (approx_hvp c = true -> D (axpy (fd_h c) (concat x) (concat p))) ->
  (exists g, vg (tr_objective f vag has_aux sh) (fin x) = (Fin (phi (concat x)), if has_aux then Some (aux (concat x)) else None, fin g) /\
    sized sh g /\ concat g = gradient (size_ sh) phi (concat x)) /\
  (exists h, tr_hvp c (tr_objective f vag has_aux sh) (fin x) (fin p) = fin h /\ sized sh h /\
    concat h = if approx_hvp c then diff_vec (size_ sh) (fd_h c) phi (concat x) (concat p)
               else hess_vec (size_ sh) phi (concat x) (concat p)).
Proof.
  exact (fun HO HC H Sx Sp Dx Dp => conj (vg_ok sh D phi aux vag has_aux f x HO H Sx Dx)
    (tr_hvp_ok c sh D phi aux vag has_aux f x p HO HC H Sx Sp Dx Dp)).
Qed.
Print Assumptions tr_objective_of_function.

Theorem tr_value_grad_hvp_agrees f vag has_aux x v a g : value_and_grad_with_aux f vag has_aux x = Ok ((v, a), g) ->
  exists lin, tr_value_grad_hvp f vag has_aux x = Ok ((v, None), g, lin, Some (aux_code a)).
Proof. exact (value_grad_hvp_agrees_lemma f vag has_aux x v a g). Qed.
Print Assumptions tr_value_grad_hvp_agrees.

Theorem tr_of_function_decreases c sh phi aux vag (has_aux : bool) f n x p : C2 (size_ sh) (whole (size_ sh)) phi ->
  user_function sh (whole (size_ sh)) phi aux vag has_aux f ->
  (approx_hvp c = true -> fd_h c <> 0 /\ exact_differences (size_ sh) (fd_h c) phi) ->
  0 < tol c -> 0 <= min_tr_radius c -> 0 <= rho_accept c -> (forall l, damping_factor c = Some l -> 0 <= l) -> sized sh x ->
  exists x' s, tr_run c (tr_objective f vag has_aux sh) n (fin x, init_state c (tr_objective f vag has_aux sh) (fin x) p) = Ok (fin x', s) /\
    sized sh x' /\ phi (concat x') <= phi (concat x) /\
    M_Tr.value s = Fin (phi (concat x')) /\ M_Tr.aux s = (if has_aux then Some (aux (concat x')) else None) /\
    (exists g, M_Tr.grad s = fin g /\ sized sh g /\ concat g = gradient (size_ sh) phi (concat x')) /\
    M_Tr.error s = Fin (normR (gradient (size_ sh) phi (concat x'))).
Proof. exact (tr_function_monotone_lemma c sh phi aux vag has_aux f n x p). Qed.
Print Assumptions tr_of_function_decreases.

Theorem tr_of_function_converges c sh phi aux vag (has_aux : bool) f n x p B L : C2 (size_ sh) (whole (size_ sh)) phi ->
  user_function sh (whole (size_ sh)) phi aux vag has_aux f ->
  (approx_hvp c = true -> exact_differences (size_ sh) (fd_h c) phi) -> 0 < B -> curvature_bound (size_ sh) phi B ->
  (forall X, length X = size_ sh -> L <= phi X) -> progress_options c -> rho_decrease c < 1 -> min_tr_radius c < init_tr_radius c ->
  min_tr_radius c < decrease_factor c * (tol c * Rmin (/ (B + damping c)) ((1 - rho_decrease c) / (B + B))) ->
  sized sh x -> (forall s, p = Some s -> tr_radius s <= max_tr_radius c) -> tr_budget c B (phi (concat x) - L) < INR n ->
  exists x' s, tr_run c (tr_objective f vag has_aux sh) n (fin x, init_state c (tr_objective f vag has_aux sh) (fin x) p) = Ok (fin x', s) /\
    sized sh x' /\ normR (gradient (size_ sh) phi (concat x')) < tol c /\
    M_Tr.error s = Fin (normR (gradient (size_ sh) phi (concat x'))) /\ M_Tr.value s = Fin (phi (concat x')) /\ phi (concat x') <= phi (concat x).
Proof. exact (tr_function_converges_lemma c sh phi aux vag has_aux f n x p B L). Qed.
Print Assumptions tr_of_function_converges.

(** ** the cosine of a scalar parameter: neither convex nor quadratic *)
Definition cosX (X : list R) : R := cos (nth 0 X 0).
Lemma pd_cos X : length X = 1%nat -> pd 0 cosX X = - sin (nth 0 X 0).
Proof.
  destruct X as [|a [|b X]]; try discriminate. intros _. unfold pd, cosX. cbn [nth upd]. apply is_derive_unique. auto_derive; [exact I|ring].
Qed.
Lemma sin_lip a b : Rabs (sin a - sin b) <= Rabs (a - b).
Proof.
  destruct (MVT_gen sin b a cos) as (c & _ & E).
  - intros c _. apply is_derive_Reals, derivable_pt_lim_sin.
  - intros c _. apply derivable_continuous_pt. apply derivable_pt_sin.
  - rewrite E, Rabs_mult. pose proof (Rabs_pos (a - b)). pose proof (COS_bound c). assert (Rabs (cos c) <= 1) by (apply Rabs_le; lra). nra.
Qed.
Lemma cos_lip a b : Rabs (cos a - cos b) <= Rabs (a - b).
Proof. rewrite !cos_sin. eapply Rle_trans; [apply sin_lip|]. right. f_equal. ring. Qed.
Lemma pd_cos2 X : length X = 1%nat -> pd 0 (pd 0 cosX) X = - cos (nth 0 X 0).
Proof.
  destruct X as [|a [|b X]]; try discriminate. intros _. unfold pd at 1. cbn [nth upd].
  transitivity (Derive (fun t => - sin t) a); [apply Derive_ext; intros t; apply (pd_cos [t]); reflexivity|].
  apply is_derive_unique. auto_derive; [exact I|ring].
Qed.
Lemma cos_C2 : C2 1 (whole 1) cosX.
Proof.
  split.
  - intros [|i] X Hi LX; [|lia]. split.
    + destruct X as [|a [|b X]]; try discriminate. unfold cosX. cbn [nth upd]. auto_derive. exact I.
    + intros e He. exists e. split; [exact He|]. intros Y (LY & HY). rewrite !pd_cos by (unfold whole in *; congruence).
      replace (- sin (nth 0 Y 0) - - sin (nth 0 X 0)) with (sin (nth 0 X 0) - sin (nth 0 Y 0)) by ring.
      eapply Rle_lt_trans; [apply sin_lip|]. rewrite Rabs_minus_sym. apply HY.
  - intros [|i] Hi; [|lia]. intros [|j] X Hj LX; [|lia]. split.
    + destruct X as [|a [|b X]]; try discriminate. cbn [nth upd].
      apply (ex_derive_ext (fun t => - sin t)); [intros t; symmetry; apply (pd_cos [t]); reflexivity|]. auto_derive. exact I.
    + intros e He. exists e. split; [exact He|]. intros Y (LY & HY). rewrite !pd_cos2 by (unfold whole in *; congruence).
      replace (- cos (nth 0 Y 0) - - cos (nth 0 X 0)) with (cos (nth 0 X 0) - cos (nth 0 Y 0)) by ring.
      eapply Rle_lt_trans; [apply cos_lip|]. rewrite Rabs_minus_sym. apply HY.
Qed.
Lemma cos_curvature : curvature_bound 1 cosX 1.
Proof.
  intros X V LX LV. destruct V as [|v [|? ?]]; try discriminate. unfold hess_vec, hv_, total, dotR. cbn [seq map map2 sumR fold_right nth].
  rewrite pd_cos2 by exact LX. pose proof (COS_bound (nth 0 X 0)). set (k := cos (nth 0 X 0)) in *.
  replace (v * (- k * v + 0) + 0) with (- k * (v * v)) by ring. rewrite Rabs_mult, Rabs_Ropp.
  rewrite (Rabs_pos_eq (v * v)) by (apply Rle_0_sqr). assert (Rabs k <= 1) by (apply Rabs_le; lra). pose proof (Rle_0_sqr v) as HV. unfold Rsqr in HV. nra.
Qed.
Definition cos_user (vag has_aux : bool) (x : list tensor) : res outL :=
  let v := tsc (cosX (flats x)) in let g := [tsc (- sin (nth 0 (flats x) 0))] in
  Ok (match vag, has_aux with
      | true, true => LAuxGrad v 7 g | true, false => LGrad v g | false, true => LAux v 7 | false, false => LVal v end).
Lemma cos_is_user vag has_aux : user_function [[]] (whole 1) cosX (fun _ => 7%nat) vag has_aux (cos_user vag has_aux).
Proof.
  intros x Sx Dx. exists (tsc (cosX (flats x))). split; [reflexivity|]. split; [reflexivity|].
  destruct vag; [|destruct has_aux; reflexivity]. exists [tsc (- sin (nth 0 (flats x) 0))]. split; [reflexivity|].
  split; [|destruct has_aux; reflexivity]. cbn. rewrite pd_cos by exact Dx. reflexivity.
Qed.
Lemma INR_above r : exists n, r < INR n.
Proof.
  exists (Z.to_nat (up r)). destruct (archimed r) as (H & _). destruct (Z_le_dec 0 (up r)) as [P|P].
  - rewrite INR_IZR_INZ, Z2Nat.id by exact P. lra.
  - pose proof (pos_INR (Z.to_nat (up r))). assert (IZR (up r) < 0) by (apply IZR_lt; lia). lra.
Qed.
(** from x = 1 enough updates lead to a point with |sin x| < 1/100 *)
Example tr_of_function_converges_case vag has_aux : exists n x' s,
  tr_run default_tr (tr_objective (cos_user vag has_aux) vag has_aux [[]]) n
    (fin [[1]], init_state default_tr (tr_objective (cos_user vag has_aux) vag has_aux [[]]) (fin [[1]]) None) = Ok (fin [[x']], s) /\
  Rabs (sin x') < 1 / 100 /\ M_Tr.value s = Fin (cos x').
Proof.
  destruct (INR_above (tr_budget default_tr 1 (cosX (concat [[1]]) - -1))) as (n & Hn).
  destruct (tr_of_function_converges default_tr [[]] cosX (fun _ => 7%nat) vag has_aux (cos_user vag has_aux) n [[1]] None 1 (-1))
    as (x' & s & E & Sx & Hg & Ee & Ev & _).
  - exact cos_C2.
  - exact (cos_is_user vag has_aux).
  - discriminate.
  - lra.
  - exact cos_curvature.
  - intros X _. unfold cosX. pose proof (COS_bound (nth 0 X 0)). lra.
  - apply default_progress.
  - simpl; lra.
  - simpl; lra.
  - unfold damping. simpl. unfold Rmin. destruct (Rle_dec _ _); lra.
  - reflexivity.
  - discriminate.
  - exact Hn.
  - exists n. destruct x' as [|[|y [|? ?]] [|? ?]]; try discriminate Sx. exists y, s. split; [exact E|]. split; [|exact Ev].
    unfold gradient, normR in Hg. cbn [size_ map list_sum fold_right size1 indices length Nat.add seq concat app] in Hg.
    rewrite pd_cos in Hg by reflexivity. cbn [map sumR fold_right nth] in Hg. rewrite Rplus_0_r in Hg.
    replace (- sin y * - sin y) with (Rsqr (sin y)) in Hg by (unfold Rsqr; ring). rewrite sqrt_Rsqr_abs in Hg. exact Hg.
Qed.

(** ** half the squared norm of a tree with a scalar and a vector, also with difference quotients *)
Definition halfsq (X : list R) : R := (nth 0 X 0 * nth 0 X 0 + nth 1 X 0 * nth 1 X 0) / 2.
Lemma pd_halfsq X k : pl X -> (k < 2)%nat -> pd k halfsq X = nth k X 0.
Proof.
  unfold pl. destruct X as [|a [|b [|c X]]]; try discriminate. intros _ Hk.
  destruct k as [|[|k]]; [| |lia]; unfold pd, halfsq; cbn [nth upd]; apply is_derive_unique; auto_derive; auto; field.
Qed.
Lemma halfsq_C2 : C2 2 (whole 2) halfsq.
Proof.
  change (whole 2) with pl. split.
  - intros i X Hi L. split.
    + unfold pl in L. destruct X as [|a [|b [|c X]]]; try discriminate.
      destruct i as [|[|i]]; [| |lia]; unfold halfsq; cbn [nth upd]; auto_derive; auto.
    + intros e He. exists e. split; [exact He|]. intros Y (LY & HY). assert (PY : pl Y) by (unfold pl in *; congruence).
      rewrite !pd_halfsq by auto. apply HY.
  - intros i Hi. apply (coord_C1 _ i); auto. intros X L. apply pd_halfsq; auto.
Qed.
Lemma hess_halfsq X V : length X = 2%nat -> length V = 2%nat -> hess_vec 2 halfsq X V = V.
Proof.
  intros LX LV. destruct V as [|v [|w [|? ?]]]; try discriminate.
  assert (P : forall i j, (i < 2)%nat -> (j < 2)%nat -> pd i (pd j halfsq) X = if Nat.eqb i j then 1 else 0).
  { intros i j Hi Hj. unfold pd at 1.
    transitivity (Derive (fun t => nth j (upd X i t) 0) (nth i X 0)).
    { apply Derive_ext. intros t. apply pd_halfsq; auto. unfold pl. rewrite upd_length. exact LX. }
    destruct (Nat.eqb_spec i j) as [->|N].
    - rewrite (Derive_ext _ (fun t => t)) by (intros; apply upd_nth_same; lia). apply Derive_id.
    - rewrite (Derive_ext _ (fun _ => nth j X 0)) by (intros; apply upd_nth_other; auto). apply Derive_const. }
  unfold hess_vec, hv_, total. cbn [seq map sumR fold_right nth]. rewrite !P by lia. cbn [Nat.eqb]. repeat f_equal; ring.
Qed.
Lemma halfsq_differences h : h <> 0 -> exact_differences 2 h halfsq.
Proof.
  intros Hh X V LX LV. rewrite hess_halfsq by auto. unfold diff_vec. cbn [seq map].
  rewrite !pd_halfsq; auto; try lia; try (unfold pl; rewrite axpy_length; congruence). rewrite !nth_axpy by congruence.
  destruct V as [|v [|w [|? ?]]]; try discriminate. cbn [nth]. repeat f_equal; field; auto.
Qed.
Definition half_user (x : list tensor) : res outL := Ok (LVal (tsc (halfsq (flats x)))).
Definition fd_tr : tr_cfg :=
  mkTr 1 2 (1 / 10000) (3 / 4) 2 (1 / 4) (1 / 4) (1 / 4) (1 / 2) (Some 1) (1 / 100) None true (1 / 10000).
Example tr_of_function_decreases_case : C2 2 (whole 2) halfsq /\
  user_function [[]; [1%nat]] (whole 2) halfsq (fun _ => 0%nat) false false half_user /\ sized [[]; [1%nat]] [[3]; [4]] /\
  (approx_hvp fd_tr = true /\ fd_h fd_tr <> 0 /\ exact_differences 2 (fd_h fd_tr) halfsq) /\ halfsq (concat [[3]; [4]]) = 25 / 2 /\
  hess_vec 2 halfsq [3; 4] [1; 5] = [1; 5] /\ curvature_bound 2 halfsq 1.
Proof.
  split; [exact halfsq_C2|]. split.
  { intros x Sx Dx. exists (tsc (halfsq (flats x))). split; [reflexivity|]. split; reflexivity. }
  split; [reflexivity|]. split.
  { split; [reflexivity|]. assert (fd_h fd_tr <> 0) by (simpl; lra). split; [auto|]. apply halfsq_differences. auto. }
  split; [unfold halfsq; simpl; field|]. split; [apply hess_halfsq; reflexivity|].
  intros X V LX LV. rewrite hess_halfsq by auto. rewrite Rabs_pos_eq by apply dotR_nonneg. lra.
Qed.
