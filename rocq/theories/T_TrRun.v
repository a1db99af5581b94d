(** Property theorems for TR.run (C122). *)
From Coquelicot Require Import Coquelicot.
From Verif Require Import Base BaseFacts P_Vec M_Tree M_XR M_Tr S_Tr M_TrRun S_TrRun M_Tensor M_Surface M_Calc M_HvpTree M_TrFun
  S_Calc S_Jac S_HvpTree S_TrFun P_TrRun T_Tr2 T_TrFun.
Import ListNotations.
Open Scope R_scope.

(** how many updates run makes: at least one unless maxiter is 0, and no more once the
    error is not above the tolerance *)
Theorem tr_run_number_of_updates A c (f : M_Tr.objective A) maxiter x prev xs : run c f maxiter x prev = Ok xs ->
  exists n, (n <= maxiter)%nat /\ tr_run c f n (x, init_state c f x prev) = Ok xs /\
    (n = maxiter \/ (1 <= n)%nat /\ ~ above (M_Tr.error (snd xs)) (tol c)) /\
    (forall j ys, (1 <= j < n)%nat -> tr_run c f j (x, init_state c f x prev) = Ok ys -> above (M_Tr.error (snd ys)) (tol c)).
Proof. exact (run_updates_above c f maxiter x prev xs). Qed.
Print Assumptions tr_run_number_of_updates.

Theorem tr_run_decreases c sh phi aux vag (has_aux : bool) f maxiter x p : C2 (size_ sh) (whole (size_ sh)) phi ->
  user_function sh (whole (size_ sh)) phi aux vag has_aux f ->
  (approx_hvp c = true -> fd_h c <> 0 /\ exact_differences (size_ sh) (fd_h c) phi) ->
  0 < tol c -> 0 <= min_tr_radius c -> 0 <= rho_accept c -> (forall l, damping_factor c = Some l -> 0 <= l) -> sized sh x ->
  exists x' s n, run c (tr_objective f vag has_aux sh) maxiter (fin x) p = Ok (fin x', s) /\ sized sh x' /\
    phi (concat x') <= phi (concat x) /\ M_Tr.value s = Fin (phi (concat x')) /\
    M_Tr.error s = Fin (normR (gradient (size_ sh) phi (concat x'))) /\
    (n <= maxiter)%nat /\ tr_run c (tr_objective f vag has_aux sh) n (fin x, init_state c (tr_objective f vag has_aux sh) (fin x) p) = Ok (fin x', s) /\
    (n = maxiter \/ normR (gradient (size_ sh) phi (concat x')) <= tol c).
Proof. exact (run_decreases c sh phi aux vag has_aux f maxiter x p). Qed.
Print Assumptions tr_run_decreases.

(** Full statement: the gradient norm of the result is at most tol.  Missing: the bound on
    maxiter is needed (refuted below). *)
Theorem tr_run_reaches_tolerance_partial c sh phi aux vag (has_aux : bool) f maxiter x p B L : C2 (size_ sh) (whole (size_ sh)) phi ->
  user_function sh (whole (size_ sh)) phi aux vag has_aux f ->
  (approx_hvp c = true -> exact_differences (size_ sh) (fd_h c) phi) -> 0 < B -> curvature_bound (size_ sh) phi B ->
  (forall X, length X = size_ sh -> L <= phi X) -> progress_options c -> rho_decrease c < 1 -> min_tr_radius c < init_tr_radius c ->
  min_tr_radius c < decrease_factor c * (tol c * Rmin (/ (B + damping c)) ((1 - rho_decrease c) / (B + B))) ->
  sized sh x -> (forall s, p = Some s -> tr_radius s <= max_tr_radius c) -> tr_budget c B (phi (concat x) - L) < INR maxiter ->
  exists x' s, run c (tr_objective f vag has_aux sh) maxiter (fin x) p = Ok (fin x', s) /\
    sized sh x' /\ normR (gradient (size_ sh) phi (concat x')) <= tol c /\ phi (concat x') <= phi (concat x) /\
    M_Tr.value s = Fin (phi (concat x')) /\ M_Tr.error s = Fin (normR (gradient (size_ sh) phi (concat x'))).
Proof. exact (run_converges c sh phi aux vag has_aux f maxiter x p B L). Qed.
Print Assumptions tr_run_reaches_tolerance_partial.

(** the identity of a scalar: whatever maxiter is, the result has gradient 1 *)
Definition idX (X : list R) : R := nth 0 X 0.
Lemma pd_id X : length X = 1%nat -> pd 0 idX X = 1.
Proof.
  destruct X as [|a [|b X]]; try discriminate. intros _. unfold pd, idX. cbn [nth upd]. apply Derive_id.
Qed.
Lemma id_C2 : C2 1 (whole 1) idX.
Proof.
  split.
  - intros [|i] X Hi LX; [|lia]. split.
    + destruct X as [|a [|b X]]; try discriminate. unfold idX. cbn [nth upd]. auto_derive. exact I.
    + intros e He. exists e. split; [exact He|]. intros Y (LY & HY). rewrite !pd_id by (unfold whole in *; congruence).
      rewrite Rminus_diag_eq, Rabs_R0 by reflexivity. exact He.
  - intros [|i] Hi; [|lia]. intros [|j] X Hj LX; [|lia].
    assert (Z : forall Y, length Y = 1%nat -> pd 0 (pd 0 idX) Y = 0).
    { intros Y LY. destruct Y as [|a [|b Y]]; try discriminate. unfold pd at 1. cbn [nth upd].
      transitivity (Derive (fun _ => 1) a); [apply Derive_ext; intros t; apply (pd_id [t]); reflexivity|apply Derive_const]. }
    split.
    + destruct X as [|a [|b X]]; try discriminate. cbn [nth upd].
      apply (ex_derive_ext (fun t => 1)); [intros t; symmetry; apply (pd_id [t]); reflexivity|]. auto_derive. exact I.
    + intros e He. exists e. split; [exact He|]. intros Y (LY & HY). rewrite !Z by (unfold whole in *; congruence).
      rewrite Rminus_diag_eq, Rabs_R0 by reflexivity. exact He.
Qed.
Definition id_user (x : list tensor) : res outL := Ok (LVal (tsc (idX (flats x)))).
Lemma id_is_user : user_function [[]] (whole 1) idX (fun _ => 0%nat) false false id_user.
Proof. intros x Sx Dx. exists (tsc (idX (flats x))). repeat split. Qed.
Theorem tr_run_tolerance_refuted maxiter :
  exists x' s, run default_tr (tr_objective id_user false false [[]]) maxiter (fin [[0]]) None = Ok (x', s) /\
    M_Tr.error s = Fin 1 /\ tol default_tr < 1.
Proof.
  destruct (tr_run_decreases default_tr [[]] idX (fun _ => 0%nat) false false id_user maxiter [[0]] None)
    as (x' & s & n & E & Sx & _ & _ & He & _).
  - exact id_C2.
  - exact id_is_user.
  - discriminate.
  - simpl; lra.
  - simpl; lra.
  - simpl; lra.
  - discriminate.
  - reflexivity.
  - exists (fin x'), s. split; [exact E|]. split; [|simpl; lra]. rewrite He. f_equal.
    destruct x' as [|[|y [|? ?]] [|? ?]]; try discriminate Sx.
    unfold gradient, normR. cbn [size_ map list_sum fold_right size1 indices length Nat.add seq concat app].
    rewrite pd_id by reflexivity. cbn [map sumR fold_right]. rewrite Rplus_0_r, Rmult_1_r. apply sqrt_1.
Qed.
Print Assumptions tr_run_tolerance_refuted.

(** from x = 1 the minimisation of cos reaches the tolerance 1/100 if maxiter is large enough *)
Example tr_run_case vag has_aux : exists maxiter x' s,
  run default_tr (tr_objective (cos_user vag has_aux) vag has_aux [[]]) maxiter (fin [[1]]) None = Ok (fin [[x']], s) /\
  Rabs (sin x') <= 1 / 100 /\ M_Tr.value s = Fin (cos x').
Proof.
  destruct (INR_above (tr_budget default_tr 1 (cosX (concat [[1]]) - -1))) as (n & Hn).
  destruct (tr_run_reaches_tolerance_partial default_tr [[]] cosX (fun _ => 7%nat) vag has_aux (cos_user vag has_aux) n [[1]] None 1 (-1))
    as (x' & s & E & Sx & Hg & _ & Ev & _).
  - exact cos_C2.
  - exact (cos_is_user vag has_aux).
  - discriminate.
  - lra.
  - exact cos_curvature.
  - intros X _. unfold cosX. pose proof (COS_bound (nth 0 X 0)). lra.
  - apply default_progress.
  - simpl; lra.
  - simpl; lra.
  - unfold damping. simpl. unfold Rmin. destruct (Rle_dec _ _); lra.
  - reflexivity.
  - discriminate.
  - exact Hn.
  - exists n. destruct x' as [|[|y [|? ?]] [|? ?]]; try discriminate Sx. exists y, s. split; [exact E|]. split; [|exact Ev].
    unfold gradient, normR in Hg. cbn [size_ map list_sum fold_right size1 indices length Nat.add seq concat app] in Hg.
    rewrite pd_cos in Hg by reflexivity. cbn [map sumR fold_right nth] in Hg. rewrite Rplus_0_r in Hg.
    replace (- sin y * - sin y) with (Rsqr (sin y)) in Hg by (unfold Rsqr; ring). rewrite sqrt_Rsqr_abs in Hg. exact Hg.
Qed.
