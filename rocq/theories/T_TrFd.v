(** Property theorems for the trust region solver of tr.py with approx_hvp = True (C113). *)
From Coquelicot Require Import Coquelicot.
From Verif Require Import Base BaseFacts P_Vec M_Tree M_XR M_Tr S_Tr P_Tr5 M_Tensor M_Surface M_Calc M_HvpTree M_TrFun
  S_Calc S_Jac S_HvpTree S_TrFun S_TrFd P_TrFun2 P_TrFun3 P_TrFd P_TrFd2 P_TrFd3 T_TrFun.
Import ListNotations.
Open Scope R_scope.

Theorem tr_fd_hvp_error c sh phi aux vag (has_aux : bool) f x p M : C2 (size_ sh) (whole (size_ sh)) phi -> hessian_lipschitz (size_ sh) phi M ->
  user_function sh (whole (size_ sh)) phi aux vag has_aux f -> approx_hvp c = true -> fd_h c <> 0 -> sized sh x -> sized sh p ->
  exists h, tr_hvp c (tr_objective f vag has_aux sh) (fin x) (fin p) = fin h /\ sized sh h /\
    normR (map2 Rminus (concat h) (hess_vec (size_ sh) phi (concat x) (concat p))) <= M * Rabs (fd_h c) / 2 * normR (concat p) ^ 2.
Proof. exact (fd_hvp_error_lemma c sh phi aux vag has_aux f x p M). Qed.
Print Assumptions tr_fd_hvp_error.

Theorem tr_fd_prediction_error n h phi M X P : h <> 0 -> C2 n (whole n) phi -> hessian_lipschitz n phi M -> length X = n -> length P = n ->
  Rabs (fd_reduction n h phi X P - exact_reduction n phi X P) <= M * Rabs h / 4 * normR P ^ 3.
Proof. exact (reduction_error n h phi M X P). Qed.
Print Assumptions tr_fd_prediction_error.

Theorem tr_fd_accepts c sh phi aux vag (has_aux : bool) f x s x1 s1 : C2 (size_ sh) (whole (size_ sh)) phi ->
  user_function sh (whole (size_ sh)) phi aux vag has_aux f -> approx_hvp c = true -> fd_h c <> 0 -> 0 < tol c -> 0 <= min_tr_radius c ->
  sized sh x -> eps_ok s -> update c (tr_objective f vag has_aux sh) (fin x) s = Ok (x1, s1) -> min_tr_radius c < M_Tr.tr_radius s ->
  exists p, sized sh p /\ normR (concat p) <= M_Tr.tr_radius s /\
    let pred := fd_reduction (size_ sh) (fd_h c) phi (concat x) (concat p) in let new := phi (axpy 1 (concat x) (concat p)) in
    ((accept_rule (rho_accept c) pred (phi (concat x)) new /\ M_Tr.accepted s1 = true /\ x1 = fin (S_Tr.taxpy x 1 p) /\ M_Tr.value s1 = Fin new) \/
     (~ accept_rule (rho_accept c) pred (phi (concat x)) new /\ M_Tr.accepted s1 = false /\ x1 = fin x /\ M_Tr.value s1 = Fin (phi (concat x)))).
Proof. exact (fd_accepts_lemma c sh phi aux vag has_aux f x s x1 s1). Qed.
Print Assumptions tr_fd_accepts.

(** Missing: the subproblem solver may use more than one direction only if difference
    quotients are exact (C112); and the differences have to be accurate enough.  Without
    the latter the statement is false. *)
Theorem tr_fd_decreases_partial c sh phi aux vag (has_aux : bool) f M n x p : C2 (size_ sh) (whole (size_ sh)) phi ->
  user_function sh (whole (size_ sh)) phi aux vag has_aux f -> approx_hvp c = true -> fd_h c <> 0 -> 0 < tol c -> good_radii c -> 0 <= rho_accept c ->
  (forall l, damping_factor c = Some l -> 0 <= l) -> one_direction c (size_ sh) -> 0 <= M -> hessian_lipschitz (size_ sh) phi M ->
  small_differences c M (max_tr_radius c) -> sized sh x -> (forall s, p = Some s -> M_Tr.tr_radius s <= max_tr_radius c) ->
  exists x' s, tr_run c (tr_objective f vag has_aux sh) n (fin x, init_state c (tr_objective f vag has_aux sh) (fin x) p) = Ok (fin x', s) /\
    sized sh x' /\ M_Tr.value s = Fin (phi (concat x')) /\ phi (concat x') <= phi (concat x).
Proof. exact (fd_decreases_lemma c sh phi aux vag has_aux f M n x p). Qed.
Print Assumptions tr_fd_decreases_partial.

(** The claim that an update never increases the objective, refuted for the default options
    with approx_hvp = True. *)
Theorem tr_fd_decreases_refuted vag has_aux : exists phi f s, let ob := tr_objective f vag has_aux [[]] in
  C2 1 (whole 1) phi /\ user_function [[]] (whole 1) phi (fun _ => 7%nat) vag has_aux f /\
  update approx_tr ob (fin [[0]]) (init_state approx_tr ob (fin [[0]]) None) = Ok (fin [[-1]], s) /\
  M_Tr.accepted s = true /\ M_Tr.value s = Fin (phi [-1]) /\ phi [0] = 0 /\ 3000 < phi [-1].
Proof. exact (fd_refuted_lemma vag has_aux). Qed.
Print Assumptions tr_fd_decreases_refuted.

(** ** the cosine of a scalar parameter *)
Lemma hess_cos x v : hess_vec 1 cosX [x] [v] = [- cos x * v].
Proof. unfold hess_vec, hv_, total. cbn [seq map sumR fold_right nth]. rewrite pd_cos2 by reflexivity. cbn [nth]. f_equal. ring. Qed.
Lemma cos_lipschitz : hessian_lipschitz 1 cosX 1.
Proof.
  intros [|x [|? ?]] [|y [|? ?]] [|v [|? ?]] LX LY LV; try discriminate. rewrite !hess_cos. cbn [map2]. rewrite !normR_one.
  replace (- cos y * v - - cos x * v) with ((cos x - cos y) * v) by ring. rewrite Rabs_mult, Rmult_1_l, (Rabs_minus_sym y x).
  apply Rmult_le_compat_r; [apply Rabs_pos|apply cos_lip].
Qed.
Example tr_fd_hvp_error_case vag has_aux : exists h,
  tr_hvp approx_tr (tr_objective (cos_user vag has_aux) vag has_aux [[]]) (fin [[1]]) (fin [[3]]) = fin h /\ sized [[]] h /\
  normR (map2 Rminus (concat h) [- cos 1 * 3]) <= 1 * Rabs (1 / 10000) / 2 * normR [3] ^ 2.
Proof.
  destruct (tr_fd_hvp_error approx_tr [[]] cosX _ vag has_aux _ [[1]] [[3]] 1 cos_C2 cos_lipschitz (cos_is_user vag has_aux) eq_refl) as (h & E & S & B);
    [cbn; lra|reflexivity|reflexivity|].
  exists h. split; [exact E|]. split; [exact S|]. change (size_ [[]]) with 1%nat in B. cbn [concat app] in B. rewrite hess_cos in B. exact B.
Qed.
Example tr_fd_prediction_error_case : Rabs (fd_reduction 1 (1 / 10000) cosX [1] [2] - exact_reduction 1 cosX [1] [2]) <= 1 * Rabs (1 / 10000) / 4 * normR [2] ^ 3.
Proof. apply tr_fd_prediction_error; auto using cos_C2, cos_lipschitz. lra. Qed.
Example tr_fd_decreases_case vag has_aux n : exists x' s,
  tr_run approx_tr (tr_objective (cos_user vag has_aux) vag has_aux [[]]) n
    (fin [[1]], init_state approx_tr (tr_objective (cos_user vag has_aux) vag has_aux [[]]) (fin [[1]]) None) = Ok (fin x', s) /\
  sized [[]] x' /\ M_Tr.value s = Fin (cosX (concat x')) /\ cosX (concat x') <= cosX [1].
Proof.
  apply (tr_fd_decreases_partial approx_tr [[]] cosX (fun _ => 7%nat) vag has_aux (cos_user vag has_aux) 1 n [[1]] None).
  - exact cos_C2.
  - exact (cos_is_user vag has_aux).
  - reflexivity.
  - cbn; lra.
  - cbn; lra.
  - unfold good_radii; cbn; lra.
  - cbn; lra.
  - discriminate.
  - right. reflexivity.
  - lra.
  - exact cos_lipschitz.
  - unfold small_differences. cbn. rewrite Rabs_pos_eq; lra.
  - reflexivity.
  - discriminate.
Qed.
(** the first update of the cosine from 1, with difference quotients *)
Example tr_fd_accepts_case vag has_aux : let ob := tr_objective (cos_user vag has_aux) vag has_aux [[]] in
  exists x1 s1, update approx_tr ob (fin [[1]]) (init_state approx_tr ob (fin [[1]]) None) = Ok (x1, s1) /\
  exists p, sized [[]] p /\ normR (concat p) <= 1 /\
    let pred := fd_reduction 1 (1 / 10000) cosX [1] (concat p) in let new := cosX (axpy 1 [1] (concat p)) in
    ((accept_rule (1 / 4) pred (cosX [1]) new /\ M_Tr.accepted s1 = true /\ x1 = fin (S_Tr.taxpy [[1]] 1 p) /\ M_Tr.value s1 = Fin new) \/
     (~ accept_rule (1 / 4) pred (cosX [1]) new /\ M_Tr.accepted s1 = false /\ x1 = fin [[1]] /\ M_Tr.value s1 = Fin (cosX [1]))).
Proof.
  intros ob. destruct (P_Tr4.update_total approx_tr ob (fin [[1]]) (init_state approx_tr ob (fin [[1]]) None)) as (x1 & s1 & E); [intros _; cbn; lra|].
  exists x1, s1. split; [exact E|]. assert (R0 : M_Tr.tr_radius (init_state approx_tr ob (fin [[1]]) None) = 1) by (unfold init_state; destruct (vg ob (fin [[1]])) as [[? ?] ?]; reflexivity).
  destruct (tr_fd_accepts approx_tr [[]] cosX (fun _ => 7%nat) vag has_aux (cos_user vag has_aux) [[1]] _ x1 s1 cos_C2 (cos_is_user vag has_aux) eq_refl
    ltac:(cbn; lra) ltac:(cbn; lra) ltac:(cbn; lra) eq_refl (eps_ok_init approx_tr ob (fin [[1]]) None) E) as (p & Sp & Np & K); [rewrite R0; cbn; lra|].
  rewrite R0 in Np. exists p. split; [exact Sp|]. split; [exact Np|]. exact K.
Qed.
