(** Proofs for the trust region solver with difference quotients of the gradient. *)
From Coquelicot Require Import Coquelicot.
From Verif Require Import Base BaseFacts S_RFun P_Vec M_Tree M_XR M_Tr S_Tr P_Tree P_Tr1 P_Tr4 P_Tr5 M_Tensor M_Surface M_Calc M_HvpTree M_TrFun
  S_Calc S_Model S_Jac S_HvpTree S_TrFun S_TrFd P_AD P_Calc P_Calc2 P_Jac P_HvpTree P_Surface2 P_Stray1 P_TrFun P_TrFun2 P_TrFun3.
Import ListNotations.
Open Scope R_scope.

(** ** second order remainder *)
Lemma square_bound (f f' : R -> R) K h : (forall t, is_derive f t (f' t)) -> (forall t, Rabs (f' t) <= K * Rabs t) -> Rabs (f h - f 0) <= K * h ^ 2 / 2.
Proof.
  intros HD HK.
  assert (G : forall s, (s = 1 \/ s = -1) -> forall q, 0 <= q -> Rabs (f (s * q) - f 0) <= K * q ^ 2 / 2).
  { intros s Hs q Hq. assert (Es : Rabs s = 1) by (destruct Hs as [->| ->]; [rewrite Rabs_pos_eq; lra|rewrite Rabs_left; lra]).
    assert (HDs : forall e t, is_derive (fun t => e * (f (s * t) - f 0) - K * t ^ 2 / 2) t (e * (s * f' (s * t)) - K * t)).
    { intros e t. pose proof (HD (s * t)) as H. assert (ex_derive f (s * t)) by (eexists; exact H).
      auto_derive; [auto|]. replace (Derive (fun x => f x) (s * t)) with (f' (s * t)) by (symmetry; apply is_derive_unique; exact H). field. }
    assert (MV : forall e, (e = 1 \/ e = -1) -> e * (f (s * q) - f 0) <= K * q ^ 2 / 2).
    { intros e He. assert (Ee : Rabs e = 1) by (destruct He as [->| ->]; [rewrite Rabs_pos_eq; lra|rewrite Rabs_left; lra]).
      destruct (MVT_gen (fun t => e * (f (s * t) - f 0) - K * t ^ 2 / 2) 0 q (fun t => e * (s * f' (s * t)) - K * t)) as (c & Hc & E).
      - intros t _. exact (HDs e t).
      - intros t _. apply continuity_pt_filterlim. apply (ex_derive_continuous (fun t => e * (f (s * t) - f 0) - K * t ^ 2 / 2)). exact (ex_intro _ _ (HDs e t)).
      - rewrite Rmin_left, Rmax_right in Hc by lra. rewrite Rmult_0_r in E.
        pose proof (HK (s * c)) as B. rewrite Rabs_mult, Es, (Rabs_pos_eq c) in B by lra.
        assert (e * (s * f' (s * c)) <= K * (1 * c)).
        { eapply Rle_trans; [apply Rle_abs|]. rewrite !Rabs_mult, Ee, Es. lra. }
        assert ((e * (s * f' (s * c)) - K * c) * (q - 0) <= 0) by (assert (0 <= q - 0) by lra; nra).
        cbn beta in E. replace (K * 0 ^ 2 / 2) with 0 in E by field. lra. }
    apply Rabs_le. pose proof (MV 1 (or_introl eq_refl)). pose proof (MV (-1) (or_intror eq_refl)). lra. }
  destruct (Rle_dec 0 h) as [P|P].
  - pose proof (G 1 (or_introl eq_refl) h P) as H. rewrite Rmult_1_l in H. exact H.
  - pose proof (G (-1) (or_intror eq_refl) (- h) ltac:(lra)) as H. replace (-1 * - h) with h in H by ring. replace ((- h) ^ 2) with (h ^ 2) in H by ring. exact H.
Qed.

Lemma gradient_line n phi X V W t : C2 n (whole n) phi -> length X = n -> length V = n -> length W = n ->
  is_derive (fun t => dotR (gradient n phi (axpy t X V)) W) t (dotR (hess_vec n phi (axpy t X V) V) W).
Proof.
  intros HC LX LV LW. apply (is_derive_ext (fun t => lsum n (fun i => pd i phi (axpy t X V) * nth i W 0))).
  { intros s. unfold gradient. rewrite dotR_map_seq by auto. reflexivity. }
  unfold hess_vec. rewrite dotR_map_seq by auto.
  assert (G : forall k, (k <= n)%nat -> is_derive (fun t => lsum k (fun i => pd i phi (axpy t X V) * nth i W 0)) t
    (lsum k (fun i => hv_ n phi (axpy t X V) V i * nth i W 0))); [|apply G; lia].
  induction k as [|k IH]; intros Hk.
  - apply (is_derive_ext (fun _ => 0)); [reflexivity|]. change (lsum 0 _) with 0. apply is_derive_Reals. apply derivable_pt_lim_const.
  - apply (is_derive_ext (fun t => lsum k (fun i => pd i phi (axpy t X V) * nth i W 0) + pd k phi (axpy t X V) * nth k W 0)).
    { intros s. rewrite lsum_S. reflexivity. }
    rewrite lsum_S. apply (is_derive_plus (fun t => lsum k _)); [apply IH; lia|].
    pose proof (line_derive n (pd k phi) X V t (proj2 HC k ltac:(lia)) LX LV) as H.
    replace (hv_ n phi (axpy t X V) V k) with (dotR (gradient n (pd k phi) (axpy t X V)) V).
    + evar_last; [apply (is_derive_mult (fun t => pd k phi (axpy t X V)) (fun _ => nth k W 0)); [exact H|apply is_derive_const|intros; apply Rmult_comm]|].
      cbn. unfold plus, mult, zero; cbn. ring.
    + unfold gradient. rewrite dotR_map_seq by auto. unfold hv_, total. change (sumR (map ?g (seq 0 n))) with (lsum n g).
      apply lsum_ext. intros j Hj. f_equal. apply (schwarz_n n (whole n)); auto using whole_open; try lia. unfold whole. rewrite axpy_length; congruence.
Qed.
(** ** error of the difference quotient *)
Lemma dotR_sub_l a b W : length a = length b -> length b = length W -> dotR (map2 Rminus a b) W = dotR a W - dotR b W.
Proof.
  revert b W. induction a as [|x a IH]; intros [|y b] [|w W] L1 L2; try discriminate; unfold dotR; cbn [map2 sumR fold_right]; [ring|].
  change (fold_right Rplus 0 (map2 Rmult ?u ?v)) with (dotR u v). rewrite IH by (injection L1; injection L2; auto). ring.
Qed.
Lemma diff_vec_length n h phi X V : length (diff_vec n h phi X V) = n.
Proof. unfold diff_vec. rewrite map_length, seq_length. reflexivity. Qed.
Lemma map2_length {A B C} (f : A -> B -> C) l m : length l = length m -> length (map2 f l m) = length l.
Proof. revert m. induction l as [|a l IH]; intros [|b m] L; try discriminate; [reflexivity|]. cbn [map2 length]. f_equal. apply IH. injection L; auto. Qed.
Lemma norm_move t X V : length X = length V -> normR (map2 Rminus (axpy t X V) X) = Rabs t * normR V.
Proof.
  intros L. rewrite <- normR_scal. f_equal. revert V L. unfold axpy. induction X as [|x X IH]; intros [|v V] L; try discriminate; [reflexivity|].
  cbn [map2 map]. f_equal; [ring|]. apply IH. injection L; auto.
Qed.
Lemma fd_error_lemma n h phi M X V : h <> 0 -> C2 n (whole n) phi -> hessian_lipschitz n phi M -> length X = n -> length V = n ->
  normR (map2 Rminus (diff_vec n h phi X V) (hess_vec n phi X V)) <= M * Rabs h / 2 * (normR V * normR V).
Proof.
  intros Hh HC HM LX LV. set (W := map2 Rminus (diff_vec n h phi X V) (hess_vec n phi X V)).
  assert (LW : length W = n) by (unfold W; rewrite map2_length; rewrite diff_vec_length, ?hess_vec_length; auto).
  set (f := fun t => dotR (gradient n phi (axpy t X V)) W - t * dotR (hess_vec n phi X V) W).
  assert (HD : forall t, is_derive f t (dotR (hess_vec n phi (axpy t X V) V) W - dotR (hess_vec n phi X V) W)).
  { intros t. apply (is_derive_minus (fun t => dotR (gradient n phi (axpy t X V)) W) (fun t => t * dotR (hess_vec n phi X V) W)).
    - exact (gradient_line n phi X V W t HC LX LV LW).
    - auto_derive; [exact I|ring]. }
  assert (HK : forall t, Rabs (dotR (hess_vec n phi (axpy t X V) V) W - dotR (hess_vec n phi X V) W) <= (M * (normR V * normR V) * normR W) * Rabs t).
  { intros t. rewrite <- dotR_sub_l by (rewrite ?hess_vec_length; auto).
    eapply Rle_trans; [apply cauchy_schwarz_norm; rewrite map2_length; rewrite !hess_vec_length; auto|].
    pose proof (HM X (axpy t X V) V LX ltac:(rewrite axpy_length; congruence) LV) as B. rewrite norm_move in B by congruence.
    pose proof (normR_nonneg W). nra. }
  pose proof (square_bound f _ _ h HD HK) as B.
  assert (E : f h - f 0 = h * (normR W * normR W)).
  { unfold f. rewrite axpy_0 by congruence. rewrite normR_sq, <- dotR_self. 
    assert (EW : dotR W W = dotR (diff_vec n h phi X V) W - dotR (hess_vec n phi X V) W).
    { unfold W at 1. apply dotR_sub_l; rewrite ?diff_vec_length, ?hess_vec_length; auto. }
    rewrite EW.
    assert (ED : h * dotR (diff_vec n h phi X V) W = dotR (gradient n phi (axpy h X V)) W - dotR (gradient n phi X) W).
    { unfold diff_vec, gradient. rewrite !dotR_map_seq by auto. rewrite <- lsum_minus.
      rewrite <- (lsum_scal n h). apply lsum_ext. intros i _. field. exact Hh. }
    lra. }
  rewrite E in B. rewrite Rabs_mult, (Rabs_pos_eq (normR W * normR W)) in B by (apply Rmult_le_pos; apply normR_nonneg).
  fold W. pose proof (normR_nonneg W) as PW. pose proof (Rabs_pos_lt h Hh). replace (h ^ 2) with (Rabs h * Rabs h) in B by (rewrite <- Rabs_mult; rewrite Rabs_pos_eq; [ring|apply Rle_0_sqr]).
  destruct (Req_dec (normR W) 0) as [Z|Z].
  - rewrite Z. pose proof (HM X (axpy 1 X V) V LX ltac:(rewrite axpy_length; congruence) LV) as B1. rewrite norm_move, Rabs_R1 in B1 by congruence.
    pose proof (normR_nonneg (map2 Rminus (hess_vec n phi (axpy 1 X V) V) (hess_vec n phi X V))) as B2.
    assert (B3 : 0 <= M * (normR V * normR V)) by lra. assert (0 <= M * (normR V * normR V) * Rabs h) by (apply Rmult_le_pos; lra). lra.
  - apply (Rmult_le_reg_l (Rabs h * normR W)); [apply Rmult_lt_0_compat; lra|]. eapply Rle_trans; [|eapply Rle_trans; [exact B|]]; right; ring || field.
Qed.
