(** Facts about vectors as lists (S_RFun.vadd, vsub, vscal, dotR, normR). *)
From Coquelicot Require Import Coquelicot.
From Verif Require Import Base BaseFacts M_RFun S_RFun.

Lemma nth_map2 {A B C} (f : A -> B -> C) l m i da db dc :
  (i < length l)%nat -> (i < length m)%nat ->
  nth i (map2 f l m) dc = f (nth i l da) (nth i m db).
Proof.
  revert m i; induction l as [|a l IH]; intros [|b m] [|i] Hl Hm; simpl in *; try lia; auto.
  apply IH; lia.
Qed.

Lemma map_map2 {A B C D} (g : C -> D) (f : A -> B -> C) l m :
  map g (map2 f l m) = map2 (fun a b => g (f a b)) l m.
Proof. revert m; induction l as [|a l IH]; intros [|b m]; simpl; auto. f_equal; auto. Qed.
Lemma map2_map_l {A A' B C} (g : A -> A') (f : A' -> B -> C) l m :
  map2 f (map g l) m = map2 (fun a b => f (g a) b) l m.
Proof. revert m; induction l as [|a l IH]; intros [|b m]; simpl; auto. f_equal; auto. Qed.
Lemma map2_map_r {A B B' C} (g : B -> B') (f : A -> B' -> C) l m :
  map2 f l (map g m) = map2 (fun a b => f a (g b)) l m.
Proof. revert m; induction l as [|a l IH]; intros [|b m]; simpl; auto. f_equal; auto. Qed.
Lemma map2_ext {A B C} (f g : A -> B -> C) l m : (forall a b, f a b = g a b) -> map2 f l m = map2 g l m.
Proof. intros H. revert m; induction l as [|a l IH]; intros [|b m]; simpl; auto. f_equal; auto. Qed.
Lemma map2_fst {A B} (l : list A) (m : list B) : length l = length m -> map2 (fun a _ => a) l m = l.
Proof. revert m; induction l as [|a l IH]; intros [|b m] H; simpl in *; auto; try lia. f_equal; auto. Qed.
Lemma map2_repeat_r {A B C} (f : A -> B -> C) l b : map2 f l (repeat b (length l)) = map (fun a => f a b) l.
Proof. induction l; simpl; f_equal; auto. Qed.
Lemma map2_repeat_l {A B C} (f : A -> B -> C) l a : map2 f (repeat a (length l)) l = map (f a) l.
Proof. induction l; simpl; f_equal; auto. Qed.

Lemma vadd_length u v : length u = length v -> length (vadd u v) = length u.
Proof. apply map2_length_eq. Qed.
Lemma vsub_length u v : length u = length v -> length (vsub u v) = length u.
Proof. apply map2_length_eq. Qed.
Lemma vscal_length c u : length (vscal c u) = length u.
Proof. apply map_length. Qed.

Ltac vlen := repeat first [rewrite vadd_length | rewrite vsub_length | rewrite vscal_length]; try congruence; auto.

Lemma dotR_vadd u v w : length u = length v -> dotR (vadd u v) w = dotR u w + dotR v w.
Proof.
  unfold vadd. revert v w; induction u as [|a u IH]; intros [|b v] [|c w] H; simpl in *; try lia;
    try (unfold dotR; simpl; unfold sumR; simpl; ring).
  rewrite !dotR_cons, IH by lia. ring.
Qed.
Lemma dotR_vsub u v w : length u = length v -> dotR (vsub u v) w = dotR u w - dotR v w.
Proof.
  unfold vsub. revert v w; induction u as [|a u IH]; intros [|b v] [|c w] H; simpl in *; try lia;
    try (unfold dotR; simpl; unfold sumR; simpl; ring).
  rewrite !dotR_cons, IH by lia. ring.
Qed.
Lemma dotR_vscal c u w : dotR (vscal c u) w = c * dotR u w.
Proof.
  unfold vscal. revert w; induction u as [|a u IH]; intros [|b w]; simpl;
    try (unfold dotR; simpl; unfold sumR; simpl; ring).
  rewrite !dotR_cons, IH. ring.
Qed.
Lemma dotR_vadd_r u v w : length u = length v -> dotR w (vadd u v) = dotR w u + dotR w v.
Proof. intros. rewrite dotR_comm, dotR_vadd by auto. rewrite (dotR_comm u), (dotR_comm v). ring. Qed.
Lemma dotR_vsub_r u v w : length u = length v -> dotR w (vsub u v) = dotR w u - dotR w v.
Proof. intros. rewrite dotR_comm, dotR_vsub by auto. rewrite (dotR_comm u), (dotR_comm v). ring. Qed.
Lemma dotR_vscal_r c u w : dotR w (vscal c u) = c * dotR w u.
Proof. rewrite dotR_comm, dotR_vscal, (dotR_comm u). ring. Qed.
Lemma dotR_nonneg u : 0 <= dotR u u.
Proof. rewrite dotR_self. apply sumsq_nonneg. Qed.

(** Vector identities by componentwise ring reasoning. *)
Lemma vec_ext u v : length u = length v -> (forall i, (i < length u)%nat -> nth i u 0 = nth i v 0) -> u = v.
Proof. apply list_eq_nth. Qed.
Lemma nth_vadd u v i : length u = length v -> nth i (vadd u v) 0 = nth i u 0 + nth i v 0.
Proof.
  intros H. destruct (Nat.lt_ge_cases i (length u)).
  - unfold vadd. apply nth_map2; lia.
  - rewrite !nth_overflow; [ring| | |]; try lia. rewrite vadd_length; lia.
Qed.
Lemma nth_vsub u v i : length u = length v -> nth i (vsub u v) 0 = nth i u 0 - nth i v 0.
Proof.
  intros H. destruct (Nat.lt_ge_cases i (length u)).
  - unfold vsub. apply nth_map2; lia.
  - rewrite !nth_overflow; [ring| | |]; try lia. rewrite vsub_length; lia.
Qed.
Lemma nth_vscal c u i : nth i (vscal c u) 0 = c * nth i u 0.
Proof.
  destruct (Nat.lt_ge_cases i (length u)).
  - unfold vscal. rewrite nth_indep with (d' := c * 0); [|rewrite map_length; auto].
    apply (map_nth (fun x => c * x)).
  - rewrite !nth_overflow; [ring| |]; try lia. rewrite vscal_length; lia.
Qed.
Ltac vnth := repeat first [rewrite nth_vadd by vlen | rewrite nth_vsub by vlen | rewrite nth_vscal].
Ltac vec := apply vec_ext; [vlen | intros; vnth; try ring].

Lemma vsub_vadd u v : length u = length v -> vsub (vadd u v) v = u.
Proof. intros; vec. Qed.
Lemma vadd_vsub u v : length u = length v -> vadd (vsub u v) v = u.
Proof. intros; vec. Qed.

Lemma sumsq_vadd u v : length u = length v -> sumsq (vadd u v) = sumsq u + 2 * dotR u v + sumsq v.
Proof.
  intros H. rewrite <- !dotR_self. rewrite dotR_vadd, !dotR_vadd_r by auto. rewrite (dotR_comm v u). ring.
Qed.
Lemma sumsq_vsub u v : length u = length v -> sumsq (vsub u v) = sumsq u - 2 * dotR u v + sumsq v.
Proof.
  intros H. rewrite <- !dotR_self. rewrite dotR_vsub, !dotR_vsub_r by auto. rewrite (dotR_comm v u). ring.
Qed.
Lemma sumsq_vscal c u : sumsq (vscal c u) = c * c * sumsq u.
Proof. apply sumsq_scal. Qed.

(** Cauchy-Schwarz and the triangle inequality *)
Lemma cauchy_schwarz u v : length u = length v -> dotR u v * dotR u v <= sumsq u * sumsq v.
Proof.
  intros H.
  assert (P : 0 <= sumsq (vsub (vscal (sumsq v) u) (vscal (dotR u v) v))) by apply sumsq_nonneg.
  rewrite sumsq_vsub in P by vlen. rewrite !sumsq_vscal, dotR_vscal, dotR_vscal_r in P.
  pose proof (sumsq_nonneg u) as Pu. pose proof (sumsq_nonneg v) as Pv.
  destruct (Rle_lt_or_eq_dec _ _ Pv) as [L|L].
  - apply Rmult_le_reg_l with (sumsq v); auto. nra.
  - assert (Z : Forall (fun x => x = 0) v) by (apply sumsq_0; auto).
    assert (D : dotR u v = 0).
    { clear - Z. revert u. induction Z as [|b v Hb Z IH]; intros [|a u]; try reflexivity.
      rewrite dotR_cons, IH, Hb. ring. }
    rewrite D, <- L. lra.
Qed.
Lemma cauchy_schwarz_norm u v : length u = length v -> Rabs (dotR u v) <= normR u * normR v.
Proof.
  intros H. apply Rsqr_incr_0_var; [|apply Rmult_le_pos; apply normR_nonneg].
  rewrite <- Rsqr_abs. unfold Rsqr. replace (normR u * normR v * (normR u * normR v)) with
    ((normR u * normR u) * (normR v * normR v)) by ring. rewrite !normR_sq. apply cauchy_schwarz; auto.
Qed.
Lemma normR_triangle u v : length u = length v -> normR (vadd u v) <= normR u + normR v.
Proof.
  intros H. pose proof (normR_nonneg u). pose proof (normR_nonneg v).
  apply Rsqr_incr_0_var; [|lra]. unfold Rsqr. rewrite normR_sq, sumsq_vadd by auto.
  rewrite <- !normR_sq. pose proof (cauchy_schwarz_norm u v H). pose proof (Rle_abs (dotR u v)). nra.
Qed.
