(** Proofs about solids, part 3: programs are continuous. *)
From Coquelicot Require Import Coquelicot.
From Verif Require Import Base BaseFacts M_Quat S_Quat P_Quat M_RFun S_RFun P_RFun1 P_Vec P_RFun2 M_Solid S_Solid
  P_Solid1 P_Solid2.

(** *** Distances *)
Lemma edist_nonneg y x : 0 <= edist y x.
Proof. apply normR_nonneg. Qed.
Lemma edist_sq y x : edist y x * edist y x = sumsq (vsub y x).
Proof. apply normR_sq. Qed.
Lemma norm_scaled u v K : 0 <= K -> sumsq u <= K * K * sumsq v -> normR u <= K * normR v.
Proof.
  intros HK H. pose proof (normR_nonneg u). pose proof (normR_nonneg v).
  apply Rsqr_incr_0_var; [|nra]. unfold Rsqr.
  replace (K * normR v * (K * normR v)) with (K * K * (normR v * normR v)) by ring. rewrite !normR_sq. auto.
Qed.
Lemma sumsq_nth u i : nth i u 0 * nth i u 0 <= sumsq u.
Proof.
  revert i. induction u as [|a u IH]; intros i.
  - destruct i; simpl; unfold sumsq, sumR; simpl; lra.
  - rewrite sumsq_cons. pose proof (sumsq_nonneg u). pose proof (Rle_0_sqr a) as S. unfold Rsqr in S.
    destruct i; simpl; [lra|]. pose proof (IH i). lra.
Qed.
Lemma nth_norm u i : Rabs (nth i u 0) <= normR u.
Proof.
  apply Rsqr_incr_0_var; [|apply normR_nonneg]. rewrite <- Rsqr_abs. unfold Rsqr. rewrite normR_sq. apply sumsq_nth.
Qed.
Lemma nth_close y x i : length y = length x -> Rabs (nth i y 0 - nth i x 0) <= edist y x.
Proof. intros H. rewrite <- nth_vsub by auto. apply nth_norm. Qed.
Lemma vsub_self x : sumsq (vsub x x) = 0.
Proof.
  apply sumsq_0. rewrite Forall_nth_iff. intros i Hi. rewrite nth_vsub by auto. ring.
Qed.
Lemma edist_self x : edist x x = 0.
Proof. unfold edist. rewrite normR_sumsq, vsub_self. apply sqrt_0. Qed.

Lemma sq_nonneg a : 0 <= a * a.
Proof. apply Rle_0_sqr. Qed.

(** *** The point maps are Lipschitz continuous *)
Lemma quot_bound a : Forall (fun e => e <> 0) a -> exists K, 0 < K /\
  forall v, length v = length a -> sumsq (quot v a) <= K * K * sumsq v.
Proof.
  induction 1 as [|e a He Ha (K & HK & B)].
  - exists 1. split; [lra|]. intros [|? ?] H; simpl in *; try lia. unfold sumsq, sumR; simpl; lra.
  - exists (K + Rabs (/ e)). pose proof (Rabs_pos (/ e)) as Pe. split; [lra|].
    intros [|b v] H; simpl in H; [lia|]. change (quot (b :: v) (e :: a)) with (b / e :: quot v a).
    rewrite !sumsq_cons. specialize (B v ltac:(lia)). pose proof (sumsq_nonneg v).
    assert (E : b / e * (b / e) = Rabs (/ e) * Rabs (/ e) * (b * b)).
    { rewrite <- Rabs_mult, Rabs_right by (apply Rle_ge, Rle_0_sqr). unfold Rdiv. ring. }
    rewrite E. pose proof (sq_nonneg b). pose proof (sq_nonneg K). pose proof (sq_nonneg (Rabs (/ e))).
    assert (0 <= K * Rabs (/ e)) by nra.
    replace ((K + Rabs (/ e)) * (K + Rabs (/ e))) with (K * K + 2 * (K * Rabs (/ e)) + Rabs (/ e) * Rabs (/ e)) by ring.
    nra.
Qed.
Lemma vsub_quot y x a : length y = length a -> length x = length a ->
  vsub (quot y a) (quot x a) = quot (vsub y x) a.
Proof.
  revert y x. induction a as [|e a IH]; intros [|b y] [|c x] H H'; simpl in *; try lia; auto.
  unfold vsub, quot in *. simpl. rewrite IH by lia. f_equal. unfold Rdiv. ring.
Qed.
Lemma vsub_vscal k y x : length y = length x -> vsub (vscal k y) (vscal k x) = vscal k (vsub y x).
Proof.
  intros H. apply vec_ext; [rewrite vsub_length, !vscal_length, vsub_length; rewrite ?vscal_length; auto|].
  intros i Hi. rewrite nth_vsub by (rewrite !vscal_length; auto). rewrite !nth_vscal, nth_vsub by auto. ring.
Qed.
Lemma vsub_shift y x t : length y = length t -> length x = length t ->
  vsub (vsub y t) (vsub x t) = vsub y x.
Proof.
  intros H H'. apply vec_ext; [rewrite !vsub_length; rewrite ?vsub_length; congruence|].
  intros i Hi. rewrite !nth_vsub by (rewrite ?vsub_length; congruence). ring.
Qed.

Definition three (x : list R) : vec3 := mk3 (nth 0 x 0) (nth 1 x 0) (nth 2 x 0).
Lemma list3_three x : length x = 3%nat -> list3 (three x) = x.
Proof. intros H. symmetry. apply (len3 x H). Qed.
Lemma sumsq_list3 u v : sumsq (vsub (list3 u) (list3 v)) = dot3 (vsub3 u v) (vsub3 u v).
Proof. unfold sumsq, sumR, vsub, dot3, vsub3. simpl. ring. Qed.
Lemma dot_list3 u v w : dotR (list3 w) (vsub (list3 u) (list3 v)) = dot3 w (vsub3 u v).
Proof. unfold dotR, sumR, vsub, dot3, vsub3. simpl. ring. Qed.

Definition turn (m : move) (x : vec3) : vec3 :=
  match m with
  | Rotate3 t n _ => rodrigues t n x
  | Euler a b c _ => rot_x a (rot_y b (rot_z c x))
  | _ => x
  end.
Definition unturn (m : move) (x : vec3) : vec3 :=
  match m with
  | Rotate3 t n _ => rodrigues (- t) n x
  | Euler a b c _ => rot_z (- c) (rot_y (- b) (rot_x (- a) x))
  | _ => x
  end.
Lemma turn_sub m x y : vsub3 (turn m x) (turn m y) = turn m (vsub3 x y).
Proof.
  destruct m; try reflexivity; unfold turn, rodrigues, rot_x, rot_y, rot_z, vadd3, vsub3, vscal3, cross3, dot3; simpl;
    f_equal; ring.
Qed.
Lemma turn_adjoint m g x : dot3 g (turn m x) = dot3 (unturn m g) x.
Proof.
  destruct m; try reflexivity; unfold turn, unturn, rodrigues, rot_x, rot_y, rot_z, vadd3, vsub3, vscal3, cross3, dot3; simpl;
    rewrite ?cos_neg, ?sin_neg; ring.
Qed.
Lemma rodrigues_norm t n x : is_unit n -> dot3 (rodrigues t n x) (rodrigues t n x) = dot3 x x.
Proof.
  intros U. unfold is_unit in U.
  assert (A : dot3 (rodrigues t n x) (rodrigues t n x) = dot3 (rodrigues (- t) n (rodrigues t n x)) x).
  { exact (turn_adjoint (Rotate3 t n (mk3 0 0 0)) (rodrigues t n x) x). }
  rewrite A. rewrite <- (Ropp_involutive t) at 2. rewrite rodrigues_inverse by auto. reflexivity.
Qed.
Lemma rot_norms t x : dot3 (rot_x t x) (rot_x t x) = dot3 x x /\ dot3 (rot_y t x) (rot_y t x) = dot3 x x /\
  dot3 (rot_z t x) (rot_z t x) = dot3 x x.
Proof.
  pose proof (sin2_cos2 t) as S. unfold Rsqr in S. unfold rot_x, rot_y, rot_z, dot3. simpl.
  assert (C : cos t * cos t = 1 - sin t * sin t) by lra.
  split; [|split]; ring_simplify; replace (cos t ^ 2) with (1 - sin t * sin t) by (rewrite <- C; ring); ring.
Qed.
Lemma turn_norm n m x : good_move n m -> dot3 (turn m x) (turn m x) = dot3 x x /\
  dot3 (unturn m x) (unturn m x) = dot3 x x.
Proof.
  intros G. destruct m; auto; simpl in *.
  - destruct G as [_ U]. split; apply rodrigues_norm; auto.
  - split.
    + rewrite (proj1 (rot_norms a _)), (proj1 (proj2 (rot_norms b _))), (proj2 (proj2 (rot_norms c _))). reflexivity.
    + rewrite (proj2 (proj2 (rot_norms (- c) _))), (proj1 (proj2 (rot_norms (- b) _))), (proj1 (rot_norms (- a) _)).
      reflexivity.
Qed.
Lemma back_turn m x : match m with Rotate3 _ _ o | Euler _ _ _ o =>
  back m x = list3 (vadd3 o (turn m (vsub3 (three x) o))) | _ => True end.
Proof. destruct m; auto. Qed.
Lemma shift3 o u v : vsub3 (vadd3 o u) (vadd3 o v) = vsub3 u v.
Proof. unfold vsub3, vadd3; simpl; f_equal; ring. Qed.
Lemma unshift3 o u v : vsub3 (vsub3 u o) (vsub3 v o) = vsub3 u v.
Proof. unfold vsub3; simpl; f_equal; ring. Qed.

(** distance of two points from an axis *)
Lemma axis_lipschitz a b c d : (sqrt (a ^ 2 + b ^ 2) - sqrt (c ^ 2 + d ^ 2)) * (sqrt (a ^ 2 + b ^ 2) - sqrt (c ^ 2 + d ^ 2))
  <= (a - c) * (a - c) + (b - d) * (b - d).
Proof.
  assert (P : forall u v, 0 <= u ^ 2 + v ^ 2) by (intros u v; pose proof (pow2_ge_0 u); pose proof (pow2_ge_0 v); lra).
  pose proof (sqrt_pos (a ^ 2 + b ^ 2)) as P1. pose proof (sqrt_pos (c ^ 2 + d ^ 2)) as P2.
  pose proof (sqrt_sqrt _ (P a b)) as Q1. pose proof (sqrt_sqrt _ (P c d)) as Q2.
  set (r := sqrt (a ^ 2 + b ^ 2)) in *. set (q := sqrt (c ^ 2 + d ^ 2)) in *.
  assert (a * c + b * d <= r * q); [|nra].
  destruct (Rle_lt_dec (a * c + b * d) 0) as [L|L]; [nra|].
  apply Rsqr_incr_0_var; [|nra]. unfold Rsqr. replace (r * q * (r * q)) with ((r * r) * (q * q)) by ring. rewrite Q1, Q2.
  pose proof (sq_nonneg (a * d - b * c)). nra.
Qed.

Lemma back_lipschitz n m : good_move n m -> exists K, 0 < K /\ forall x y, length x = n -> length y = n ->
  edist (back m y) (back m x) <= K * edist y x.
Proof.
  intros G.
  assert (One : (forall x y, length x = n -> length y = n -> sumsq (vsub (back m y) (back m x)) <= sumsq (vsub y x)) ->
    exists K, 0 < K /\ forall x y, length x = n -> length y = n -> edist (back m y) (back m x) <= K * edist y x).
  { intros H. exists 1. split; [lra|]. intros x y Hx Hy. apply norm_scaled; [lra|]. specialize (H x y Hx Hy). lra. }
  pose proof (turn_norm n m) as TN. destruct m; simpl in G.
  - apply One. intros x z Hx Hy. simpl. rewrite vsub_shift by congruence. lra.
  - exists (/ k). assert (0 < / k) by (apply Rinv_0_lt_compat; auto). split; auto. intros x y Hx Hy.
    apply norm_scaled; [lra|]. simpl. rewrite vsub_vscal, sumsq_vscal by congruence. lra.
  - destruct G as [G1 G2]. destruct (quot_bound axes G2) as (K & HK & B). exists K. split; auto. intros x y Hx Hy.
    apply norm_scaled; [lra|]. simpl. rewrite vsub_quot by congruence. apply B. rewrite vsub_length; congruence.
  - apply One. intros x y Hx Hy. subst n. rewrite (len2 x Hx), (len2 y Hy). simpl. unfold sumsq, sumR, vsub, ccw. simpl.
    pose proof (sin2_cos2 (- angle)) as S. unfold Rsqr in S.
    set (c := cos (- angle)) in *. set (s := sin (- angle)) in *.
    set (u := nth 0 y 0 - nth 0 x 0). set (v := nth 1 y 0 - nth 1 x 0).
    right. transitivity ((s * s + c * c) * (u * u + v * v)); [unfold u, v; ring|]. rewrite S. ring.
  - apply One. intros x y Hx Hy. destruct G as [-> U]. rewrite !(back_turn (Rotate3 angle n0 o)).
    rewrite sumsq_list3, shift3, turn_sub, unshift3.
    rewrite (proj1 (TN _ (conj eq_refl U))). rewrite <- sumsq_list3, !list3_three by auto. lra.
  - apply One. intros x y Hx Hy. subst n. rewrite !(back_turn (Euler a b c o)).
    rewrite sumsq_list3, shift3, turn_sub, unshift3.
    rewrite (proj1 (TN _ eq_refl)). rewrite <- sumsq_list3, !list3_three by auto. lra.
  - apply One. intros x y Hx Hy. destruct G as (G1 & G2 & G3). simpl. rewrite mirror_isometry by congruence. lra.
  - apply One. intros x y Hx Hy. destruct G as (G1 & G2 & G3). simpl.
    assert (E : vsub (foot n0 o y) (foot n0 o x) = vsub (vsub y x) (vscal (dotR (vsub y x) n0 / dotR n0 n0) n0)).
    { unfold foot. apply vec_ext.
      - repeat (rewrite vsub_length; rewrite ?vscal_length; try congruence).
      - intros i Hi. repeat (rewrite nth_vsub; [|rewrite ?vsub_length; rewrite ?vscal_length; congruence]).
        rewrite !nth_vscal. rewrite !(dotR_vsub _ _ n0) by congruence. field. auto. }
    rewrite E, sumsq_vsub by (rewrite vscal_length, vsub_length; congruence).
    rewrite sumsq_vscal, dotR_vscal_r, <- (dotR_self n0).
    pose proof (dotR_nonneg n0). assert (0 < dotR n0 n0) by lra. set (w := dotR (vsub y x) n0).
    assert (w / dotR n0 n0 * (w / dotR n0 n0) * dotR n0 n0 = w / dotR n0 n0 * w) by (field; auto).
    assert (0 <= w / dotR n0 n0 * w).
    { replace (w / dotR n0 n0 * w) with (w * w * / dotR n0 n0) by (field; auto).
      apply Rmult_le_pos; [apply sq_nonneg|]. left. apply Rinv_0_lt_compat. auto. }
    lra.
  - apply One. intros x y Hx Hy. subst n. rewrite (len3 x Hx) at 2. rewrite (len3 y Hy) at 2.
    destruct around_y; simpl; unfold sumsq, sumR, vsub; simpl.
    + pose proof (axis_lipschitz (nth 0 y 0) (nth 2 y 0) (nth 0 x 0) (nth 2 x 0)). simpl in *. lra.
    + pose proof (axis_lipschitz (nth 1 y 0) (nth 2 y 0) (nth 1 x 0) (nth 2 x 0)). simpl in *. lra.
Qed.

(** *** Continuity of the constructions *)
Lemma cont_ext f g x v : (exists d, 0 < d /\ forall y, length y = length x -> edist y x < d -> g (A1 y) = f (A1 y)) ->
  continuous_adf f x v -> continuous_adf g x v.
Proof.
  intros (d0 & H0 & E) [V C]. split.
  - rewrite E; auto. rewrite edist_self. auto.
  - intros e He. destruct (C e He) as (d & Hd & H). exists (Rmin d d0). split; [apply Rmin_pos; auto|].
    intros y Hy L. rewrite E; auto; [|eapply Rlt_le_trans; [exact L|apply Rmin_r]].
    apply H; auto. eapply Rlt_le_trans; [exact L|apply Rmin_l].
Qed.
Lemma cont_ext_all f g x v : (forall y, length y = length x -> g (A1 y) = f (A1 y)) ->
  continuous_adf f x v -> continuous_adf g x v.
Proof. intros E. apply cont_ext. exists 1. split; [lra|]. auto. Qed.

Lemma cont_pointwise op f g x a b c : continuous2 op -> continuous_adf f x a -> continuous_adf g x b ->
  op a b = Ok c -> continuous_adf (pointwise op f g) x c.
Proof.
  intros C2 [Vf Cf] [Vg Cg] E. split.
  - unfold pointwise. rewrite Vf. cbn [bind]. rewrite Vg. cbn [bind]. auto.
  - intros e He. destruct (C2 a b) as (c0 & E0 & C). assert (c0 = c) by congruence. subst c0.
    destruct (C e He) as (d & Hd & H). destruct (Cf d Hd) as (d1 & H1 & F). destruct (Cg d Hd) as (d2 & H2 & G).
    exists (Rmin d1 d2). split; [apply Rmin_pos; auto|]. intros y Hy L.
    destruct (F y Hy) as (u & Eu & Lu); [eapply Rlt_le_trans; [exact L|apply Rmin_l]|].
    destruct (G y Hy) as (w & Ew & Lw); [eapply Rlt_le_trans; [exact L|apply Rmin_r]|].
    unfold pointwise. rewrite Eu. cbn [bind]. rewrite Ew. cbn [bind]. apply H; auto.
Qed.

Lemma cont_negate f x v : continuous_adf f x v -> continuous_adf (negate f) x (- v).
Proof.
  intros [V C]. split; [unfold negate; rewrite V; reflexivity|]. intros e He. destruct (C e He) as (d & Hd & H).
  exists d. split; auto. intros y Hy L. destruct (H y Hy L) as (w & Ew & Lw). unfold negate. rewrite Ew.
  exists (- w). split; auto. replace (- w - - v) with (- (w - v)) by ring. rewrite Rabs_Ropp. auto.
Qed.

Lemma cont_move n m f g x v : good_move n m -> length x = n ->
  (forall y, length y = n -> g (A1 y) = bind (f (A1 (back m y))) (fun w => Ok (factor m * w))) ->
  continuous_adf f (back m x) v -> continuous_adf g x (factor m * v).
Proof.
  intros G Hx E [V C]. split; [rewrite E, V by auto; reflexivity|]. intros e He.
  assert (F : 0 < factor m) by (destruct m; simpl in *; lra).
  destruct (C (e / factor m)) as (d & Hd & H); [apply Rdiv_lt_0_compat; auto|].
  destruct (back_lipschitz n m G) as (K & HK & L).
  exists (d / K). split; [apply Rdiv_lt_0_compat; auto|]. intros y Hy D.
  assert (Hy' : length y = n) by congruence.
  destruct (H (back m y)) as (w & Ew & Lw).
  - rewrite !(back_length n) by auto. reflexivity.
  - eapply Rle_lt_trans; [apply L; auto|]. apply Rmult_lt_reg_r with (/ K); [apply Rinv_0_lt_compat; auto|].
    replace (K * edist y x * / K) with (edist y x) by (field; lra). exact D.
  - rewrite E, Ew by auto. cbn [bind]. eexists. split; [reflexivity|].
    replace (factor m * w - factor m * v) with (factor m * (w - v)) by ring.
    rewrite Rabs_mult, (Rabs_right (factor m)) by lra.
    replace e with (factor m * (e / factor m)) by (field; lra). apply Rmult_lt_compat_l; auto.
Qed.

(** compose as a fold of ADFs *)
Definition fold_adf (op : R -> R -> res R) (f : adf) (fs : list adf) : adf := fold_left (pointwise op) fs f.
Definition defined_at (x : arr) (f : adf) : Prop := exists v, f x = Ok v.

Lemma fold_adf_value op f fs x vs : Forall2 (fun f v => f x = Ok v) fs vs ->
  fold_adf op f fs x = fold_left (fun r w => bind r (fun a => op a w)) vs (f x).
Proof.
  unfold fold_adf. intros H. revert f. induction H as [|g v fs vs E H IH]; intros f; [reflexivity|].
  simpl. rewrite IH. f_equal. unfold pointwise. destruct (f x); simpl; auto. rewrite E. reflexivity.
Qed.
Lemma defined_values x fs : Forall (defined_at x) fs -> exists vs, Forall2 (fun f v => f x = Ok v) fs vs.
Proof.
  induction 1 as [|f fs (v & E) _ (vs & H)]; [exists []; constructor|]. exists (v :: vs). constructor; auto.
Qed.
Lemma compose_fold_adf op f fs x : Forall (defined_at x) (f :: fs) ->
  compose op (map scalar_adf (f :: fs)) x = fold_adf op f fs x.
Proof.
  intros H. apply Forall_cons_iff in H as [(v & E) H]. destruct (defined_values x fs H) as (vs & F).
  rewrite (compose_fold op _ x (map A0 (v :: vs)) v vs).
  - rewrite (fold_adf_value op f fs x vs F), E. reflexivity.
  - clear H. simpl. constructor; [unfold scalar_adf; rewrite E; reflexivity|].
    induction F as [|g w fs vs Eg F IH]; simpl; constructor; auto. unfold scalar_adf. rewrite Eg. reflexivity.
  - apply concat_scalars.
Qed.

Lemma near_defined x fs vs : Forall2 (fun f v => continuous_adf f x v) fs vs ->
  exists d, 0 < d /\ forall y, length y = length x -> edist y x < d -> Forall (defined_at (A1 y)) fs.
Proof.
  induction 1 as [|f v fs vs [V C] _ (d & Hd & H)]; [exists 1; split; [lra|auto]|].
  destruct (C 1 Rlt_0_1) as (d1 & H1 & F). exists (Rmin d1 d). split; [apply Rmin_pos; auto|].
  intros y Hy L. constructor.
  - destruct (F y Hy) as (w & Ew & _); [eapply Rlt_le_trans; [exact L|apply Rmin_l]|]. exists w. auto.
  - apply H; auto. eapply Rlt_le_trans; [exact L|apply Rmin_r].
Qed.

Lemma cont_fold op f fs x v vs c : continuous2 op -> continuous_adf f x v ->
  Forall2 (fun f v => continuous_adf f x v) fs vs -> fold_adf op f fs (A1 x) = Ok c ->
  continuous_adf (fold_adf op f fs) x c.
Proof.
  intros C2 Cf H. revert f v Cf. induction H as [|g w fs vs Cg H IH]; intros f v Cf E.
  - unfold fold_adf in *. simpl in *. destruct Cf as [V Cf]. assert (v = c) by congruence. subst. split; auto.
  - destruct (C2 v w) as (u & Eu & _).
    apply (IH (pointwise op f g) u); [eapply cont_pointwise; eauto|]. exact E.
Qed.

(** *** The primitives *)
Definition hi (k : nat) (u : R) : adf := fun x => match x with A1 l => Ok (u - nth k l 0) | A0 _ => Err IndexError end.
Definition lo (k : nat) (b : R) : adf := fun x => match x with A1 l => Ok (nth k l 0 - b) | A0 _ => Err IndexError end.
Fixpoint faces (k : nat) (lb ub : list R) : list adf :=
  match lb, ub with
  | b :: lb', u :: ub' => hi k u :: lo k b :: faces (S k) lb' ub'
  | _, _ => []
  end.

Lemma faces_values lb ub pre rest : length lb = length rest -> length ub = length rest ->
  exists L, interleave (vsub ub rest) (vsub rest lb) = Ok L /\
    Forall2 (fun f v => f (A1 (pre ++ rest)) = Ok v) (faces (length pre) lb ub) L.
Proof.
  revert lb ub pre. induction rest as [|r rest IH]; intros [|b lb] [|u ub] pre H H'; simpl in H, H'; try lia.
  - exists []. split; [reflexivity|constructor].
  - destruct (IH lb ub (pre ++ [r]) ltac:(lia) ltac:(lia)) as (L & E & F).
    exists (u - r :: r - b :: L). split.
    + unfold vsub in *. simpl. rewrite E. reflexivity.
    + rewrite <- app_assoc in F. simpl in F. rewrite app_length in F. simpl in F.
      replace (length pre + 1)%nat with (S (length pre)) in F by lia.
      assert (N : nth (length pre) (pre ++ r :: rest) 0 = r) by (rewrite app_nth2 by lia; rewrite Nat.sub_diag; reflexivity).
      simpl. constructor; [unfold hi; rewrite N; reflexivity|]. constructor; [unfold lo; rewrite N; reflexivity|]. exact F.
Qed.

Lemma fold_bind_ok {A} (op : A -> A -> res A) vs v :
  reduce_from op v vs = fold_left (fun r w => bind r (fun a => op a w)) vs (Ok v).
Proof. apply reduce_from_fold. Qed.

Lemma cuboid_faces e c s (x : list R) : length e = length x -> (1 <= length x)%nat ->
  exists f fs, faces 0 (lower e c) (upper e c) = f :: fs /\
    forall y, length y = length x -> cuboid (A1 e) c s (A1 y) = fold_adf (conj_ s) f fs (A1 y).
Proof.
  intros He Hx.
  assert (exists f fs, faces 0 (lower e c) (upper e c) = f :: fs) as (f & fs & E).
  { destruct e as [|l e]; [simpl in *; lia|]. simpl. eauto. }
  exists f, fs. split; auto. intros y Hy.
  assert (Ll : length (lower e c) = length y) by (unfold lower; rewrite map_length; congruence).
  assert (Lu : length (upper e c) = length y) by (unfold upper; rewrite map_length; congruence).
  destruct (faces_values (lower e c) (upper e c) [] y Ll Lu) as (L & EL & F). simpl in F. rewrite E in F.
  inversion F as [|? v ? vs Ev F']. subst.
  rewrite (fold_adf_value _ _ _ _ _ F'), Ev. rewrite <- fold_bind_ok.
  unfold cuboid, compose. cbn [map sequence].
  assert (B : (a <- bop Rminus (if c then amap (fun e0 => e0 / 2) (A1 e) else A1 e) (A1 y);;
      b <- bop Rminus (A1 y) (if c then amap (fun e0 => - e0 / 2) (A1 e) else amap (fun _ => 0) (A1 e));;
      s0 <- interleave (ravel a) (ravel b);; Ok (A1 s0)) = Ok (A1 (v :: vs))).
  { replace (if c then amap (fun e0 => e0 / 2) (A1 e) else A1 e) with (A1 (upper e c)).
    2: { destruct c; [reflexivity|]. rewrite upper_corner. reflexivity. }
    replace (if c then amap (fun e0 => - e0 / 2) (A1 e) else amap (fun _ => 0) (A1 e)) with (A1 (lower e c)).
    2: { destruct c; reflexivity. }
    rewrite !bop_vsub by congruence. cbn [bind ravel]. rewrite EL. reflexivity. }
  rewrite B. cbn [bind ravel concat app]. rewrite app_nil_r. reflexivity.
Qed.

Lemma cont_hi k u x : continuous_adf (hi k u) x (u - nth k x 0).
Proof.
  split; [reflexivity|]. intros e He. exists e. split; auto. intros y Hy L. exists (u - nth k y 0). split; auto.
  replace (u - nth k y 0 - (u - nth k x 0)) with (- (nth k y 0 - nth k x 0)) by ring. rewrite Rabs_Ropp.
  eapply Rle_lt_trans; [apply nth_close; auto|auto].
Qed.
Lemma cont_lo k b x : continuous_adf (lo k b) x (nth k x 0 - b).
Proof.
  split; [reflexivity|]. intros e He. exists e. split; auto. intros y Hy L. exists (nth k y 0 - b). split; auto.
  replace (nth k y 0 - b - (nth k x 0 - b)) with (nth k y 0 - nth k x 0) by ring.
  eapply Rle_lt_trans; [apply nth_close; auto|auto].
Qed.
Lemma cont_faces x lb ub k : exists vs, Forall2 (fun f v => continuous_adf f x v) (faces k lb ub) vs.
Proof.
  revert ub k. induction lb as [|b lb IH]; intros [|u ub] k; try (exists []; constructor).
  destruct (IH ub (S k)) as (vs & H). exists (u - nth k x 0 :: nth k x 0 - b :: vs).
  simpl. constructor; [apply cont_hi|]. constructor; [apply cont_lo|]. exact H.
Qed.

Lemma cont_cuboid e c s x v : continuous_system s -> length e = length x -> (1 <= length x)%nat ->
  cuboid (A1 e) c s (A1 x) = Ok v -> continuous_adf (cuboid (A1 e) c s) x v.
Proof.
  intros (SC & C2 & _) He Hx E. destruct (cuboid_faces e c s x He Hx) as (f & fs & Ef & V).
  destruct (cont_faces x (lower e c) (upper e c) 0) as (vs & F). rewrite Ef in F. inversion F as [|? w ? ws Cf F']. subst.
  eapply cont_ext_all; [exact V|]. eapply cont_fold; eauto. rewrite <- V; auto.
Qed.

(** quadratic functions *)
Lemma sumsq_change y x : length y = length x -> sumsq y = sumsq x + 2 * dotR x (vsub y x) + sumsq (vsub y x).
Proof.
  intros H. rewrite <- sumsq_vadd by (rewrite vsub_length; auto). f_equal. apply vec_ext.
  - rewrite vadd_length; rewrite ?vsub_length; auto.
  - intros i Hi. rewrite nth_vadd by (rewrite vsub_length; auto). rewrite nth_vsub by auto. ring.
Qed.
Lemma sumsq_near y x : length y = length x -> edist y x <= 1 ->
  Rabs (sumsq y - sumsq x) <= (2 * normR x + 1) * edist y x.
Proof.
  intros H L. rewrite (sumsq_change y x H).
  replace (sumsq x + 2 * dotR x (vsub y x) + sumsq (vsub y x) - sumsq x) with
    (2 * dotR x (vsub y x) + edist y x * edist y x) by (rewrite edist_sq; ring).
  pose proof (cauchy_schwarz_norm x (vsub y x) ltac:(rewrite vsub_length; auto)) as C. fold (edist y x) in C.
  pose proof (edist_nonneg y x). eapply Rle_trans; [apply Rabs_triang|].
  rewrite Rabs_mult, (Rabs_right 2), (Rabs_right (edist y x * edist y x)) by nra. nra.
Qed.

(** a Lipschitz map keeps a sum of squares continuous *)
Lemma sumsq_comp_near (T : list R -> list R) n K x e : length x = n -> 0 < K -> 0 < e ->
  (forall y, length y = n -> length (T y) = length (T x)) ->
  (forall y, length y = n -> edist (T y) (T x) <= K * edist y x) ->
  exists d, 0 < d /\ forall y, length y = n -> edist y x < d -> Rabs (sumsq (T y) - sumsq (T x)) < e.
Proof.
  intros Hx HK He HL HT. pose proof (normR_nonneg (T x)) as P.
  set (M := 2 * normR (T x) + 1). assert (HM : 0 < M) by (unfold M; lra).
  exists (Rmin (/ K) (e / (M * K))). split.
  { apply Rmin_pos; [apply Rinv_0_lt_compat; auto|]. apply Rdiv_lt_0_compat; nra. }
  intros y Hy L.
  assert (L1 : edist y x < / K) by (eapply Rlt_le_trans; [exact L|apply Rmin_l]).
  assert (L2 : edist y x < e / (M * K)) by (eapply Rlt_le_trans; [exact L|apply Rmin_r]).
  specialize (HT y Hy).
  assert (K * edist y x < 1).
  { apply Rmult_lt_reg_l with (/ K); [apply Rinv_0_lt_compat; auto|]. rewrite <- Rmult_assoc, Rinv_l by lra. lra. }
  eapply Rle_lt_trans; [apply sumsq_near; auto; lra|]. fold M.
  apply Rle_lt_trans with (M * (K * edist y x)); [apply Rmult_le_compat_l; lra|].
  replace e with (M * K * (e / (M * K))) by (field; split; lra). rewrite <- Rmult_assoc.
  apply Rmult_lt_compat_l; [nra|auto].
Qed.
Lemma cont_sphere_of (T : list R -> list R) n K r f x : 0 < r -> length x = n -> 0 < K ->
  (forall y, length y = n -> length (T y) = length (T x)) ->
  (forall y, length y = n -> edist (T y) (T x) <= K * edist y x) ->
  (forall y, length y = n -> f (A1 y) = sphere r (A1 (T y))) ->
  continuous_adf f x ((r ^ 2 - sumsq (T x)) / (2 * r)).
Proof.
  intros Hr Hx HK HL HT Ef. split; [rewrite Ef by auto; apply sphere_value; auto|]. intros e He.
  destruct (sumsq_comp_near T n K x (e * (2 * r)) Hx HK ltac:(nra) HL HT) as (d & Hd & H).
  exists d. split; auto. intros y Hy L. rewrite Ef by congruence. rewrite sphere_value by auto.
  eexists. split; [reflexivity|]. specialize (H y ltac:(congruence) L).
  replace ((r ^ 2 - sumsq (T y)) / (2 * r) - (r ^ 2 - sumsq (T x)) / (2 * r))
    with (- ((sumsq (T y) - sumsq (T x)) * / (2 * r))) by (field; lra).
  rewrite Rabs_Ropp, Rabs_mult, (Rabs_right (/ (2 * r))) by (left; apply Rinv_0_lt_compat; lra).
  apply Rmult_lt_reg_r with (2 * r); [lra|]. rewrite Rmult_assoc, Rinv_l by lra. lra.
Qed.
Lemma cont_sphere r x : 0 < r -> continuous_adf (sphere r) x ((r ^ 2 - sumsq x) / (2 * r)).
Proof. intros Hr. apply (cont_sphere_of (fun y => y) (length x) 1); auto; [lra|]. intros. lra. Qed.
Lemma cylinder_length n (y : list R) : (2 <= n)%nat -> length y = n -> length (firstn 2 y) = 2%nat.
Proof. intros. rewrite firstn_length. lia. Qed.
Lemma firstn_edist y x : length y = length x -> (2 <= length x)%nat -> edist (firstn 2 y) (firstn 2 x) <= 1 * edist y x.
Proof.
  intros H H2. apply norm_scaled; [lra|]. destruct x as [|a [|b x]]; simpl in H2; try lia.
  destruct y as [|c [|d y]]; simpl in H; try lia. unfold vsub. simpl. rewrite !sumsq_cons.
  pose proof (sumsq_nonneg (map2 Rminus y x)). replace (sumsq []) with 0 by reflexivity. lra.
Qed.
Lemma cont_cylinder r x : 0 < r -> (2 <= length x)%nat ->
  continuous_adf (cylinder r) x ((r ^ 2 - sumsq (firstn 2 x)) / (2 * r)).
Proof.
  intros Hr Hx. apply (cont_sphere_of (firstn 2) (length x) 1); auto; [lra| | ].
  - intros. rewrite !(cylinder_length (length x)); auto.
  - intros. apply firstn_edist; auto.
Qed.

(** the ellipsoid: numerator and gradient norm *)
Lemma ellipsoid_value a x : length x = length a -> Forall (fun e => 0 < e) a -> ~ Forall (fun y => y = 0) x ->
  let y := (1 - sumsq (quot x a)) / 2 in let q := sumsq (quot (quot x a) a) in
  0 < q /\ ellipsoid (A1 a) (A1 x) = Ok (y / sqrt (y ^ 2 + q)).
Proof.
  intros Hl Hp Hx y q.
  assert (Ha : Forall (fun e => e <> 0) a) by (eapply Forall_impl; [|exact Hp]; intros; simpl in *; lra).
  assert (Hn : sumsq (quot x a) <> 0) by (rewrite sumsq_quot_0; auto).
  assert (Hq : sumsq (quot (quot x a) a) <> 0).
  { rewrite sumsq_quot_0; auto; [|rewrite quot_length; auto]. rewrite <- sumsq_0. auto. }
  assert (Pq : 0 < q) by (unfold q; pose proof (sumsq_nonneg (quot (quot x a) a)); lra).
  split; auto. unfold ellipsoid, normalize_1st_order.
  assert (Ey : scale_without_normalization (sphere 1) (A1 a) (A1 x) = Ok y).
  { unfold scale_without_normalization, ravel. rewrite bopf_fdiv by auto. cbn [bind]. rewrite sphere_value by lra.
    unfold y. f_equal. field. }
  rewrite Ey. cbn [bind]. rewrite (jac_scaled_sphere a x Hl Ha Hn). cbn [bind].
  assert (En : anorm (A1 (map (fun i => - (nth i x 0 / nth i a 0 ^ 2)) (seq 0 (length x)))) ^ 2 = q).
  { unfold anorm, ravel. rewrite normR_pow2. unfold q.
    replace (map (fun i => - (nth i x 0 / nth i a 0 ^ 2)) (seq 0 (length x))) with (vscal (-1) (quot (quot x a) a)).
    - rewrite sumsq_vscal. ring.
    - assert (Lq : length (quot (quot x a) a) = length x) by (rewrite quot_length; rewrite quot_length; auto).
      apply vec_ext; [rewrite vscal_length, map_length, seq_length; auto|].
      intros i Hi. rewrite vscal_length, Lq in Hi.
      assert (N : nth i (map (fun i => - (nth i x 0 / nth i a 0 ^ 2)) (seq 0 (length x))) 0 = - (nth i x 0 / nth i a 0 ^ 2)).
      { rewrite (nth_indep _ 0 (- (nth 0 x 0 / nth 0 a 0 ^ 2))) by (rewrite map_length, seq_length; auto).
        rewrite (map_nth (fun i => - (nth i x 0 / nth i a 0 ^ 2))), seq_nth by auto. reflexivity. }
      rewrite N, nth_vscal.
      unfold quot. rewrite (nth_map2 Rdiv _ _ i 0 0 0); [|fold (quot x a); rewrite quot_length; auto|congruence].
      rewrite (nth_map2 Rdiv _ _ i 0 0 0); [|auto|congruence].
      pose proof (Forall_nth_neq0 a i Ha ltac:(congruence)). field. auto. }
  rewrite En. rewrite fsqrt_ok by (pose proof (pow2_ge_0 y); lra). cbn [bind]. apply fdiv_ok.
  apply Rgt_not_eq, sqrt_lt_R0. pose proof (pow2_ge_0 y). lra.
Qed.
