(** Proofs about solids, part 5: programs are continuous and have unit normals. *)
From Coquelicot Require Import Coquelicot.
From Verif Require Import Base BaseFacts M_Quat S_Quat P_Quat M_RFun S_RFun P_RFun1 P_Vec P_RFun2 M_Solid S_Solid
  P_Solid1 P_Solid2 P_Solid3 P_Solid4.

(** *** The ellipsoid *)
Lemma ratio_continuous : forall y0 q0, 0 < q0 -> forall e, 0 < e -> exists d, 0 < d /\
  forall y q, Rabs (y - y0) < d -> Rabs (q - q0) < d -> Rabs (/ sqrt (y ^ 2 + q) - / sqrt (y0 ^ 2 + q0)) < e.
Proof.
  intros y0 q0 Hq e He.
  assert (P : 0 < y0 ^ 2 + q0) by (pose proof (pow2_ge_0 y0); lra).
  assert (C : continuity_2d_pt (fun y q => / sqrt (y ^ 2 + q)) y0 q0).
  { apply continuity_1d_2d_pt_comp with (f := fun z => / sqrt z) (g := fun y q => y ^ 2 + q).
    - apply continuity_pt_inv; [apply continuity_pt_sqrt; lra|]. apply Rgt_not_eq, sqrt_lt_R0. auto.
    - c2. }
  destruct (C (mkposreal e He)) as (d & Hd). exists d. split; [apply cond_pos|]. intros y q Hy Hqq. exact (Hd y q Hy Hqq).
Qed.

Lemma pos_nonzero (a : list R) : Forall (fun e => 0 < e) a -> Forall (fun e => e <> 0) a.
Proof. intros H. eapply Forall_impl; [|exact H]. intros; simpl in *; lra. Qed.

Section Ell.
Variables (a x : list R).
Hypothesis Hl : length x = length a.
Hypothesis Hp : Forall (fun e => 0 < e) a.
Hypothesis Hx : ~ Forall (fun y => y = 0) x.
Let num (y : list R) := (1 / 2) * (1 - sumsq (quot y a)).
Let q (y : list R) := sumsq (quot (quot y a) a).
Let h (y : list R) := / sqrt (num y ^ 2 + q y).

Lemma quot_edist : exists K, 0 < K /\ forall y, length y = length a -> edist (quot y a) (quot x a) <= K * edist y x.
Proof.
  destruct (quot_bound a (pos_nonzero a Hp)) as (K & HK & B). exists K. split; auto. intros y Hy.
  apply norm_scaled; [lra|]. rewrite vsub_quot by auto. apply B. rewrite vsub_length; congruence.
Qed.
Lemma quot2_edist : exists K, 0 < K /\ forall y, length y = length a ->
  edist (quot (quot y a) a) (quot (quot x a) a) <= K * edist y x.
Proof.
  destruct (quot_bound a (pos_nonzero a Hp)) as (K & HK & B). destruct quot_edist as (K1 & HK1 & B1).
  exists (K * K1). split; [nra|]. intros y Hy. specialize (B1 y Hy).
  assert (edist (quot (quot y a) a) (quot (quot x a) a) <= K * edist (quot y a) (quot x a)).
  { apply norm_scaled; [lra|]. rewrite vsub_quot by (rewrite quot_length; auto).
    apply B. rewrite vsub_length; rewrite !quot_length; auto; congruence. }
  pose proof (edist_nonneg y x). nra.
Qed.
Lemma q_cont : cont_fun q x.
Proof.
  intros e He. destruct quot2_edist as (K & HK & B).
  destruct (sumsq_comp_near (fun y => quot (quot y a) a) (length x) K x e) as (d & Hd & H); auto.
  - intros y Hy. rewrite !quot_length; rewrite ?quot_length; congruence.
  - intros y Hy. apply B. congruence.
  - exists d. split; auto.
Qed.
Lemma num_cont : cont_fun num x.
Proof.
  intros e He. destruct quot_edist as (K & HK & B).
  destruct (sumsq_comp_near (fun y => quot y a) (length x) K x e) as (d & Hd & H); auto.
  - intros y Hy. rewrite !quot_length; congruence.
  - intros y Hy. apply B. congruence.
  - exists d. split; auto. intros y Hy L. specialize (H y Hy L). unfold num.
    replace (1 / 2 * (1 - sumsq (quot y a)) - 1 / 2 * (1 - sumsq (quot x a))) with
      (- (1 / 2) * (sumsq (quot y a) - sumsq (quot x a))) by ring.
    rewrite Rabs_mult, Rabs_left by lra. lra.
Qed.
Lemma q_pos : 0 < q x.
Proof. apply (ellipsoid_value a x Hl Hp Hx). Qed.
Lemma h_cont : cont_fun h x.
Proof.
  intros e He. destruct (ratio_continuous (num x) (q x) q_pos e He) as (d & Hd & H).
  destruct (num_cont d Hd) as (d1 & D1 & B1). destruct (q_cont d Hd) as (d2 & D2 & B2).
  exists (Rmin d1 d2). split; [apply Rmin_pos; auto|]. intros y Hy L. apply H.
  - apply B1; auto. eapply Rlt_le_trans; [exact L|apply Rmin_l].
  - apply B2; auto. eapply Rlt_le_trans; [exact L|apply Rmin_r].
Qed.
Lemma ellipsoid_noncentre : exists d, 0 < d /\ forall y, length y = length x -> edist y x < d -> ~ Forall (fun y => y = 0) y.
Proof.
  destruct (q_cont (q x) q_pos) as (d & Hd & B). exists d. split; auto. intros y Hy L C. specialize (B y Hy L).
  assert (Z : q y = 0).
  { unfold q. apply sumsq_quot_0; auto using pos_nonzero; [rewrite quot_length; congruence|].
    apply sumsq_0. apply sumsq_quot_0; auto using pos_nonzero. congruence. }
  rewrite Z in B. pose proof q_pos. rewrite Rabs_left in B by lra. lra.
Qed.
Lemma ellipsoid_near : exists d, 0 < d /\ forall y, length y = length x -> edist y x < d ->
  ellipsoid (A1 a) (A1 y) = Ok (num y * h y).
Proof.
  destruct ellipsoid_noncentre as (d & Hd & B). exists d. split; auto. intros y Hy L.
  destruct (ellipsoid_value a y ltac:(congruence) Hp (B y Hy L)) as [_ E]. rewrite E. f_equal. unfold h, num, Rdiv, q.
  f_equal; [ring|]. do 3 f_equal. field.
Qed.
Lemma cont_ellipsoid : exists v, continuous_adf (ellipsoid (A1 a)) x v.
Proof.
  exists (num x * h x). destruct ellipsoid_near as (d0 & H0 & E). split.
  - apply E; auto. rewrite edist_self. auto.
  - intros e He.
    set (M := Rabs (num x) + Rabs (h x) + 1). pose proof (Rabs_pos (num x)). pose proof (Rabs_pos (h x)).
    assert (HM : 0 < M) by (unfold M; lra).
    set (e1 := Rmin 1 (e / M)). assert (He1 : 0 < e1) by (apply Rmin_pos; [lra|]; apply Rdiv_lt_0_compat; auto).
    destruct (num_cont e1 He1) as (d1 & D1 & B1). destruct (h_cont e1 He1) as (d2 & D2 & B2).
    exists (Rmin d0 (Rmin d1 d2)). split; [repeat apply Rmin_pos; auto|]. intros y Hy L.
    assert (L0 : edist y x < d0) by (eapply Rlt_le_trans; [exact L|apply Rmin_l]).
    assert (L1 : edist y x < d1).
    { eapply Rlt_le_trans; [exact L|]. eapply Rle_trans; [apply Rmin_r|apply Rmin_l]. }
    assert (L2 : edist y x < d2).
    { eapply Rlt_le_trans; [exact L|]. eapply Rle_trans; [apply Rmin_r|apply Rmin_r]. }
    specialize (B1 y Hy L1). specialize (B2 y Hy L2). rewrite E by auto. eexists. split; [reflexivity|].
    replace (num y * h y - num x * h x) with ((num y - num x) * (h y - h x) + (num y - num x) * h x + num x * (h y - h x)) by ring.
    assert (E1 : e1 <= 1) by apply Rmin_l. assert (E2 : M * e1 <= e).
    { replace e with (M * (e / M)) by (field; lra). apply Rmult_le_compat_l; [lra|apply Rmin_r]. }
    eapply Rle_lt_trans; [apply Rabs_triang|]. eapply Rle_lt_trans; [apply Rplus_le_compat_r, Rabs_triang|].
    rewrite !Rabs_mult. pose proof (Rabs_pos (num y - num x)). pose proof (Rabs_pos (h y - h x)).
    unfold M in *. set (u := Rabs (num y - num x)) in *. set (w := Rabs (h y - h x)) in *.
    assert (u * w <= u * 1) by (apply Rmult_le_compat_l; lra).
    assert (u * Rabs (h x) <= e1 * Rabs (h x)) by (apply Rmult_le_compat_r; lra).
    assert (Rabs (num x) * w <= Rabs (num x) * e1) by (apply Rmult_le_compat_l; lra). lra.
Qed.
Lemma dot_quot u v : length u = length a -> length v = length a -> dotR u (quot v a) = dotR (quot u a) v.
Proof.
  clear. revert u v. induction a as [|e l IH]; intros [|b u] [|c v] H H'; simpl in *; try lia; [reflexivity|].
  change (quot (c :: v) (e :: l)) with (c / e :: quot v l). change (quot (b :: u) (e :: l)) with (b / e :: quot u l).
  rewrite !dotR_cons, IH by lia. unfold Rdiv. ring.
Qed.
Lemma unit_ellipsoid : sumsq (quot x a) = 1 -> unit_at (ellipsoid (A1 a)) x.
Proof.
  intros S. destruct quot_edist as (K & HK & B).
  assert (G : grad_fun num x (vscal (- 2 * (1 / 2)) (quot (quot x a) a))).
  { apply (quad_grad (fun y => quot y a) (length x) K); auto.
    - rewrite !quot_length; rewrite ?quot_length; congruence.
    - intros y Hy. rewrite !quot_length; congruence.
    - intros y Hy. apply B. congruence.
    - intros y Hy. rewrite vsub_quot by congruence. apply dot_quot; [rewrite quot_length; auto|].
      rewrite vsub_length; congruence. }
  assert (Z : num x = 0) by (unfold num; rewrite S; ring).
  exists (vscal (h x) (vscal (- 2 * (1 / 2)) (quot (quot x a) a))). split.
  - eapply grad_mult_zero; eauto using h_cont, ellipsoid_near.
  - pose proof q_pos as Pq. pose proof (sqrt_lt_R0 _ Pq) as Ps. pose proof (sqrt_sqrt (q x) (Rlt_le _ _ Pq)) as Q.
    unfold vscal. rewrite !normR_scal. unfold h. rewrite Z.
    replace (0 ^ 2 + q x) with (q x) by ring. replace (normR (quot (quot x a) a)) with (sqrt (q x)) by reflexivity.
    rewrite Rabs_right by (left; apply Rinv_0_lt_compat; auto).
    replace (- 2 * (1 / 2)) with (-1) by field. rewrite Rabs_left by lra. field. lra.
Qed.
End Ell.

(** *** Sphere and cylinder *)
Lemma unit_sphere r x : 0 < r -> normR x = r -> unit_at (sphere r) x.
Proof.
  intros Hr N.
  assert (S : sumsq x = r * r) by (rewrite <- normR_sq, N; reflexivity).
  exists (vscal (- 2 * (1 / (2 * r))) x). split.
  - assert (G : has_gradient (sphere r) x (1 / (2 * r) * (r ^ 2 - sumsq x)) (vscal (- 2 * (1 / (2 * r))) x)).
    { apply (grad_of_fun _ (fun y => 1 / (2 * r) * (r ^ 2 - sumsq y))).
      - intros y Hy. rewrite sphere_value by auto. f_equal. field. lra.
      - apply (quad_grad (fun y => y) (length x) 1); auto; [lra|]. intros. lra. }
    replace (1 / (2 * r) * (r ^ 2 - sumsq x)) with 0 in G by (rewrite S; ring). exact G.
  - unfold vscal. rewrite normR_scal, N. replace (- 2 * (1 / (2 * r))) with (- / r) by (field; lra).
    rewrite Rabs_Ropp, Rabs_right by (left; apply Rinv_0_lt_compat; auto). field. lra.
Qed.

Lemma dot_zeros n v : dotR (repeat 0 n) v = 0.
Proof.
  revert v. induction n; intros [|b v]; try reflexivity. simpl. rewrite dotR_cons, IHn. ring.
Qed.
Lemma sumsq_zeros n : sumsq (repeat 0 n) = 0.
Proof. apply sumsq_0. induction n; simpl; auto. Qed.

Lemma unit_cylinder r x : 0 < r -> (2 <= length x)%nat -> sqrt (nth 0 x 0 ^ 2 + nth 1 x 0 ^ 2) = r -> unit_at (cylinder r) x.
Proof.
  intros Hr Hx N. destruct x as [|a [|b x]]; simpl in Hx; try lia. simpl nth in N.
  assert (S : a * a + b * b = r * r).
  { rewrite <- N. rewrite sqrt_sqrt; [ring|]. pose proof (pow2_ge_0 a). pose proof (pow2_ge_0 b). lra. }
  set (g0 := a :: b :: repeat 0 (length x)).
  assert (Sf : sumsq [a; b] = r * r) by (rewrite !sumsq_cons; change (sumsq []) with 0; lra).
  exists (vscal (- 2 * (1 / (2 * r))) g0). split.
  - assert (G : has_gradient (cylinder r) (a :: b :: x) (1 / (2 * r) * (r ^ 2 - sumsq (firstn 2 (a :: b :: x))))
      (vscal (- 2 * (1 / (2 * r))) g0)).
    { apply (grad_of_fun _ (fun y => 1 / (2 * r) * (r ^ 2 - sumsq (firstn 2 y)))).
      - intros y Hy. unfold cylinder. rewrite sphere_value by auto. f_equal. field. lra.
      - apply (quad_grad (firstn 2) (length (a :: b :: x)) 1); auto.
        + unfold g0. simpl. rewrite repeat_length. reflexivity.
        + lra.
        + intros y Hy. destruct y as [|c [|d y]]; simpl in Hy; try lia. reflexivity.
        + intros y Hy. apply firstn_edist; auto.
        + intros y Hy. destruct y as [|c [|d y]]; simpl in Hy; try lia. simpl. unfold g0, vsub. simpl.
          rewrite !dotR_cons, dot_zeros. change (dotR [] []) with 0. ring. }
    simpl firstn in G. rewrite Sf in G. replace (1 / (2 * r) * (r ^ 2 - r * r)) with 0 in G by ring. exact G.
  - unfold vscal. rewrite normR_scal. replace (- 2 * (1 / (2 * r))) with (- / r) by (field; lra).
    rewrite Rabs_Ropp, Rabs_right by (left; apply Rinv_0_lt_compat; auto).
    replace (normR g0) with r; [field; lra|]. rewrite normR_sumsq. unfold g0. rewrite !sumsq_cons, sumsq_zeros.
    replace (a * a + (b * b + 0)) with (r * r) by lra. rewrite sqrt_square; lra.
Qed.

(** *** Boxes *)
Lemma upd_unit n i : (i < n)%nat -> forall v, dotR (upd (repeat 0 n) i 1) v = nth i v 0.
Proof.
  revert i. induction n as [|n IH]; intros i Hi v; [lia|]. destruct i, v as [|b v]; simpl; try reflexivity.
  - rewrite dotR_cons, dot_zeros. ring.
  - rewrite dotR_cons, IH by lia. ring.
Qed.
Lemma basis_norm n i : (i < n)%nat -> normR (basis n i) = 1.
Proof.
  intros H. unfold basis. rewrite normR_sumsq, <- dotR_self, upd_unit by auto.
  replace (nth i (upd (repeat 0 n) i 1) 0) with 1; [apply sqrt_1|].
  revert i H. induction n as [|n IH]; intros i H; [lia|]. destruct i; simpl; auto. apply IH. lia.
Qed.
Lemma unit_hi k u x : (k < length x)%nat -> nth k x 0 = u -> unit_at (hi k u) x.
Proof.
  intros Hk E. exists (vscal (-1) (basis (length x) k)). split.
  - split; [simpl; f_equal; lra|]. split; [rewrite vscal_length, basis_length; auto|]. intros e He. exists 1.
    split; [lra|]. intros y Hy _. exists (u - nth k y 0). split; auto.
    unfold basis. rewrite dotR_vscal, upd_unit, nth_vsub by auto.
    replace (u - nth k y 0 - 0 - -1 * (nth k y 0 - nth k x 0)) with 0 by lra. rewrite Rabs_R0.
    pose proof (edist_nonneg y x). nra.
  - unfold vscal. rewrite normR_scal, basis_norm by auto. rewrite Rabs_left; lra.
Qed.
Lemma unit_lo k u x : (k < length x)%nat -> nth k x 0 = u -> unit_at (lo k u) x.
Proof.
  intros Hk E. exists (basis (length x) k). split; [|apply basis_norm; auto].
  split; [simpl; f_equal; lra|]. split; [apply basis_length|]. intros e He. exists 1.
  split; [lra|]. intros y Hy _. exists (nth k y 0 - u). split; auto.
  unfold basis. rewrite upd_unit, nth_vsub by auto.
  replace (nth k y 0 - u - 0 - (nth k y 0 - nth k x 0)) with 0 by lra. rewrite Rabs_R0.
  pose proof (edist_nonneg y x). nra.
Qed.

Definition sided (pos : R -> Prop) (x : list R) (f : adf) : Prop := exists v, continuous_adf f x v /\ pos v.

Section Fold.
Variables (op : R -> R -> res R) (pos : R -> Prop) (x : list R).
Hypothesis C2 : continuous2 op.
Hypothesis FO : forall b, pos b -> first_order op b.
Hypothesis PP : forall a b, pos a -> pos b -> exists c, op a b = Ok c /\ pos c.

Lemma sided_op f g : sided pos x f -> sided pos x g -> sided pos x (pointwise op f g).
Proof.
  intros (a & Ca & Pa) (b & Cb & Pb). destruct (PP a b Pa Pb) as (c & E & Pc). exists c. split; auto.
  eapply cont_pointwise; eauto.
Qed.
Lemma fold_unit_head f fs : unit_at f x -> Forall (sided pos x) fs -> unit_at (fold_adf op f fs) x.
Proof.
  intros U H. revert f U. induction H as [|g fs (v & Cv & Pv) H IH]; intros f U; [exact U|].
  apply (IH (pointwise op f g)). apply (op_unit op f g x v); auto.
Qed.
Lemma fold_unit f fs : just_one (fun f => unit_at f x) (sided pos x) (f :: fs) -> unit_at (fold_adf op f fs) x.
Proof.
  intros [[U H]|[(v & Cv & Pv) H]].
  - apply fold_unit_head; auto. apply fold_and. auto.
  - assert (Sf : sided pos x f) by (exists v; auto). clear v Cv Pv. revert f Sf.
    induction fs as [|g fs IH]; intros f (v & Cv & Pv); [destruct H|].
    unfold fold_adf. cbn [fold_left]. destruct H as [[U H]|[Sg H]].
    + apply (fold_unit_head (pointwise op f g)); [|apply fold_and; auto]. apply (op_unit op g f x v); auto.
    + apply (IH H (pointwise op f g)). apply sided_op; auto. exists v; auto.
Qed.
End Fold.

Lemma faces_sided lb ub pre rest : length lb = length rest -> length ub = length rest ->
  (forall j, (j < length rest)%nat -> nth j lb 0 < nth j rest 0 < nth j ub 0) ->
  Forall (sided (Rlt 0) (pre ++ rest)) (faces (length pre) lb ub).
Proof.
  revert lb ub pre. induction rest as [|r rest IH]; intros [|b lb] [|u ub] pre H H' P; simpl in H, H'; try lia; [constructor|].
  assert (N : nth (length pre) (pre ++ r :: rest) 0 = r) by (rewrite app_nth2 by lia; rewrite Nat.sub_diag; reflexivity).
  pose proof (P 0%nat ltac:(simpl; lia)) as P0. simpl in P0.
  simpl. constructor; [|constructor].
  - eexists. split; [apply cont_hi|]. rewrite N. lra.
  - eexists. split; [apply cont_lo|]. rewrite N. lra.
  - specialize (IH lb ub (pre ++ [r]) ltac:(lia) ltac:(lia)). rewrite <- app_assoc, app_length in IH. simpl in IH.
    replace (length pre + 1)%nat with (S (length pre)) in IH by lia. apply IH.
    intros j Hj. apply (P (S j)). simpl. lia.
Qed.
Lemma faces_one lb ub pre rest i : length lb = length rest -> length ub = length rest -> (i < length rest)%nat ->
  (forall j, (j < length rest)%nat -> j <> i -> nth j lb 0 < nth j rest 0 < nth j ub 0) ->
  ((nth i lb 0 = nth i rest 0 /\ nth i rest 0 < nth i ub 0) \/ (nth i lb 0 < nth i rest 0 /\ nth i rest 0 = nth i ub 0)) ->
  just_one (fun f => unit_at f (pre ++ rest)) (sided (Rlt 0) (pre ++ rest)) (faces (length pre) lb ub).
Proof.
  revert lb ub pre i. induction rest as [|r rest IH]; intros [|b lb] [|u ub] pre i H H' Hi P Q; simpl in H, H', Hi; try lia.
  assert (N : nth (length pre) (pre ++ r :: rest) 0 = r) by (rewrite app_nth2 by lia; rewrite Nat.sub_diag; reflexivity).
  assert (Lp : (length pre < length (pre ++ r :: rest))%nat) by (rewrite app_length; simpl; lia).
  assert (Sh : forall v, 0 < v - r -> sided (Rlt 0) (pre ++ r :: rest) (hi (length pre) v)).
  { intros v Hv. eexists. split; [apply cont_hi|]. rewrite N. lra. }
  assert (Sl : forall v, 0 < r - v -> sided (Rlt 0) (pre ++ r :: rest) (lo (length pre) v)).
  { intros v Hv. eexists. split; [apply cont_lo|]. rewrite N. lra. }
  cbn [faces just_one]. destruct i as [|i].
  - simpl in Q.
    assert (F : Forall (sided (Rlt 0) (pre ++ r :: rest)) (faces (S (length pre)) lb ub)).
    { pose proof (faces_sided lb ub (pre ++ [r]) rest ltac:(lia) ltac:(lia)) as F. rewrite <- app_assoc, app_length in F.
      simpl in F. replace (length pre + 1)%nat with (S (length pre)) in F by lia. apply F.
      intros j Hj. apply (P (S j)); simpl; lia. }
    destruct Q as [[Q1 Q2]|[Q1 Q2]].
    + right. split; [apply Sh; lra|]. left. split; [apply unit_lo; auto; lra|]. apply fold_and. exact F.
    + left. split; [apply unit_hi; auto; lra|]. cbn [map fold_right]. split; [apply Sl; lra|]. apply fold_and. exact F.
  - pose proof (P 0%nat ltac:(simpl; lia) ltac:(lia)) as P0. simpl in P0.
    right. split; [apply Sh; lra|]. right. split; [apply Sl; lra|].
    pose proof (IH lb ub (pre ++ [r]) i ltac:(lia) ltac:(lia) ltac:(lia)) as F. rewrite <- app_assoc, app_length in F.
    simpl in F. replace (length pre + 1)%nat with (S (length pre)) in F by lia. apply F; [|exact Q].
    intros j Hj Nj. apply (P (S j)); simpl; lia.
Qed.

Lemma conj_pos s a b : sign_correct s -> 0 < a -> 0 < b -> exists c, conj_ s a b = Ok c /\ 0 < c.
Proof.
  intros S Ha Hb. destruct (S a b) as [(c & E & Sg) _]. exists c. split; auto.
  apply (sg_min_pos a b c Sg). auto.
Qed.
Lemma disj_neg s a b : sign_correct s -> a < 0 -> b < 0 -> exists c, disj_ s a b = Ok c /\ c < 0.
Proof.
  intros S Ha Hb. destruct (S a b) as [_ (c & E & Sg)]. exists c. split; auto.
  apply (sg_max_pos a b c Sg). auto.
Qed.
Lemma disj_pos s a b : sign_correct s -> 0 < a \/ 0 < b -> exists c, disj_ s a b = Ok c /\ 0 < c.
Proof.
  intros S H. destruct (S a b) as [_ (c & E & Sg)]. exists c. split; auto.
  apply (sg_max_pos a b c Sg). auto.
Qed.
Lemma conj_neg s a b : sign_correct s -> a < 0 \/ b < 0 -> exists c, conj_ s a b = Ok c /\ c < 0.
Proof.
  intros S H. destruct (S a b) as [(c & E & Sg) _]. exists c. split; auto.
  apply (sg_min_pos a b c Sg). auto.
Qed.

Lemma unit_cuboid e c s x : normalized_system s -> length e = length x -> (1 <= length x)%nat ->
  on_one_face (lower e c) (upper e c) x -> unit_at (cuboid (A1 e) c s) x.
Proof.
  intros ((SC & C2 & _) & FO & _) He Hx (Ll & Lu & i & Hi & P & Q).
  destruct (cuboid_faces e c s x He Hx) as (f & fs & Ef & V).
  apply unit_ext with (fold_adf (conj_ s) f fs).
  - exists 1. split; [lra|]. auto.
  - apply (fold_unit (conj_ s) (Rlt 0)); auto.
    + intros a b Ha Hb. apply conj_pos; auto.
    + rewrite <- Ef. exact (faces_one (lower e c) (upper e c) [] x i Ll Lu Hi P Q).
Qed.

Lemma prim_cont n p x : good_prim continuous_system n p -> length x = n -> regular (Prim p) x ->
  exists v, continuous_adf (build_prim p) x v.
Proof.
  intros G Hx Rg. destruct p; simpl in *.
  - destruct G as (G1 & G2 & G3).
    destruct (cuboid_membership edge_lengths centering s x) as (v & E & _); [apply G3|apply ge1_nonempty; lia|congruence|].
    exists v. apply cont_cuboid; auto; congruence.
  - destruct G as (G2 & G3).
    destruct (cuboid_membership (repeat edge_length (length x)) centering s x) as (v & E & _);
      [apply G3|apply ge1_nonempty; lia|apply repeat_length|].
    exists v. eapply cont_ext_all; [|apply cont_cuboid; [exact G3| | |exact E]].
    + intros y Hy. rewrite cube_is_cuboid, Hy. reflexivity.
    + apply repeat_length.
    + lia.
  - eexists. apply cont_sphere; auto.
  - destruct G. eexists. apply cont_cylinder; auto. lia.
  - destruct G. apply cont_ellipsoid; auto. congruence.
  - auto.
Qed.

Lemma prim_unit n p x : good_prim normalized_system n p -> length x = n -> regular (Prim p) x -> prim_smooth p x ->
  unit_at (build_prim p) x.
Proof.
  intros G Hx Rg S. destruct p; simpl in *.
  - destruct G as (G1 & G2 & G3). apply unit_cuboid; auto; congruence.
  - destruct G as (G2 & G3). eapply unit_ext; [|apply unit_cuboid; [exact G3| | |exact S]].
    + exists 1. split; [lra|]. intros y Hy _. simpl. rewrite cube_is_cuboid, Hy. reflexivity.
    + apply repeat_length.
    + lia.
  - apply unit_sphere; auto.
  - destruct G. apply unit_cylinder; auto. lia.
  - destruct G. apply unit_ellipsoid; auto. congruence.
  - exact S.
Qed.

(** *** Programs *)
Lemma good_mono (S S' : rsys -> Prop) t : (forall s, S s -> S' s) -> forall n, good S n t -> good S' n t.
Proof.
  intros I. induction t using solid_rect'; intros n G; simpl in *.
  - destruct p; simpl in *; intuition.
  - destruct G; split; auto.
  - auto.
  - destruct G as (? & ? & ?); auto.
  - destruct G as (? & ? & G). repeat split; auto. rewrite fold_and in *. rewrite Forall_forall in *. auto.
  - destruct G as (? & ? & G). repeat split; auto. rewrite fold_and in *. rewrite Forall_forall in *. auto.
Qed.
Lemma cont_sign s : continuous_system s -> sign_correct s.
Proof. intros H; apply H. Qed.
Lemma norm_cont s : normalized_system s -> continuous_system s.
Proof. intros H; apply H. Qed.

(** value and sign of a program at a point *)
Definition status (t : solid) (f : adf) (x : list R) (v : R) : Prop :=
  continuous_adf f x v /\ (0 < v <-> inside t x) /\ (v < 0 <-> outside t x).

Lemma equivalence_eq s f g y :
  equivalence s f g y = pointwise (conj_ s) (pointwise (disj_ s) f (negate g)) (pointwise (disj_ s) (negate f) g) y.
Proof. unfold equivalence, pointwise, negate. destruct (f y); simpl; auto. destruct (g y); simpl; auto. Qed.
Lemma xor_eq s f g y :
  xor s f g y = pointwise (disj_ s) (pointwise (conj_ s) f (negate g)) (pointwise (conj_ s) (negate f) g) y.
Proof. unfold xor, pointwise, negate. destruct (f y); simpl; auto. destruct (g y); simpl; auto. Qed.
Lemma implication_eq s f g y : implication s f g y = pointwise (disj_ s) (negate f) g y.
Proof. unfold implication, pointwise, negate. destruct (f y); simpl; auto. Qed.
Lemma difference_eq s f g y : difference s f g y = pointwise (conj_ s) f (negate g) y.
Proof. unfold difference, pointwise, negate. destruct (f y); simpl; auto. destruct (g y); simpl; auto. Qed.

Definition conted (t : solid) : Prop := forall n x f, good continuous_system n t -> length x = n -> regular t x ->
  build t = Ok f -> exists v, continuous_adf f x v.

Lemma c2_value op a b : continuous2 op -> exists c, op a b = Ok c.
Proof. intros H. destruct (H a b) as (c & E & _). eauto. Qed.

Lemma cont_op2 o s f g x a b : continuous_system s -> continuous_adf f x a -> continuous_adf g x b ->
  exists c, continuous_adf (build_op2 o s f g) x c.
Proof.
  intros (SC & Cc & Cd) Cf Cg. pose proof (cont_negate _ _ _ Cf) as Nf. pose proof (cont_negate _ _ _ Cg) as Ng.
  destruct o; simpl.
  - destruct (c2_value (disj_ s) a b Cd) as (c & E). exists c. eapply cont_pointwise; eauto.
  - destruct (c2_value (conj_ s) a b Cc) as (c & E). exists c. eapply cont_pointwise; eauto.
  - destruct (c2_value (disj_ s) a (- b) Cd) as (c1 & E1). destruct (c2_value (disj_ s) (- a) b Cd) as (c2 & E2).
    destruct (c2_value (conj_ s) c1 c2 Cc) as (c & E). exists c.
    eapply cont_ext_all; [intros; apply equivalence_eq|]. repeat (eapply cont_pointwise; eauto).
  - destruct (c2_value (disj_ s) (- a) b Cd) as (c & E). exists c.
    eapply cont_ext_all; [intros; apply implication_eq|]. eapply cont_pointwise; eauto.
  - destruct (c2_value (conj_ s) a (- b) Cc) as (c & E). exists c.
    eapply cont_ext_all; [intros; apply difference_eq|]. eapply cont_pointwise; eauto.
  - destruct (c2_value (conj_ s) a (- b) Cc) as (c1 & E1). destruct (c2_value (conj_ s) (- a) b Cc) as (c2 & E2).
    destruct (c2_value (disj_ s) c1 c2 Cd) as (c & E). exists c.
    eapply cont_ext_all; [intros; apply xor_eq|]. repeat (eapply cont_pointwise; eauto).
Qed.

Lemma sequence_build l fs : sequence (map build l) = Ok fs -> Forall2 (fun t f => build t = Ok f) l fs.
Proof.
  revert fs. induction l as [|a l IH]; intros fs E; simpl in E.
  - injection E as <-. constructor.
  - destruct (build a) eqn:Ea; [|discriminate]. simpl in E. destruct (sequence (map build l)) eqn:El; [|discriminate].
    simpl in E. injection E as <-. constructor; auto.
Qed.

Lemma cont_compose op fs x vs : continuous2 op -> fs <> [] -> Forall2 (fun f v => continuous_adf f x v) fs vs ->
  (exists f r, fs = f :: r /\ (exists d, 0 < d /\ forall y, length y = length x -> edist y x < d ->
     compose op (map scalar_adf fs) (A1 y) = fold_adf op f r (A1 y))) /\
  exists v, continuous_adf (compose op (map scalar_adf fs)) x v.
Proof.
  intros C2 Ne F. destruct (near_defined x fs vs F) as (d & Hd & D).
  destruct fs as [|f r]; [congruence|]. inversion F as [|? v ? ws Cf F']. subst.
  assert (N : exists d, 0 < d /\ forall y, length y = length x -> edist y x < d ->
     compose op (map scalar_adf (f :: r)) (A1 y) = fold_adf op f r (A1 y)).
  { exists d. split; auto. intros y Hy L. apply compose_fold_adf. apply D; auto. }
  split; [exists f, r; auto|].
  assert (exists c, fold_adf op f r (A1 x) = Ok c) as (c & Ec).
  { assert (Fv : Forall2 (fun f v => f (A1 x) = Ok v) r ws).
    { clear - F'. induction F' as [|g w r ws [V _] F IH]; constructor; auto. }
    rewrite (fold_adf_value op f r (A1 x) ws Fv). destruct Cf as [V _]. rewrite V. clear - C2. revert v.
    induction ws as [|w ws IH]; intros v; simpl; [eauto|]. destruct (c2_value op v w C2) as (c & E). rewrite E. apply IH. }
  exists c. eapply cont_ext; [exact N|]. eapply cont_fold; eauto.
Qed.

Lemma solid_continuous_at t : conted t.
Proof.
  induction t using solid_rect'; intros n x f G Hx Rg B.
  - simpl in B. injection B as <-. eapply prim_cont; eauto.
  - destruct G as [G1 G2]. simpl in B. destruct (build t) as [h|] eqn:Eh; [|discriminate]. simpl in B.
    destruct (move_eval n m h G1) as (g & Eg & Vg). assert (g = f) by congruence. subst g.
    destruct (IHt (source m n) (back m x) h G2 (back_length n m x G1 Hx) Rg Eh) as (v & C).
    exists (factor m * v). eapply cont_move; eauto.
  - simpl in B. destruct (build t) as [h|] eqn:Eh; [|discriminate]. simpl in B. injection B as <-.
    destruct (IHt n x h G Hx Rg Eh) as (v & C). exists (- v). apply cont_negate; auto.
  - destruct G as (G0 & G1 & G2). destruct Rg as [R1 R2]. simpl in B.
    destruct (build t1) as [h|] eqn:Eh; [|discriminate]. destruct (build t2) as [k|] eqn:Ek; [|discriminate].
    simpl in B. injection B as <-.
    destruct (IHt1 n x h G1 Hx R1 Eh) as (a & Ca). destruct (IHt2 n x k G2 Hx R2 Ek) as (b & Cb).
    eapply cont_op2; eauto.
  - simpl in G, Rg, B. rewrite fold_and in G, Rg. destruct G as (G0 & G1 & G2).
    destruct (sequence (map build l)) as [fs|] eqn:Es; [|discriminate]. simpl in B. injection B as <-.
    apply sequence_build in Es.
    assert (exists vs, Forall2 (fun f v => continuous_adf f x v) fs vs) as (vs & F).
    { clear G1. induction Es as [|a f l fs Ea Es IH]; [exists []; constructor|].
      apply Forall_cons_iff in H as [H1 H2]. apply Forall_cons_iff in G2 as [G3 G4]. apply Forall_cons_iff in Rg as [R1 R2].
      destruct (H1 n x f G3 Hx R1 Ea) as (v & C). destruct (IH H2 G4 R2) as (vs & F). exists (v :: vs). constructor; auto. }
    apply (cont_compose (conj_ s) fs x vs); auto; [apply G0|]. inversion Es; subst; congruence.
  - simpl in G, Rg, B. rewrite fold_and in G, Rg. destruct G as (G0 & G1 & G2).
    destruct (sequence (map build l)) as [fs|] eqn:Es; [|discriminate]. simpl in B. injection B as <-.
    apply sequence_build in Es.
    assert (exists vs, Forall2 (fun f v => continuous_adf f x v) fs vs) as (vs & F).
    { clear G1. induction Es as [|a f l fs Ea Es IH]; [exists []; constructor|].
      apply Forall_cons_iff in H as [H1 H2]. apply Forall_cons_iff in G2 as [G3 G4]. apply Forall_cons_iff in Rg as [R1 R2].
      destruct (H1 n x f G3 Hx R1 Ea) as (v & C). destruct (IH H2 G4 R2) as (vs & F). exists (v :: vs). constructor; auto. }
    apply (cont_compose (disj_ s) fs x vs); auto; [apply G0|]. inversion Es; subst; congruence.
Qed.

Lemma solid_status t n x f : good continuous_system n t -> length x = n -> regular t x -> build t = Ok f ->
  exists v, status t f x v.
Proof.
  intros G Hx Rg B. destruct (solid_continuous_at t n x f G Hx Rg B) as (v & C).
  destruct (solid_signed t n (good_mono _ _ t cont_sign n G)) as (f' & B' & D).
  assert (f' = f) by congruence. subst f'. destruct (D x Hx Rg) as (w & E & P & N).
  destruct C as [V C]. assert (w = v) by congruence. subst w. exists v. split; [split; auto|]. auto.
Qed.

Lemma unit_op2 o s f g x a b ta tb : normalized_system s -> status ta f x a -> status tb g x b ->
  op2_smooth o (unit_at f x) (inside ta x) (outside ta x) (unit_at g x) (inside tb x) (outside tb x) ->
  unit_at (build_op2 o s f g) x.
Proof.
  intros ((SC & Cc & Cd) & Fc & Fd) (Cf & Pf & Nf) (Cg & Pg & Ng) H.
  pose proof (cont_negate _ _ _ Cf) as Mf. pose proof (cont_negate _ _ _ Cg) as Mg.
  assert (UC : forall f g b, unit_at f x -> continuous_adf g x b -> 0 < b ->
    unit_at (pointwise (conj_ s) f g) x /\ unit_at (pointwise (conj_ s) g f) x).
  { intros. eapply op_unit; eauto. }
  assert (UD : forall f g b, unit_at f x -> continuous_adf g x b -> b < 0 ->
    unit_at (pointwise (disj_ s) f g) x /\ unit_at (pointwise (disj_ s) g f) x).
  { intros. eapply op_unit; eauto. }
  assert (Ext : forall h k, (forall y, k y = h y) -> unit_at h x -> unit_at k x).
  { intros h k E. apply unit_ext. exists 1. split; [lra|]. auto. }
  assert (UC1 := fun f g b U C P => proj1 (UC f g b U C P)). assert (UC2 := fun f g b U C P => proj2 (UC f g b U C P)).
  assert (UD1 := fun f g b U C P => proj1 (UD f g b U C P)). assert (UD2 := fun f g b U C P => proj2 (UD f g b U C P)).
  clear UC UD. destruct o; simpl in H |- *.
  - destruct H as [[U B]|[B U]].
    + apply (proj2 Ng) in B. apply UD1 with b; auto.
    + apply (proj2 Nf) in B. apply UD2 with a; auto.
  - destruct H as [[U B]|[B U]].
    + apply (proj2 Pg) in B. apply UC1 with b; auto.
    + apply (proj2 Pf) in B. apply UC2 with a; auto.
  - apply (Ext _ _ (equivalence_eq s f g)). destruct H as [[U B]|[B U]].
    + pose proof (unit_negate _ _ U) as U'. destruct B as [B|B]; [apply (proj2 Pg) in B|apply (proj2 Ng) in B].
      * destruct (disj_pos s (- a) b SC (or_intror B)) as (c & E & Pc).
        apply UC1 with c; auto; [apply UD1 with (- b); auto; lra|]. eapply cont_pointwise; eauto.
      * destruct (disj_pos s a (- b) SC ltac:(right; lra)) as (c & E & Pc).
        apply UC2 with c; auto; [apply UD1 with b; auto|]. eapply cont_pointwise; eauto.
    + pose proof (unit_negate _ _ U) as U'. destruct B as [B|B]; [apply (proj2 Pf) in B|apply (proj2 Nf) in B].
      * destruct (disj_pos s a (- b) SC (or_introl B)) as (c & E & Pc).
        apply UC2 with c; auto; [apply UD2 with (- a); auto; lra|]. eapply cont_pointwise; eauto.
      * destruct (disj_pos s (- a) b SC ltac:(left; lra)) as (c & E & Pc).
        apply UC1 with c; auto; [apply UD2 with a; auto|]. eapply cont_pointwise; eauto.
  - apply (Ext _ _ (implication_eq s f g)). destruct H as [[U B]|[B U]].
    + apply (proj2 Ng) in B. pose proof (unit_negate _ _ U) as U'. apply UD1 with b; auto.
    + apply (proj2 Pf) in B. apply UD2 with (- a); auto. lra.
  - apply (Ext _ _ (difference_eq s f g)). destruct H as [[U B]|[B U]].
    + apply (proj2 Ng) in B. apply UC1 with (- b); auto. lra.
    + apply (proj2 Pf) in B. pose proof (unit_negate _ _ U) as U'. apply UC2 with a; auto.
  - apply (Ext _ _ (xor_eq s f g)). destruct H as [[U B]|[B U]].
    + pose proof (unit_negate _ _ U) as U'. destruct B as [B|B]; [apply (proj2 Pg) in B|apply (proj2 Ng) in B].
      * destruct (conj_neg s a (- b) SC ltac:(right; lra)) as (c & E & Pc).
        apply UD2 with c; auto; [apply UC1 with b; auto|]. eapply cont_pointwise; eauto.
      * destruct (conj_neg s (- a) b SC ltac:(right; lra)) as (c & E & Pc).
        apply UD1 with c; auto; [apply UC1 with (- b); auto; lra|]. eapply cont_pointwise; eauto.
    + pose proof (unit_negate _ _ U) as U'. destruct B as [B|B]; [apply (proj2 Pf) in B|apply (proj2 Nf) in B].
      * destruct (conj_neg s (- a) b SC ltac:(left; lra)) as (c & E & Pc).
        apply UD1 with c; auto; [apply UC2 with a; auto|]. eapply cont_pointwise; eauto.
      * destruct (conj_neg s a (- b) SC ltac:(left; lra)) as (c & E & Pc).
        apply UD2 with c; auto; [apply UC2 with (- a); auto; lra|]. eapply cont_pointwise; eauto.
Qed.

Definition united (t : solid) : Prop := forall n x f, good normalized_system n t -> length x = n -> regular t x ->
  smooth t x -> build t = Ok f -> unit_at f x.

Lemma just_one_map l fs x (pos : R -> Prop) (D : solid -> Prop) n : Forall united l ->
  Forall (good normalized_system n) l -> length x = n ->
  Forall (fun a => regular a x) l -> Forall2 (fun t f => build t = Ok f) l fs ->
  (forall t f, good normalized_system n t -> regular t x -> build t = Ok f -> D t -> sided pos x f) ->
  just_one (fun a => smooth a x) D l -> just_one (fun f => unit_at f x) (sided pos x) fs.
Proof.
  intros HU G Hx Rg Es St. induction Es as [|a f l fs Ea Es IH]; [auto|].
  apply Forall_cons_iff in HU as [H1 H2]. apply Forall_cons_iff in G as [G3 G4]. apply Forall_cons_iff in Rg as [R1 R2].
  intros [[U H]|[Da H]].
  - left. split; [eapply H1; eauto|]. apply fold_and in H. apply fold_and.
    clear IH H2 U. induction Es as [|b k l fs Eb Es IH]; [constructor|].
    apply Forall_cons_iff in G4 as [G4 G5]. apply Forall_cons_iff in R2 as [R2 R3]. apply Forall_cons_iff in H as [H4 H5].
    constructor; eauto.
  - right. split; eauto. 
Qed.

Lemma compose_unit op (pos : R -> Prop) fs x : continuous2 op -> (forall b, pos b -> first_order op b) ->
  (forall a b, pos a -> pos b -> exists c, op a b = Ok c /\ pos c) ->
  just_one (fun f => unit_at f x) (sided pos x) fs -> unit_at (compose op (map scalar_adf fs)) x.
Proof.
  intros C2 FO PP J.
  assert (exists vs, Forall2 (fun f v => continuous_adf f x v) fs vs) as (vs & F).
  { clear FO PP. induction fs as [|f fs IH]; [destruct J|]. destruct J as [[U H]|[(v & C & P) H]].
    - apply fold_and in H. clear IH.
      assert (exists vs, Forall2 (fun f v => continuous_adf f x v) fs vs) as (vs & F).
      { clear U. induction H as [|g fs (w & Cw & Pw) H (vs & F)]; [exists []; constructor|]. exists (w :: vs). constructor; auto. }
      exists (0 :: vs). constructor; auto. apply unit_cont; auto.
    - destruct (IH H) as (vs & F). exists (v :: vs). constructor; auto. }
  assert (Ne : fs <> []) by (destruct fs; [destruct J|discriminate]).
  destruct (cont_compose op fs x vs C2 Ne F) as [(f & r & -> & N) _].
  eapply unit_ext; [exact N|]. eapply fold_unit; eauto.
Qed.

Lemma solid_unit t : united t.
Proof.
  induction t using solid_rect'; intros n x f G Hx Rg S B.
  - simpl in B. injection B as <-. eapply prim_unit; eauto.
  - destruct G as [G1 G2]. destruct S as [S1 S2]. simpl in B. destruct (build t) as [h|] eqn:Eh; [|discriminate]. simpl in B.
    destruct (move_eval n m h G1) as (g & Eg & Vg). assert (g = f) by congruence. subst g.
    pose proof (IHt (source m n) (back m x) h G2 (back_length n m x G1 Hx) Rg S2 Eh) as U.
    eapply unit_move; eauto.
  - simpl in B, S. destruct (build t) as [h|] eqn:Eh; [|discriminate]. simpl in B. injection B as <-.
    apply unit_negate. eapply IHt; eauto.
  - destruct G as (G0 & G1 & G2). destruct Rg as [R1 R2]. simpl in B, S.
    destruct (build t1) as [h|] eqn:Eh; [|discriminate]. destruct (build t2) as [k|] eqn:Ek; [|discriminate].
    simpl in B. injection B as <-.
    destruct (solid_status t1 n x h (good_mono _ _ t1 norm_cont n G1) Hx R1 Eh) as (a & Sa).
    destruct (solid_status t2 n x k (good_mono _ _ t2 norm_cont n G2) Hx R2 Ek) as (b & Sb).
    eapply unit_op2; eauto.
    assert (U1 : smooth t1 x -> unit_at h x) by (intros; eapply IHt1; eauto).
    assert (U2 : smooth t2 x -> unit_at k x) by (intros; eapply IHt2; eauto).
    destruct o; simpl in *; tauto.
  - simpl in G, Rg, B, S. rewrite fold_and in G, Rg. destruct G as (G0 & G1 & G2).
    destruct (sequence (map build l)) as [fs|] eqn:Es; [|discriminate]. simpl in B. injection B as <-.
    apply sequence_build in Es. destruct G0 as ((SC & Cc & Cd) & Fc & Fd).
    apply (compose_unit (conj_ s) (Rlt 0)); auto; [intros; apply conj_pos; auto|].
    eapply just_one_map; eauto. intros t f Gt Rt Bt It.
    destruct (solid_status t n x f (good_mono _ _ t norm_cont n Gt) Hx Rt Bt) as (v & Cv & Pv & _).
    exists v. split; auto. apply Pv. exact It.
  - simpl in G, Rg, B, S. rewrite fold_and in G, Rg. destruct G as (G0 & G1 & G2).
    destruct (sequence (map build l)) as [fs|] eqn:Es; [|discriminate]. simpl in B. injection B as <-.
    apply sequence_build in Es. destruct G0 as ((SC & Cc & Cd) & Fc & Fd).
    apply (compose_unit (disj_ s) (fun b => b < 0)); auto; [intros; apply disj_neg; auto|].
    eapply just_one_map; eauto. intros t f Gt Rt Bt It.
    destruct (solid_status t n x f (good_mono _ _ t norm_cont n Gt) Hx Rt Bt) as (v & Cv & _ & Nv).
    exists v. split; auto. apply Nv. exact It.
Qed.
