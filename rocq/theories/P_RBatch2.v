(** Proofs about ADFs called with a 2-d array, part 2: signs for several points. *)
From Coquelicot Require Import Coquelicot.
From Verif Require Import Base BaseFacts M_Quat S_Quat P_Quat M_RFun S_RFun P_RFun1 P_Vec P_RFun2 M_Solid S_Solid P_Solid1 M_RBatch S_RBatch P_RBatch1.

Lemma Forall_iff {A} (P Q : A -> Prop) l : (forall a, In a l -> (P a <-> Q a)) -> (Forall P l <-> Forall Q l).
Proof. intros H. rewrite !Forall_forall. split; intros G a I; apply H; auto. Qed.
Lemma Exists_iff {A} (P Q : A -> Prop) l : (forall a, In a l -> (P a <-> Q a)) -> (Exists P l <-> Exists Q l).
Proof. intros H. rewrite !Exists_exists. split; intros (a & I & G); exists a; split; auto; apply (H a I); auto. Qed.

Lemma Forall_both {A} (P Q : A -> Prop) l : Forall P l /\ Forall Q l <-> Forall (fun a => P a /\ Q a) l.
Proof. rewrite !Forall_forall. firstorder. Qed.

(** *** Broadcasting over the rows *)
Lemma rbop_list f X n y : array2 n X -> length y = n -> rbop f X (A1 y) = Ok (mkB n (map (fun r => map2 f r y) (rows X))).
Proof.
  intros [C F] H. unfold rbop. rewrite C. simpl. rewrite bcast1_eq by (rewrite repeat_length; congruence). cbn [bind ravel].
  rewrite (sequence_map_ext _ (fun r => map2 f r y)).
  - cbn [bind]. rewrite map2_length, repeat_length, H, Nat.min_id. reflexivity.
  - intros r I. rewrite Forall_forall in F. simpl. rewrite bcast1_eq by (rewrite (F r I); congruence). reflexivity.
Qed.
Lemma rbop_scalar f X n y : array2 n X -> rbop f X (A0 y) = Ok (mkB n (map (map (fun x => f x y)) (rows X))).
Proof.
  intros [C F]. unfold rbop. rewrite C. simpl. rewrite (sequence_map_ext _ (map (fun x => f x y))).
  - cbn [bind]. rewrite map_length, repeat_length. reflexivity.
  - intros r I. reflexivity.
Qed.
Lemma rbopf_list X n a : array2 n X -> length a = n -> Forall (fun e => e <> 0) a ->
  rbopf fdiv X (A1 a) = Ok (mkB n (map (fun r => quot r a) (rows X))).
Proof.
  intros [C F] H N. unfold rbopf. rewrite C. cbn [bop]. rewrite bcast1_eq by (rewrite repeat_length; congruence). cbn [bind ravel].
  rewrite (sequence_map_ext _ (fun r => quot r a)).
  - cbn [bind]. rewrite map2_length, repeat_length, H, Nat.min_id. reflexivity.
  - intros r I. rewrite Forall_forall in F. rewrite bopf_fdiv; auto. rewrite (F r I). congruence.
Qed.
Lemma rbopf_scalar X n k : array2 n X -> k <> 0 ->
  rbopf fdiv X (A0 k) = Ok (mkB n (map (vscal (/ k)) (rows X))).
Proof.
  intros [C F] N. unfold rbopf. rewrite C. cbn [bop bind ravel].
  rewrite (sequence_map_ext _ (vscal (/ k))).
  - cbn [bind]. rewrite map_length, repeat_length. reflexivity.
  - intros r I. simpl. rewrite (sequence_map_ext _ (fun x => / k * x)); [reflexivity|].
    intros x _. unfold fdiv. destruct (Req_EM_T k 0); [contradiction|]. f_equal. unfold Rdiv. ring.
Qed.

(** the rows of the argument that the transformed ADF receives *)
Definition bback (m : move) (X : batch) : batch := mkB (cols X) (map (back m) (rows X)).
Lemma bmove_eval n m f : good_move n m -> shifting m -> exists g, bbuild_move m f = Ok g /\
  forall X, array2 n X -> g X = bind (f (bback m X)) (fun v => Ok (factor m * v)).
Proof.
  intros G S. destruct m; simpl in G, S; try tauto; cbn [bbuild_move factor].
  - eexists; split; [reflexivity|]. intros X A. rewrite <- bind_1. unfold btranslate.
    rewrite (rbop_list _ X n y A G). cbn [bind]. unfold bback. rewrite (proj1 A). reflexivity.
  - unfold bscale. cbn [ravel]. eexists; split; [reflexivity|]. intros X A. cbv beta.
    rewrite (rbopf_scalar X n k A ltac:(lra)). cbn [bind]. unfold bback. rewrite (proj1 A). cbn [back].
    destruct (f _) as [v|]; cbn [bind]; [|reflexivity]. f_equal. ring.
  - destruct G as [G1 G2]. eexists; split; [reflexivity|]. intros X A. rewrite <- bind_1. unfold bstretch. cbn [ravel].
    rewrite (rbopf_list X n axes A G1 G2). cbn [bind]. unfold bback. rewrite (proj1 A). reflexivity.
Qed.
Lemma bback_array2 n m X : good_move n m -> shifting m -> array2 n X -> array2 n (bback m X).
Proof.
  intros G S [C F]. split; [exact C|]. simpl. rewrite Forall_map. eapply Forall_impl; [|exact F].
  intros r H. rewrite (back_length n m r G H). destruct m; simpl in S; tauto.
Qed.
Lemma source_shift m n : shifting m -> source m n = n.
Proof. destruct m; simpl; tauto. Qed.
Lemma factor_pos m n : good_move n m -> 0 < factor m.
Proof. destruct m; simpl; lra. Qed.

(** *** Boxes *)
Lemma concat_lengths (l m : list (list R)) : Forall2 (fun a b => length a = length b) l m -> length (concat l) = length (concat m).
Proof. induction 1; simpl; auto. rewrite !app_length. congruence. Qed.

Lemma cuboid_rows s X n ub lb : sign_correct s -> array2 n X -> rows X <> [] -> (1 <= n)%nat -> length ub = n -> length lb = n ->
  exists L, interleave (concat (map (fun r => vsub ub r) (rows X))) (concat (map (fun r => vsub r lb) (rows X))) = Ok L /\
    decides (reduce (conj_ s) L) (Forall (strictly_inside lb ub) (rows X)) (Exists (fun r => ~ inside_closed lb ub r) (rows X)).
Proof.
  intros SC [_ F] NE Hn Hu Hl.
  assert (FL : Forall (fun r => length (vsub ub r) = n /\ length (vsub r lb) = n) (rows X)).
  { eapply Forall_impl; [|exact F]. intros r H. split; rewrite vsub_length; congruence. }
  destruct (interleave_ok (concat (map (fun r => vsub ub r) (rows X))) (concat (map (fun r => vsub r lb) (rows X))))
    as (L & E & HL & HF & HE).
  { apply concat_lengths. clear - FL. induction FL as [|r l [H1 H2] _ IH]; simpl; constructor; auto. congruence. }
  exists L. split; auto.
  assert (exists w ws, L = w :: ws) as (w & ws & ->).
  { destruct L; [|eauto]. destruct (rows X) as [|r l]; [congruence|]. apply Forall_cons_iff in FL as [[H1 _] _].
    simpl in HL. rewrite app_length, H1 in HL. lia. }
  cbn [reduce]. destruct (reduce_conj s w ws SC) as (v & Ev & P & N). exists v. split; [exact Ev|].
  assert (FP : 0 < v <-> Forall (fun a => 0 < a) (w :: ws)) by (rewrite P, Forall_cons_iff; tauto).
  assert (FN : v < 0 <-> Exists (fun a => a < 0) (w :: ws)) by (rewrite N, Exists_cons; tauto).
  rewrite FP, FN. rewrite HF, HE. rewrite !Forall_concat, !Exists_concat.
  rewrite !Forall_map, !Exists_map. split.
  - split.
    + intros [A B]. rewrite Forall_forall in *. intros r I. specialize (A r I). specialize (B r I). specialize (FL r I) as [L1 L2].
      rewrite Forall_nth_iff, L1 in A. rewrite Forall_nth_iff, L2 in B. specialize (F r I).
      split; [congruence|]. split; [congruence|]. intros i Hi. rewrite F in Hi. specialize (A i Hi). specialize (B i Hi).
      rewrite nth_vsub in A, B by congruence. lra.
    + intros A. rewrite !Forall_forall in *. split; intros r I; destruct (A r I) as (_ & _ & B); specialize (FL r I) as [L1 L2]; specialize (F r I);
        rewrite Forall_nth_iff; intros i Hi; rewrite ?L1, ?L2 in Hi; rewrite <- F in Hi; specialize (B i Hi);
        rewrite nth_vsub by congruence; lra.
  - split.
    + intros [A|A]; rewrite Exists_exists in *; destruct A as (r & I & A); exists r; split; auto;
        rewrite Forall_forall in *; specialize (FL r I) as [L1 L2]; specialize (F r I);
        rewrite Exists_exists in A; destruct A as (z & Iz & Nz); apply In_nth with (d := 0) in Iz as (i & Hi & <-);
        intros (_ & _ & B); rewrite ?L1, ?L2 in Hi; rewrite <- F in Hi; specialize (B i Hi);
        rewrite nth_vsub in Nz by congruence; lra.
    + intros A. rewrite Exists_exists in A. destruct A as (r & I & A).
      rewrite Forall_forall in *. specialize (FL r I) as [L1 L2]. specialize (F r I).
      apply Classical_Prop.NNPP. intros Q. apply A. split; [congruence|]. split; [congruence|]. intros i Hi.
      split; apply Rnot_lt_le; intros C; apply Q.
      * right. rewrite Exists_exists. exists r. split; auto. rewrite Exists_exists. exists (nth i (vsub r lb) 0).
        split; [apply nth_In; rewrite L2, <- F; auto|]. rewrite nth_vsub by congruence. lra.
      * left. rewrite Exists_exists. exists r. split; auto. rewrite Exists_exists. exists (nth i (vsub ub r) 0).
        split; [apply nth_In; rewrite L1, <- F; auto|]. rewrite nth_vsub by congruence. lra.
Qed.

Lemma map2_swap (f : R -> R -> R) l m : map2 (fun x u => f u x) l m = map2 f m l.
Proof. revert m; induction l; intros [|b m]; simpl; f_equal; auto. Qed.

Lemma bcuboid_decides e c s X n : sign_correct s -> array2 n X -> rows X <> [] -> (1 <= n)%nat -> length e = n ->
  decides (bcuboid (A1 e) c s X) (Forall (strictly_inside (lower e c) (upper e c)) (rows X))
    (Exists (fun r => ~ inside_closed (lower e c) (upper e c) r) (rows X)).
Proof.
  intros SC A NE Hn He.
  assert (Hu : length (upper e c) = n) by (unfold upper; rewrite map_length; auto).
  assert (Hl : length (lower e c) = n) by (unfold lower; rewrite map_length; auto).
  destruct (cuboid_rows s X n (upper e c) (lower e c) SC A NE Hn Hu Hl) as (L & E & D).
  assert (EU : (if c then amap (fun e => e / 2) (A1 e) else A1 e) = A1 (upper e c)).
  { destruct c; [reflexivity|]. rewrite upper_corner. reflexivity. }
  assert (EL : (if c then amap (fun e => - e / 2) (A1 e) else amap (fun _ => 0) (A1 e)) = A1 (lower e c)).
  { destruct c; [reflexivity|]. unfold lower. reflexivity. }
  unfold bcuboid. rewrite EU, EL. rewrite (rbop_list _ X n _ A Hu), (rbop_list _ X n _ A Hl). cbn [bind]. unfold bflat. cbn [rows].
  rewrite (map_ext _ (fun r => vsub (upper e c) r)) by (intros r; apply map2_swap).
  change (fun r => map2 Rminus r (lower e c)) with (fun r => vsub r (lower e c)).
  rewrite E. exact D.
Qed.
Lemma map2_repeat (f : R -> R -> R) e r n : length r = n -> map2 f r (repeat e n) = map (fun x => f x e) r.
Proof. intros <-. induction r; simpl; f_equal; auto. Qed.
Lemma bcube_cuboid e c s X n : array2 n X -> bcuboid (A0 e) c s X = bcuboid (A1 (repeat e n)) c s X.
Proof.
  intros A. pose proof A as [_ F]. unfold bcuboid. rewrite Forall_forall in F.
  assert (M : forall f : R -> R, map f (repeat e n) = repeat (f e) n) by (intros f; clear; induction n; simpl; f_equal; auto).
  assert (Q : forall f a, rbop f X (A0 a) = rbop f X (A1 (repeat a n))).
  { intros f a. rewrite (rbop_scalar f X n a A), (rbop_list f X n _ A (repeat_length _ _)). do 2 f_equal.
    apply map_ext_in. intros r I. symmetry. apply map2_repeat. auto. }
  destruct c; cbn [amap]; rewrite ?M, !Q; reflexivity.
Qed.

Lemma bcompose_conj s gs X vs : sign_correct s -> Forall2 (fun g v => g X = Ok v) gs vs -> gs <> [] ->
  decides (bcompose (conj_ s) gs X) (Forall (fun v => 0 < v) vs) (Exists (fun v => v < 0) vs).
Proof.
  intros SC H NE. unfold bcompose.
  assert (E : sequence (map (fun f => f X) gs) = Ok vs).
  { clear NE. induction H as [|g v gs vs Hg _ IH]; simpl; auto. rewrite Hg. simpl. rewrite IH. reflexivity. }
  rewrite E. cbn [bind]. destruct vs as [|v vs]; [inversion H; subst; congruence|]. cbn [reduce].
  destruct (reduce_conj s v vs SC) as (w & Ew & P & N). exists w. split; auto.
  rewrite P, N, Forall_cons_iff, Exists_cons. tauto.
Qed.

(** the value for all rows is positive iff they are all inside, negative iff one is outside *)
Definition box_signed user (t : solid) : Prop := forall n, good sign_correct n t -> exists g, bbuild user t = Ok g /\
  forall X, array2 n X -> rows X <> [] -> decides (g X) (Forall (inside t) (rows X)) (Exists (outside t) (rows X)).

Lemma boxes_signed user t : boxes t -> box_signed user t.
Proof.
  induction t using solid_rect'; intros B n G; cbn [boxes] in B; try tauto.
  - destruct p; try tauto; simpl in G; eexists; (split; [reflexivity|]); intros X A NE; cbn [bbuild_prim inside outside prim_inside prim_outside].
    + destruct G as (G1 & G2 & G3). apply (bcuboid_decides _ _ s X n); auto.
    + destruct G as (G2 & G3). rewrite (bcube_cuboid _ _ _ X n A).
      eapply decides_iff; [apply (bcuboid_decides _ _ s X n); auto; apply repeat_length| |];
        destruct A as [_ F]; rewrite Forall_forall in F; [apply Forall_iff|apply Exists_iff]; intros r I; rewrite (F r I); reflexivity.
  - destruct B as [S B]. destruct G as [G1 G2]. rewrite (source_shift m n S) in G2.
    destruct (IHt B n G2) as (f & Ef & Df). destruct (bmove_eval n m f G1 S) as (g & Eg & Vg). exists g. cbn [bbuild]. rewrite Ef.
    split; [exact Eg|]. intros X A NE. rewrite (Vg X A).
    destruct (Df (bback m X) (bback_array2 n m X G1 S A)) as (v & Ev & P & N).
    { simpl. destruct (rows X); [congruence|discriminate]. }
    rewrite Ev. cbn [bind]. eexists. split; [reflexivity|]. simpl in P, N. rewrite Forall_map in P. rewrite Exists_map in N.
    pose proof (factor_pos m n G1) as F. cbn [inside outside]. rewrite <- P, <- N.
    rewrite <- !sg_pos_iff, <- !sg_neg_iff. rewrite sg_mult_pos by auto. tauto.
  - destruct o; try tauto. destruct B as [B1 B2]. destruct G as (G0 & G1 & G2).
    destruct (IHt1 B1 n G1) as (f & Ef & Df). destruct (IHt2 B2 n G2) as (g & Eg & Dg).
    cbn [bbuild]. rewrite Ef, Eg. eexists. split; [reflexivity|]. intros X A NE.
    destruct (Df X A NE) as (a & Ea & Pa & Na). destruct (Dg X A NE) as (b & Eb & Pb & Nb).
    cbn [bbuild_op2]. unfold bpointwise. rewrite Ea, Eb. cbn [bind].
    destruct (conj_dec s G0 a b) as (c & Ec & Pc & Nc). exists c. split; auto.
    cbn [inside outside op2_inside op2_outside]. rewrite Pc, Nc, Pa, Pb, Na, Nb, Forall_both. split; [reflexivity|].
    rewrite !Exists_exists. split.
    + intros [(r & I & O)|(r & I & O)]; exists r; auto.
    + intros (r & I & [O|O]); [left|right]; exists r; auto.
  - cbn [good] in G. rewrite fold_and in *. destruct G as (G0 & G1 & G2).
    assert (exists gs, sequence (map (bbuild user) l) = Ok gs /\ length gs = length l /\ forall X, array2 n X -> rows X <> [] ->
      exists vs, Forall2 (fun g v => g X = Ok v) gs vs /\
        (Forall (fun v => 0 < v) vs <-> Forall (fun t => Forall (inside t) (rows X)) l) /\
        (Exists (fun v => v < 0) vs <-> Exists (fun t => Exists (outside t) (rows X)) l)) as (gs & Es & Ls & Ds).
    { clear G1. induction H as [|t l Ht Hl IH].
      - exists []. split; auto. split; auto. intros X A NE. exists []. rewrite !Exists_nil. split; [constructor|]. split; [split; constructor|tauto].
      - apply Forall_cons_iff in B as [B1 B2]. apply Forall_cons_iff in G2 as [G1 G2].
        destruct (Ht B1 n G1) as (f & Ef & Df). destruct (IH B2 G2) as (gs & Es & Ls & Ds).
        exists (f :: gs). simpl. rewrite Ef. cbn [bind]. rewrite Es. split; auto. split; [simpl; congruence|]. intros X A NE.
        destruct (Df X A NE) as (v & Ev & P & N). destruct (Ds X A NE) as (vs & Fv & Ps & Ns).
        exists (v :: vs). split; [constructor; auto|]. rewrite !Forall_cons_iff, !Exists_cons, P, N, Ps, Ns. split; reflexivity. }
    cbn [bbuild]. rewrite Es. eexists. split; [reflexivity|]. intros X A NE. destruct (Ds X A NE) as (vs & Fv & Ps & Ns).
    assert (NG : gs <> []) by (destruct gs, l; simpl in *; congruence).
    eapply decides_iff; [apply (bcompose_conj s gs X vs G0 Fv NG)| |].
    + rewrite Ps. cbn [inside]. rewrite !Forall_forall. split.
      * intros Q r I. rewrite fold_and, Forall_forall. intros t It. specialize (Q t It). rewrite Forall_forall in Q. auto.
      * intros Q t It. rewrite Forall_forall. intros r I. specialize (Q r I). rewrite fold_and, Forall_forall in Q. auto.
    + rewrite Ns. cbn [outside]. rewrite !Exists_exists. split.
      * intros (t & It & Q). rewrite Exists_exists in Q. destruct Q as (r & I & O). exists r. split; auto. rewrite fold_or, Exists_exists. eauto.
      * intros (r & I & O). rewrite fold_or, Exists_exists in O. destruct O as (t & It & O). exists t. split; auto. rewrite Exists_exists. eauto.
Qed.

(** *** Spheres, ellipsoids, unions: a positive value means that all rows are inside *)
Lemma sumsq_app l m : sumsq (l ++ m) = sumsq l + sumsq m.
Proof. induction l; simpl; [unfold sumsq at 2; simpl; ring|]. rewrite !sumsq_cons, IHl. ring. Qed.
Lemma sumsq_rows (l : list (list R)) r : In r l -> sumsq r <= sumsq (concat l).
Proof.
  induction l as [|a l IH]; [intros []|]. simpl. rewrite sumsq_app. intros [->|I].
  - pose proof (sumsq_nonneg (concat l)). lra.
  - pose proof (sumsq_nonneg a). specialize (IH I). lra.
Qed.
Lemma bsphere_value r X : 0 < r -> bsphere r X = Ok ((r ^ 2 - sumsq (bflat X)) / (2 * r)).
Proof. intros H. pose proof (sphere_value r (bflat X) H) as E. exact E. Qed.
Lemma bsphere_pos r X v : 0 < r -> bsphere r X = Ok v -> 0 < v -> Forall (fun x => normR x < r) (rows X).
Proof.
  intros H E P. rewrite bsphere_value in E by auto. injection E as <-.
  assert (P' : 0 < r ^ 2 - sumsq (bflat X)) by (refine (proj1 (proj1 (sign_quot _ (2 * r) _)) P); lra). clear P.
  rewrite Forall_forall. intros x I.
  apply (proj1 (norm_lt_iff x r H)). pose proof (sumsq_rows _ _ I) as Q. unfold bflat in P'. lra.
Qed.

Definition pos_inside user (t : solid) : Prop := forall n g, good sign_correct n t -> bbuild user t = Ok g ->
  forall X v, array2 n X -> g X = Ok v -> 0 < v -> Forall (inside t) (rows X).

Lemma no_rows_cuboid e c s X : rows X = [] -> forall v, bcuboid e c s X <> Ok v.
Proof.
  intros H v E. unfold bcuboid, rbop in E. rewrite H in E. cbn [map sequence] in E.
  apply bind_ok in E as (a & Ea & E). apply bind_ok in Ea as (? & _ & Ea). injection Ea as <-.
  apply bind_ok in E as (b & Eb & E). apply bind_ok in Eb as (? & _ & Eb). injection Eb as <-.
  simpl in E. discriminate.
Qed.

Lemma positive_inside user t : positive_form t -> pos_inside user t.
Proof.
  induction t using solid_rect'; intros B n g G Bg X v A E P; cbn [positive_form] in B; try tauto.
  - destruct (rows X) as [|r0 l0] eqn:ER; [constructor|]. rewrite <- ER.
    assert (NE : rows X <> []) by congruence. clear ER.
    destruct p; try tauto; simpl in G; cbn [bbuild bbuild_prim] in Bg; injection Bg as <-; cbn [inside prim_inside].
    + destruct G as (G1 & G2 & G3). destruct (bcuboid_decides edge_lengths centering s X n G3 A NE G2 G1) as (w & Ew & Pw & _).
      apply Pw. congruence.
    + destruct G as (G2 & G3). rewrite (bcube_cuboid _ _ _ X n A) in E.
      destruct (bcuboid_decides (repeat edge_length n) centering s X n G3 A NE G2 (repeat_length _ _)) as (w & Ew & Pw & _).
      assert (Q : 0 < w) by congruence. apply Pw in Q. destruct A as [_ F]. rewrite Forall_forall in *. intros r I. rewrite (F r I). auto.
    + exact (bsphere_pos r X v G E P).
    + destruct G as [G1 G2]. unfold bellipsoid in E. apply bind_ok in E as (y & Ey & E).
      apply bind_ok in E as (dy & _ & E). apply bind_ok in E as (z & Ez & E).
      assert (Y : 0 < y).
      { unfold fsqrt in Ez. destruct (Rlt_dec _ 0); [discriminate|]. injection Ez as <-.
        unfold fdiv in E. destruct (Req_EM_T _ 0) as [|NZ]; [discriminate|]. injection E as <-.
        set (q := sqrt _) in *. assert (0 <= q) by apply sqrt_pos.
        assert (Q : 0 < q) by lra. exact (proj1 (proj1 (sign_quot y q Q)) P). }
      unfold bstretch in Ey. cbn [ravel] in Ey.
      assert (NZ : Forall (fun e => e <> 0) axes) by (eapply Forall_impl; [|exact G2]; simpl; intros; lra).
      rewrite (rbopf_list X n axes A G1 NZ) in Ey. cbn [bind] in Ey.
      rewrite bsphere_value in Ey by lra. injection Ey as <-. unfold bflat in Y. cbn [rows] in Y.
      rewrite Forall_forall. intros r I.
      pose proof (sumsq_rows _ _ (in_map (fun r => quot r axes) (rows X) r I)) as Q. cbv beta in Q. lra.
  - destruct B as [S B]. destruct G as [G1 G2]. rewrite (source_shift m n S) in G2. cbn [bbuild] in Bg.
    apply bind_ok in Bg as (f & Bf & Bg). destruct (bmove_eval n m f G1 S) as (g' & Eg & Vg).
    rewrite Eg in Bg. injection Bg as <-. rewrite (Vg X A) in E. apply bind_ok in E as (w & Ew & E). injection E as <-.
    pose proof (factor_pos m n G1) as F.
    assert (W : 0 < w) by (apply (Rmult_lt_reg_l (factor m)); [auto|]; rewrite Rmult_0_r; auto).
    pose proof (IHt B n f G2 Bf (bback m X) w (bback_array2 n m X G1 S A) Ew W) as Q.
    simpl in Q. rewrite Forall_map in Q. exact Q.
  - destruct G as (G0 & G1 & G2). cbn [bbuild] in Bg. apply bind_ok in Bg as (f1 & B1 & Bg). apply bind_ok in Bg as (f2 & B2 & Bg).
    injection Bg as <-. destruct o; try tauto; destruct B as [P1 P2]; cbn [bbuild_op2] in E; unfold bpointwise in E;
      apply bind_ok in E as (a & Ea & E); apply bind_ok in E as (b & Eb & E); cbn [inside op2_inside].
    + destruct (disj_dec s G0 a b) as (c & Ec & Pc & _). assert (Q : 0 < c) by congruence. apply Pc in Q as [Q|Q].
      * eapply Forall_impl; [|exact (IHt1 P1 n f1 G1 B1 X a A Ea Q)]. auto.
      * eapply Forall_impl; [|exact (IHt2 P2 n f2 G2 B2 X b A Eb Q)]. auto.
    + destruct (conj_dec s G0 a b) as (c & Ec & Pc & _). assert (Q : 0 < c) by congruence. apply Pc in Q as [Q1 Q2].
      apply Forall_both. split; [exact (IHt1 P1 n f1 G1 B1 X a A Ea Q1)|exact (IHt2 P2 n f2 G2 B2 X b A Eb Q2)].
  - cbn [good] in G. rewrite fold_and in *. destruct G as (G0 & G1 & G2). cbn [bbuild] in Bg.
    apply bind_ok in Bg as (gs & Bs & Bg). injection Bg as <-. unfold bcompose in E. apply bind_ok in E as (vs & Es & E).
    destruct vs as [|w ws]; [discriminate|]. cbn [reduce] in E. destruct (reduce_conj s w ws G0) as (z & Ez & Pz & _).
    assert (Q : 0 < z) by congruence. apply Pz in Q. rewrite <- Forall_cons_iff in Q.
    rewrite Forall_forall. intros r I. cbn [inside]. rewrite fold_and. clear - H B G2 Bs Es Q A I.
    remember (w :: ws) as vs eqn:Ev. clear Ev. revert gs vs Bs Es Q.
    induction H as [|t l Ht Hl IH]; intros gs vs Bs Es Q; [constructor|]. simpl in Bs.
    apply bind_ok in Bs as (f & Bf & Bs). apply bind_ok in Bs as (gs' & Bs' & Bs). injection Bs as <-.
    simpl in Es. apply bind_ok in Es as (u & Eu & Es). apply bind_ok in Es as (us & Eus & Es). injection Es as <-.
    apply Forall_cons_iff in B as [B1 B2]. apply Forall_cons_iff in G2 as [G1 G2]. apply Forall_cons_iff in Q as [Q1 Q2].
    constructor; [|eapply IH; eauto].
    pose proof (Ht B1 n f G1 Bf X u A Eu Q1) as W. rewrite Forall_forall in W. auto.
  - cbn [good] in G. rewrite fold_and in *. destruct G as (G0 & G1 & G2). cbn [bbuild] in Bg.
    apply bind_ok in Bg as (gs & Bs & Bg). injection Bg as <-. unfold bcompose in E. apply bind_ok in E as (vs & Es & E).
    destruct vs as [|w ws]; [discriminate|]. cbn [reduce] in E. destruct (reduce_disj s w ws G0) as (z & Ez & Pz & _).
    assert (Q0 : 0 < z) by congruence. apply Pz in Q0.
    assert (Q : Exists (fun v => 0 < v) (w :: ws)) by (rewrite Exists_cons; exact Q0). clear Q0.
    rewrite Forall_forall. intros r I. cbn [inside]. rewrite fold_or. clear - H B G2 Bs Es Q A I.
    remember (w :: ws) as vs eqn:Ev. clear Ev. revert gs vs Bs Es Q.
    induction H as [|t l Ht Hl IH]; intros gs vs Bs Es Q.
    { simpl in Bs. injection Bs as <-. simpl in Es. injection Es as <-. inversion Q. }
    simpl in Bs.
    apply bind_ok in Bs as (f & Bf & Bs). apply bind_ok in Bs as (gs' & Bs' & Bs). injection Bs as <-.
    simpl in Es. apply bind_ok in Es as (u & Eu & Es). apply bind_ok in Es as (us & Eus & Es). injection Es as <-.
    apply Forall_cons_iff in B as [B1 B2]. apply Forall_cons_iff in G2 as [G1 G2]. rewrite Exists_cons in Q.
    destruct Q as [Q|Q].
    + left. pose proof (Ht B1 n f G1 Bf X u A Eu Q) as W. rewrite Forall_forall in W. auto.
    + right. eapply IH; eauto.
Qed.

(** *** Reflections of several rows *)
Lemma breflect_shape_error user n v o a g X : length v = n -> length o = n -> (2 <= n)%nat -> array2 n X ->
  (2 <= length (rows X))%nat -> length (rows X) <> n -> dotR v v <> 0 -> forall m, m = Reflect v o \/ m = Project v o ->
  bbuild user (Move m a) = Ok g -> g X = Err TypeError.
Proof.
  intros Hv Ho Hn A H2 HN NZ m M B. pose proof A as [C F].
  assert (K : forall c f, btranslate (fun X => bind (balong_normal c X (A1 v)) f) (A1 o) X = Err TypeError).
  { intros c f. unfold btranslate. rewrite (rbop_list _ X n o A Ho). cbn [bind]. unfold balong_normal. cbn [cols rows].
    rewrite Hv, Nat.eqb_refl. cbn [bind].
    assert (AN : anorm (A1 v) ^ 2 <> 0).
    { unfold anorm. cbn [ravel]. rewrite normR_pow2, <- dotR_self. exact NZ. }
    rewrite (sequence_map_ext _ (fun e => c * e / anorm (A1 v) ^ 2)).
    2: { intros e _. unfold fdiv. destruct (Req_EM_T _ 0); [contradiction|reflexivity]. }
    cbn [bind]. set (k := map _ _). assert (Lk : length k = length (rows X)) by (unfold k; rewrite !map_length; reflexivity).
    clearbody k. simpl. unfold bcast1. destruct (Nat.eqb_spec (length k) (length v)); [congruence|].
    destruct k as [|k1 [|k2 k]]; simpl in Lk; try lia. destruct v as [|v1 [|v2 v]]; simpl in Hv; try lia. reflexivity. }
  cbn [bbuild] in B. apply bind_ok in B as (f & _ & B). destruct M as [-> | ->]; cbn [bbuild_move] in B; injection B as <-; apply K.
Qed.
