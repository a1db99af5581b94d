(** Proofs about ADFs called with a 2-d array, part 1: one row, and rotations. *)
From Coquelicot Require Import Coquelicot.
From Verif Require Import Base BaseFacts M_Quat S_Quat P_Quat M_RFun S_RFun P_RFun1 P_Vec P_RFun2 M_Solid S_Solid P_Solid1 M_RBatch S_RBatch.

Lemma bcast1_shape {C D} (f : R -> R -> C) (g : R -> R -> D) l l' m : length l = length l' ->
  (exists c c', bcast1 f l m = Ok c /\ bcast1 g l' m = Ok c' /\ length c = length c') \/
  (bcast1 f l m = Err TypeError /\ bcast1 g l' m = Err TypeError).
Proof.
  intros H. unfold bcast1. rewrite <- H. destruct (Nat.eqb_spec (length l) (length m)) as [E|E].
  - left. do 2 eexists. split; [reflexivity|]. split; [reflexivity|].
    rewrite !map2_length. congruence.
  - destruct l as [|a [|b l]], l' as [|a' [|b' l']]; simpl in H; try lia;
      destruct m as [|c [|d m]]; try (right; split; reflexivity);
      left; do 2 eexists; (split; [reflexivity|]); (split; [reflexivity|]); simpl; rewrite ?map_length; lia.
Qed.

Lemma bop_shape f g l l' b : length l = length l' ->
  (exists c c', bop f (A1 l) b = Ok c /\ bop g (A1 l') b = Ok c' /\ length (ravel c) = length (ravel c')) \/
  (bop f (A1 l) b = Err TypeError /\ bop g (A1 l') b = Err TypeError).
Proof.
  intros H. destruct b as [y|m]; simpl.
  - left. do 2 eexists. split; [reflexivity|]. split; [reflexivity|]. simpl. rewrite !map_length. auto.
  - destruct (bcast1_shape f g l l' m H) as [(c & c' & E & E' & L)|[E E']]; rewrite E, E'.
    + left. exists (A1 c), (A1 c'). auto.
    + right. auto.
Qed.
Lemma bopf_shape f g l l' b : length l = length l' ->
  (exists c, bop g (A1 l') b = Ok c /\ forall d, bopf f (A1 l) b = Ok d -> length (ravel d) = length (ravel c)) \/
  (bopf f (A1 l) b = Err TypeError /\ bop g (A1 l') b = Err TypeError).
Proof.
  intros H. destruct b as [y|m]; simpl.
  - left. eexists. split; [reflexivity|]. simpl. intros d E.
    apply bind_ok in E as (r & Er & Ed). injection Ed as <-. apply sequence_length in Er.
    simpl. rewrite Er, !map_length. auto.
  - destruct (bcast1_shape f g l l' m H) as [(c & c' & E & E' & L)|[E E']]; rewrite E, E'.
    + left. exists (A1 c'). split; [reflexivity|]. simpl. intros d Ed.
      apply bind_ok in Ed as (r & Er & Ed). injection Ed as <-. apply sequence_length in Er. simpl. congruence.
    + right. auto.
Qed.

Lemma bind_bind {A B C} (r : res A) (k : A -> res B) (h : B -> res C) :
  bind (bind r k) h = bind r (fun a => bind (k a) h).
Proof. destruct r; reflexivity. Qed.

Lemma rbop_row f x b : rbop f (row x) b = bind (bop f (A1 x) b) (fun c => Ok (row (ravel c))).
Proof.
  unfold rbop, row. cbn [cols rows map sequence].
  destruct (bop_shape f f (repeat 0 (length x)) x b (repeat_length _ _)) as [(c & c' & E & E' & L)|[E E']];
    rewrite E, E'; cbn [bind]; [rewrite L|]; reflexivity.
Qed.
Lemma rbopf_row f x b : rbopf f (row x) b = bind (bopf f (A1 x) b) (fun c => Ok (row (ravel c))).
Proof.
  unfold rbopf, row. cbn [cols rows map sequence].
  destruct (bopf_shape f Rplus x (repeat 0 (length x)) b (eq_sym (repeat_length _ _))) as [(c & E & L)|[E E']].
  - rewrite E. cbn [bind]. destruct (bopf f (A1 x) b) as [d|e]; cbn [bind]; [|reflexivity].
    rewrite (L d eq_refl). reflexivity.
  - rewrite E, E'. reflexivity.
Qed.
Lemma bflat_row x : bflat (row x) = x.
Proof. apply app_nil_r. Qed.

(** *** One row *)
Lemma bop_list f l b c : bop f (A1 l) b = Ok c -> c = A1 (ravel c).
Proof.
  destruct b as [y|m]; simpl; intros H.
  - injection H as <-. reflexivity.
  - apply bind_ok in H as (r & _ & H). injection H as <-. reflexivity.
Qed.
Lemma bopf_list f l b c : bopf f (A1 l) b = Ok c -> c = A1 (ravel c).
Proof.
  destruct b as [y|m]; simpl; intros H.
  - apply bind_ok in H as (r & _ & H). injection H as <-. reflexivity.
  - apply bind_ok in H as (s & _ & H). apply bind_ok in H as (r & _ & H). injection H as <-. reflexivity.
Qed.
Lemma bop_swap f l b : bop (fun x u => f u x) (A1 l) b = bop f b (A1 l).
Proof.
  destruct b as [y|m]; simpl; auto.
  unfold bcast1. rewrite (Nat.eqb_sym (length m)). destruct (Nat.eqb_spec (length l) (length m)) as [E|E]; auto.
  - cbn [bind]. do 2 f_equal. clear E. revert m; induction l; intros [|z m]; simpl; f_equal; auto.
  - destruct l as [|a [|a' l]], m as [|c [|c' m]]; simpl in E; try lia; reflexivity.
Qed.

(** [g] on one row is [f] on the point *)
Definition same_on_rows (f : adf) (g : badf) : Prop := forall x, g (row x) = f (A1 x).

Lemma cuboid_row e c s : same_on_rows (cuboid e c s) (bcuboid e c s).
Proof.
  intros x. unfold bcuboid, cuboid, compose. cbn [map sequence].
  rewrite !rbop_row, bop_swap. rewrite !bind_bind.
  destruct (bop Rminus _ (A1 x)) as [a|]; cbn [bind]; [|reflexivity].
  destruct (bop Rminus (A1 x) _) as [b|]; cbn [bind]; [|reflexivity].
  rewrite !bflat_row. destruct (interleave _ _) as [L|]; cbn [bind ravel]; [|reflexivity].
  cbn [concat]. rewrite app_nil_r. reflexivity.
Qed.
Lemma sphere_row r : same_on_rows (sphere r) (bsphere r).
Proof. intros x. unfold bsphere, sphere, anorm. rewrite bflat_row. reflexivity. Qed.
Lemma translate_row f g y : same_on_rows f g -> same_on_rows (translate f y) (btranslate g y).
Proof.
  intros H x. unfold btranslate, translate. rewrite rbop_row.
  destruct (bop Rminus (A1 x) y) as [d|] eqn:E; cbn [bind]; [|reflexivity]. rewrite (bop_list _ _ _ _ E) at 2. apply H.
Qed.
Lemma stretch_row f g a : same_on_rows f g -> same_on_rows (scale_without_normalization f a) (bstretch g a).
Proof.
  intros H x. unfold bstretch, scale_without_normalization. rewrite rbopf_row.
  destruct (bopf fdiv (A1 x) _) as [d|] eqn:E; cbn [bind]; [|reflexivity]. rewrite (bopf_list _ _ _ _ E) at 2. apply H.
Qed.
Lemma along_row c x n : balong_normal c (row x) (A1 n) = bind (along_normal c (A1 x) (A1 n)) (fun y => Ok (row (ravel y))).
Proof.
  unfold balong_normal, along_normal, amatmul. cbn [row cols rows map].
  destruct (Nat.eqb (length x) (length n)); cbn [bind map sequence]; [|reflexivity].
  destruct (fdiv _ _) as [k|]; cbn [bind]; [|reflexivity].
  assert (E : bop Rmult (A1 [k]) (A1 n) = Ok (amap (fun e => k * e) (A1 n))).
  { simpl. unfold bcast1. destruct n as [|a [|b n]]; reflexivity. }
  rewrite E. cbn [bind]. fold (row x). rewrite rbop_row. reflexivity.
Qed.
Lemma reflect_row f g n o : same_on_rows f g -> same_on_rows (reflect f (A1 n) o) (breflect g (A1 n) o).
Proof.
  intros H. unfold reflect, breflect. apply translate_row. intros x. rewrite along_row.
  destruct (along_normal 2 (A1 x) (A1 n)) as [y|] eqn:E; cbn [bind]; [|reflexivity].
  assert (L : y = A1 (ravel y)).
  { unfold along_normal in E. apply bind_ok in E as (d & _ & E). apply bind_ok in E as (k & _ & E).
    exact (bop_list _ _ _ _ E). }
  rewrite L at 2. apply translate_row, H.
Qed.
Lemma project_row f g n o : same_on_rows f g -> same_on_rows (project f (A1 n) o) (bproject g (A1 n) o).
Proof.
  intros H. unfold project, bproject. apply translate_row. intros x. rewrite along_row.
  destruct (along_normal 1 (A1 x) (A1 n)) as [y|] eqn:E; cbn [bind]; [|reflexivity].
  assert (L : y = A1 (ravel y)).
  { unfold along_normal in E. apply bind_ok in E as (d & _ & E). apply bind_ok in E as (k & _ & E).
    exact (bop_list _ _ _ _ E). }
  rewrite L at 2. apply translate_row, H.
Qed.
Lemma ellipsoid_row a : same_on_rows (ellipsoid a) (bellipsoid a).
Proof.
  intros x. unfold bellipsoid, ellipsoid, normalize_1st_order.
  rewrite (stretch_row (sphere 1) (bsphere 1) a (sphere_row 1) x).
  destruct (scale_without_normalization (sphere 1) a (A1 x)) as [y|]; cbn [bind]; [|reflexivity].
  cbn [row cols rows length seq flat_map jacfwd]. rewrite app_nil_r.
  assert (E : forall j, bscaled_sphere_jvp a (row x) (bunit (row x) 0 j) = scaled_sphere_jvp a (A1 x) (A1 (basis (length x) j))).
  { intros j. unfold bscaled_sphere_jvp, scaled_sphere_jvp.
    assert (B : bunit (row x) 0 j = row (basis (length x) j)).
    { unfold bunit, row. cbn [cols rows length seq map]. rewrite Nat.eqb_refl, basis_length. reflexivity. }
    rewrite B, !rbopf_row.
    destruct (bopf fdiv (A1 x) _) as [u|] eqn:Eu; cbn [bind]; [|reflexivity].
    destruct (bopf fdiv (A1 (basis _ _)) _) as [du|] eqn:Ed; cbn [bind]; [|reflexivity].
    rewrite !bflat_row, <- (bopf_list _ _ _ _ Eu), <- (bopf_list _ _ _ _ Ed). reflexivity. }
  fold (row x). rewrite (map_ext _ _ E). destruct (sequence _) as [ds|]; reflexivity.
Qed.

Lemma compose_scalars func fs x : compose func (map scalar_adf fs) x =
  bind (sequence (map (fun f => f x) fs)) (fun vs => match vs with [] => Err ValueError | _ => reduce func vs end).
Proof.
  unfold compose. rewrite map_map.
  assert (E : sequence (map (fun f => bind (scalar_adf f x) (fun d => Ok (ravel d))) fs) =
    bind (sequence (map (fun f => f x) fs)) (fun vs => Ok (map (fun v => [v]) vs))).
  { induction fs as [|f fs IH]; [reflexivity|]. cbn [map sequence]. unfold scalar_adf at 1.
    destruct (f x) as [v|]; cbn [bind]; [|reflexivity]. rewrite IH.
    destruct (sequence (map (fun f => f x) fs)); reflexivity. }
  rewrite E. destruct (sequence (map (fun f => f x) fs)) as [vs|]; cbn [bind]; [|reflexivity].
  destruct vs as [|v vs]; [reflexivity|]. cbn [map].
  assert (C : concat ([v] :: map (fun v => [v]) vs) = v :: vs).
  { simpl. f_equal. clear E. induction vs as [|w vs IHv]; simpl; [reflexivity|]. f_equal. exact IHv. }
  rewrite C. reflexivity.
Qed.
Lemma compose_row func fs gs : Forall2 same_on_rows fs gs -> same_on_rows (compose func (map scalar_adf fs)) (bcompose func gs).
Proof.
  intros H x. rewrite compose_scalars. unfold bcompose.
  assert (E : map (fun g => g (row x)) gs = map (fun f => f (A1 x)) fs) by (induction H; simpl; f_equal; auto).
  rewrite E. reflexivity.
Qed.
Lemma pointwise_row op f f' g g' : same_on_rows f g -> same_on_rows f' g' ->
  same_on_rows (pointwise op f f') (bpointwise op g g').
Proof. intros H H' x. unfold pointwise, bpointwise. rewrite H, H'. reflexivity. Qed.

Section Rows.
Variable user : adf -> badf.
Hypothesis U : forall f, same_on_rows f (user f).

Lemma build_row t f : cylinder_free t -> ~ turns t -> build t = Ok f ->
  exists g, bbuild user t = Ok g /\ same_on_rows f g.
Proof.
  revert f. induction t using solid_rect'; intros f C T B; cbn [build bbuild] in *.
  - injection B as <-. eexists. split; [reflexivity|]. destruct p; simpl in C; try tauto; cbn [build_prim bbuild_prim].
    + apply cuboid_row.
    + apply cuboid_row.
    + apply sphere_row.
    + apply ellipsoid_row.
    + apply U.
  - apply bind_ok in B as (f0 & B0 & B). simpl in C, T.
    destruct (IHt f0 C ltac:(tauto) B0) as (g0 & E0 & S0). rewrite E0. cbn [bind].
    destruct m; simpl in T; try tauto; cbn [build_move bbuild_move] in *.
    + injection B as <-. eexists. split; [reflexivity|]. apply translate_row, S0.
    + unfold scale, bscale in *. cbn [ravel] in *. injection B as <-. eexists. split; [reflexivity|].
      intros x. rewrite rbopf_row. destruct (bopf fdiv (A1 x) (A0 k)) as [u|] eqn:Eu; cbn [bind]; [|reflexivity].
      rewrite (bopf_list _ _ _ _ Eu) at 2. rewrite S0. reflexivity.
    + injection B as <-. eexists. split; [reflexivity|]. apply stretch_row, S0.
    + injection B as <-. eexists. split; [reflexivity|]. apply reflect_row, S0.
    + injection B as <-. eexists. split; [reflexivity|]. apply project_row, S0.
  - apply bind_ok in B as (f0 & B0 & B). injection B as <-.
    destruct (IHt f0 C T B0) as (g0 & E0 & S0). rewrite E0. eexists. split; [reflexivity|].
    intros x. unfold bnegate, negate. rewrite S0. reflexivity.
  - apply bind_ok in B as (f1 & B1 & B). apply bind_ok in B as (f2 & B2 & B). injection B as <-.
    simpl in C, T. destruct C as [C1 C2].
    destruct (IHt1 f1 C1 ltac:(tauto) B1) as (g1 & E1 & S1). destruct (IHt2 f2 C2 ltac:(tauto) B2) as (g2 & E2 & S2).
    rewrite E1, E2. eexists. split; [reflexivity|]. destruct o; apply pointwise_row; auto.
  - apply bind_ok in B as (fs & Bs & B). injection B as <-. simpl in C, T. rewrite fold_and in C. rewrite fold_or in T.
    enough (exists gs, sequence (map (bbuild user) l) = Ok gs /\ Forall2 same_on_rows fs gs) as (gs & E & F).
    { rewrite E. eexists. split; [reflexivity|]. apply compose_row, F. }
    clear - H C T Bs. revert fs Bs. induction H as [|a l Ha Hl IH]; intros fs Bs; simpl in Bs.
    + injection Bs as <-. exists []. split; auto.
    + apply bind_ok in Bs as (f & Bf & Bs). apply bind_ok in Bs as (fs' & Bs' & Bs). injection Bs as <-.
      apply Forall_cons_iff in C as [C1 C2]. rewrite Exists_cons in T.
      destruct (Ha f C1 ltac:(tauto) Bf) as (g & Eg & Sg). destruct (IH C2 ltac:(tauto) fs' Bs') as (gs & Es & Ss).
      exists (g :: gs). simpl. rewrite Eg. cbn [bind]. rewrite Es. split; auto.
  - apply bind_ok in B as (fs & Bs & B). injection B as <-. simpl in C, T. rewrite fold_and in C. rewrite fold_or in T.
    enough (exists gs, sequence (map (bbuild user) l) = Ok gs /\ Forall2 same_on_rows fs gs) as (gs & E & F).
    { rewrite E. eexists. split; [reflexivity|]. apply compose_row, F. }
    clear - H C T Bs. revert fs Bs. induction H as [|a l Ha Hl IH]; intros fs Bs; simpl in Bs.
    + injection Bs as <-. exists []. split; auto.
    + apply bind_ok in Bs as (f & Bf & Bs). apply bind_ok in Bs as (fs' & Bs' & Bs). injection Bs as <-.
      apply Forall_cons_iff in C as [C1 C2]. rewrite Exists_cons in T.
      destruct (Ha f C1 ltac:(tauto) Bf) as (g & Eg & Sg). destruct (IH C2 ltac:(tauto) fs' Bs') as (gs & Es & Ss).
      exists (g :: gs). simpl. rewrite Eg. cbn [bind]. rewrite Es. split; auto.
Qed.
End Rows.

(** *** Rotations *)
Definition fails (g : badf) : Prop := forall X v, g X <> Ok v.
Lemma translate_fails g y : fails g -> fails (btranslate g y).
Proof. intros H X v E. unfold btranslate in E. apply bind_ok in E as (D & _ & E). exact (H D v E). Qed.
Lemma compose_fails func gs : Exists fails gs -> fails (bcompose func gs).
Proof.
  intros H X v E. unfold bcompose in E. apply bind_ok in E as (vs & Es & _). revert vs Es.
  induction H as [g gs Hg|g gs Hg IH]; intros vs Es; simpl in Es.
  - apply bind_ok in Es as (w & Ew & _). exact (Hg X w Ew).
  - apply bind_ok in Es as (w & Ew & Es). apply bind_ok in Es as (ws & Ews & Es). exact (IH ws Ews).
Qed.
Lemma pointwise_fails op f g : fails f \/ fails g -> fails (bpointwise op f g).
Proof.
  intros H X v E. unfold bpointwise in E. apply bind_ok in E as (a & Ea & E). apply bind_ok in E as (b & Eb & E).
  destruct H as [H|H]; [exact (H X a Ea)|exact (H X b Eb)].
Qed.
Lemma move_fails m f g : bbuild_move m f = Ok g -> turning m \/ fails f -> fails g.
Proof.
  intros B H. destruct m; cbn [bbuild_move turning] in *.
  - destruct H as [[]|H]. injection B as <-. apply translate_fails, H.
  - destruct H as [[]|H]. unfold bscale in B. simpl in B. injection B as <-. intros X v E.
    apply bind_ok in E as (U & _ & E). apply bind_ok in E as (w & Ew & E). exact (H U w Ew).
  - destruct H as [[]|H]. injection B as <-. intros X v E. unfold bstretch in E.
    apply bind_ok in E as (U & _ & E). exact (H U v E).
  - injection B as <-. apply translate_fails. intros X v E. discriminate.
  - unfold brotate3d in B. apply bind_ok in B as (q & _ & B). injection B as <-. apply translate_fails. intros X v E. discriminate.
  - unfold brotate3d in B. apply bind_ok in B as (q & _ & B). injection B as <-. apply translate_fails. intros X v E. discriminate.
  - destruct H as [[]|H]. injection B as <-. unfold breflect. apply translate_fails. intros X v E.
    apply bind_ok in E as (Y & _ & E). exact (translate_fails f _ H Y v E).
  - destruct H as [[]|H]. injection B as <-. unfold bproject. apply translate_fails. intros X v E.
    apply bind_ok in E as (Y & _ & E). exact (translate_fails f _ H Y v E).
  - injection B as <-. intros X v E. discriminate.
Qed.
Lemma turns_fails user t g : turns t -> bbuild user t = Ok g -> fails g.
Proof.
  revert g. induction t using solid_rect'; intros g T B; cbn [bbuild turns] in *.
  - tauto.
  - apply bind_ok in B as (f & Bf & B). apply (move_fails m f g B). destruct T; eauto.
  - apply bind_ok in B as (f & Bf & B). injection B as <-. intros X v E. unfold bnegate in E.
    apply bind_ok in E as (w & Ew & _). exact (IHt f T Bf X w Ew).
  - apply bind_ok in B as (f1 & B1 & B). apply bind_ok in B as (f2 & B2 & B). injection B as <-.
    destruct o; apply pointwise_fails; destruct T; eauto.
  - apply bind_ok in B as (gs & Bs & B). injection B as <-. apply compose_fails. rewrite fold_or in T.
    revert gs Bs. induction H as [|a l Ha Hl IH]; intros gs Bs; [inversion T|]. simpl in Bs.
    apply bind_ok in Bs as (f & Bf & Bs). apply bind_ok in Bs as (gs' & Bs' & Bs). injection Bs as <-.
    rewrite Exists_cons in T. destruct T as [T|T]; [left; eauto|right; eauto].
  - apply bind_ok in B as (gs & Bs & B). injection B as <-. apply compose_fails. rewrite fold_or in T.
    revert gs Bs. induction H as [|a l Ha Hl IH]; intros gs Bs; [inversion T|]. simpl in Bs.
    apply bind_ok in Bs as (f & Bf & Bs). apply bind_ok in Bs as (gs' & Bs' & Bs). injection Bs as <-.
    rewrite Exists_cons in T. destruct T as [T|T]; [left; eauto|right; eauto].
Qed.
