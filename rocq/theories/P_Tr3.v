(** steihaug: region, model decrease. *)
From Verif Require Import Base BaseFacts S_RFun P_Vec M_Tree M_XR M_Tr S_Tr S_Ode P_Tree P_Tr1 P_Tr2.

Lemma while_inv {A} (P : A -> Prop) cond body : (forall s, P s -> cond s = true -> P (body s)) ->
  forall n s, P s -> P (while_loop n cond body s).
Proof. intros HP. induction n as [|n IH]; intros s Hs; simpl; auto. destruct (cond s) eqn:E; auto. Qed.
Lemma while_iter cond body (HB : forall s, s_iter (body s) = (s_iter s + 1)%nat) :
  forall n s, (s_iter (while_loop n cond body s) <= s_iter s + n)%nat /\
    (cond (while_loop n cond body s) = true -> s_iter (while_loop n cond body s) = s_iter s + n)%nat.
Proof.
  induction n as [|n IH]; intros s; simpl; [split; [lia|lia]|]. destruct (cond s) eqn:E.
  - destruct (IH (body s)) as [I1 I2]. rewrite HB in I1, I2. split; [lia|]. intros HC. rewrite (I2 HC). lia.
  - split; [lia|]. congruence.
Qed.
Lemma while_first {A} n (cond : A -> bool) body s : cond s = true -> while_loop (S n) cond body s = while_loop n cond body (body s).
Proof. intros E. simpl. rewrite E. auto. Qed.
Lemma entry_axpy z a d i j : shape z = shape d -> entry (taxpy z a d) i j = entry z i j + a * entry d i j.
Proof. intros H. unfold taxpy. apply (entry_map2 (fun u v => u + a * v)); auto. ring. Qed.

(** *** the invariant of the loop inside the region *)
Definition cg_inv (sh : list nat) (D : R) (s : cg_state) (z d r : tree) : Prop :=
  (s_z s = fin z /\ s_d s = fin d /\ s_r s = fin r) /\ (shape z = sh /\ shape d = sh /\ shape r = sh) /\
  tdot r d = - tdot r r /\ (s_norm_z s = Fin (tnorm z) /\ s_norm_r s = Fin (tnorm r)) /\ tnorm z < D /\
  (s_curv s = PInf \/ exists k, 0 < k /\ s_curv s = Fin k).
(** after a step to the boundary *)
Definition cg_term (sh : list nat) (D : R) (s : cg_state) (z : tree) : Prop :=
  s_z s = fin z /\ shape z = sh /\ tnorm z = D /\ orb (xleb (s_curv s) (Fin 0)) (xgeb (s_norm_z s) (Fin D)) = true.

Lemma tnorm_zero t : tnorm (tscal 0 t) = 0.
Proof. unfold tnorm. rewrite tdot_scal_l, Rmult_0_l. apply sqrt_0. Qed.
Lemma cg_inv_init g D : 0 < D -> cg_inv (shape g) D (cg_init (fin g)) (tscal 0 g) (tscal (-1) g) g.
Proof.
  intros HD. unfold cg_inv, cg_init. cbn [s_z s_d s_r s_norm_z s_norm_r s_curv]. rewrite xt_zeros_fin, xt_neg_fin, xt_norm_fin, !shape_scal, tnorm_zero.
  repeat split; auto. rewrite tdot_scal_r. ring.
Qed.
Lemma cg_inv_cond sh D s z d r e : 0 < D -> cg_inv sh D s z d r -> cg_cond D (Fin e) s = Rleb e (tnorm r).
Proof.
  intros HD (_ & _ & _ & (N1 & N2) & Hz & HC). unfold cg_cond. rewrite N1, N2.
  assert (C1 : xleb (s_curv s) (Fin 0) = false).
  { destruct HC as [->|(k & Hk & ->)]; simpl; auto. unfold Rleb. destruct (Rle_dec k 0); [lra|auto]. }
  rewrite C1. simpl. unfold Rleb, Rltb. destruct (Rle_dec D (tnorm z)); [lra|]. simpl.
  destruct (Rlt_dec (tnorm r) e); destruct (Rle_dec e (tnorm r)); simpl; auto; lra.
Qed.
Lemma cg_term_cond sh D s z e : cg_term sh D s z -> cg_cond D e s = false.
Proof. intros (_ & _ & _ & H). unfold cg_cond. rewrite H. auto. Qed.

Lemma cg_inv_step sh D s z d r e hvp hd : 0 < D -> 0 < e -> cg_inv sh D s z d r -> cg_cond D (Fin e) s = true ->
  hvp (fin d) = fin hd -> shape hd = sh ->
  0 < tdot r r /\
  let kap := tdot d hd in let alpha := tdot r r / kap in let r' := taxpy r alpha hd in
  (0 < kap /\ cg_inv sh D (cg_step hvp D s) (taxpy z alpha d) (taxpy (tscal (-1) r') (tdot r' r' / tdot r r) d) r') \/
  ((kap <= 0 \/ 0 < kap /\ D <= tnorm (taxpy z alpha d)) /\ exists tau, 0 < tau /\ (0 < kap -> tau <= alpha) /\ cg_term sh D (cg_step hvp D s) (taxpy z tau d)).
Proof.
  intros HD He HI HC Eh Sh. pose proof HI as ((Ez & Ed & Er) & (Sz & Sd & Sr) & Hrd & (N1 & N2) & Hz & _).
  rewrite (cg_inv_cond sh D s z d r e HD HI) in HC. unfold Rleb in HC. destruct (Rle_dec e (tnorm r)) as [L|]; [|discriminate].
  assert (Hrr : 0 < tdot r r) by (rewrite <- tnorm_sq; nra). split; auto. intros kap alpha r'.
  assert (Sr' : shape r' = sh) by (unfold r'; rewrite taxpy_shape; congruence).
  destruct (cg_step_cases hvp D s z d r hd HD Ez Ed Er ltac:(congruence) ltac:(congruence) Eh ltac:(congruence) Hrd Hrr Hz) as [(K & Z & ST)|(K & tau & T1 & T2 & T3 & T4 & T5 & T6 & T7 & _)].
  - left. split; auto. fold kap alpha r' in ST, Z. rewrite ST. unfold cg_inv. cbn [s_z s_d s_r s_norm_z s_norm_r s_curv].
    split; [auto|]. split.
    { repeat split; auto; [rewrite taxpy_shape; congruence|]. rewrite taxpy_shape; rewrite shape_scal; congruence. }
    split.
    { assert (O : tdot r' d = 0).
      { unfold r'. rewrite tdot_axpy_l by congruence. rewrite Hrd, (tdot_comm hd d). unfold alpha. fold kap. fold kap in K. field. lra. }
      rewrite tdot_axpy_r by (rewrite shape_scal; congruence). rewrite tdot_scal_r, O. ring. }
    split; [auto|]. split; [auto|]. right. exists kap. auto.
  - right. split; [auto|]. exists tau. split; auto. split; auto. unfold cg_term. split; auto. split; [rewrite taxpy_shape; congruence|]. split; auto.
Qed.

(** *** C49 *)
Lemma cg_step_iter hvp D s : s_iter (cg_step hvp D s) = (s_iter s + 1)%nat. Proof. reflexivity. Qed.
Definition cg_loop (g : tree) hvp D e mi := while_loop (iter_limit g mi) (cg_cond D e) (cg_step hvp D) (cg_init (fin g)).
Lemma steihaug_unfold g hvp D e mi : let s := cg_loop g hvp D e mi in
  steihaug (fin g) hvp D e mi = mkCg (s_iter s) (negb (cg_cond D e s)) (xisclose (xt_norm (s_z s)) (Fin D)) (xt_norm (s_z s)) (s_curv s) (s_z s) e (s_norm_r s).
Proof. unfold steihaug, cg_loop, iter_limit. destruct mi; [|rewrite xt_size_fin]; reflexivity. Qed.

Lemma cg_loop_region g hvp D e mi : 0 < D -> 0 < e -> finite_op hvp (shape g) ->
  let s := cg_loop g hvp D (Fin e) mi in
  (exists z d r, cg_inv (shape g) D s z d r) \/ (exists z, cg_term (shape g) D s z).
Proof.
  intros HD He HF s. unfold s, cg_loop. apply (while_inv (fun s => (exists z d r, cg_inv (shape g) D s z d r) \/ (exists z, cg_term (shape g) D s z))).
  - clear s. intros s [(z & d & r & HI)|(z & HT)] HC.
    + pose proof HI as (_ & (_ & Sd & _) & _). destruct (HF d Sd) as (hd & Eh & Sh).
      destruct (cg_inv_step _ _ _ _ _ _ _ _ _ HD He HI HC Eh Sh) as (_ & [(_ & I)|(_ & tau & _ & _ & T)]); [left|right]; eauto.
    + rewrite (cg_term_cond _ _ _ _ _ HT) in HC. discriminate.
  - left. eauto using cg_inv_init.
Qed.
Lemma isclose_refl x : xisclose (Fin x) (Fin x) = true.
Proof.
  unfold xisclose. unfold Rleb. replace (x - x) with 0 by ring. rewrite Rabs_R0. pose proof (Rabs_pos x). destruct (Rle_dec _ _); auto. exfalso. lra.
Qed.
Lemma steihaug_region_lemma g hvp D e mi : 0 < D -> 0 < e -> finite_op hvp (shape g) ->
  let res := steihaug (fin g) hvp D (Fin e) mi in
  exists p, cg_p res = fin p /\ shape p = shape g /\ cg_step_length res = Fin (tnorm p) /\ tnorm p <= D /\
    (xleb (cg_curvature res) (Fin 0) = true -> tnorm p = D) /\
    (cg_converged res = true -> xltb (cg_norm_r res) (Fin e) = false -> tnorm p = D) /\
    (tnorm p = D -> cg_limit_step res = true) /\
    (tnorm p < D -> exists n, cg_norm_r res = Fin n /\ 0 <= n /\ (cg_converged res = true -> n < e)) /\
    cg_eps res = Fin e.
Proof.
  intros HD He HF res. unfold res. rewrite steihaug_unfold. cbn [cg_p cg_step_length cg_curvature cg_converged cg_norm_r cg_limit_step cg_eps].
  destruct (cg_loop_region g hvp D e mi HD He HF) as [(z & d & r & HI)|(z & HT)]; exists z.
  - pose proof HI as ((Ez & _) & (Sz & _) & _ & (N1 & N2) & Hz & HC). rewrite Ez, N2, (cg_inv_cond _ _ _ _ _ _ _ HD HI), xt_norm_fin.
    split; [auto|]. split; [auto|]. split; [auto|]. split; [lra|]. split.
    { destruct HC as [->|(k & Hk & ->)]; simpl; [discriminate|]. unfold Rleb. destruct (Rle_dec k 0); [lra|discriminate]. }
    split.
    { simpl. unfold Rleb, Rltb. destruct (Rle_dec e (tnorm r)); simpl; [discriminate|]. destruct (Rlt_dec (tnorm r) e); [discriminate|lra]. }
    split; [intros E; lra|]. split; [|auto]. intros _. exists (tnorm r). split; auto. split; [apply tnorm_nonneg|].
    unfold Rleb. destruct (Rle_dec e (tnorm r)); simpl; [discriminate|lra].
  - pose proof HT as (Ez & Sz & Hz & _). rewrite Ez, xt_norm_fin, Hz. repeat split; auto; try lra. intros _. apply isclose_refl.
Qed.
Lemma steihaug_iter_lemma g hvp D e mi : let res := steihaug (fin g) hvp D e mi in
  (cg_iter res <= iter_limit g mi)%nat /\ (cg_converged res = false -> cg_iter res = iter_limit g mi).
Proof.
  intros res. unfold res. rewrite steihaug_unfold. cbn [cg_iter cg_converged].
  destruct (while_iter (cg_cond D e) (cg_step hvp D) (cg_step_iter hvp D) (iter_limit g mi) (cg_init (fin g))) as [I1 I2].
  fold (cg_loop g hvp D e mi) in I1, I2. split; [exact I1|]. intros H. apply I2. apply Bool.negb_false_iff in H. auto.
Qed.

(** *** C50 *)
Lemma quad_model_axpy g h sh z t d : linear_op h sh -> symmetric_op h sh -> (forall u, shape u = sh -> shape (h u) = sh) ->
  shape g = sh -> shape z = sh -> shape d = sh ->
  quad_model g h (taxpy z t d) = quad_model g h z + t * tdot (taxpy g 1 (h z)) d + t * t * tdot d (h d) / 2.
Proof.
  intros HL HS Hs Sg Sz Sd. unfold quad_model. rewrite HL by auto.
  repeat (rewrite tdot_axpy_r by (rewrite ?Hs; congruence)). repeat (rewrite tdot_axpy_l by (rewrite ?Hs; congruence)).
  repeat (rewrite tdot_axpy_r by (rewrite ?Hs; congruence)). rewrite (tdot_comm d (h z)), (HS z d) by auto. field.
Qed.
Lemma op_zero h g : linear_op h (shape g) -> (forall u, shape u = shape g -> shape (h u) = shape g) -> h (tscal 0 g) = tscal 0 g.
Proof.
  intros HL Hs. assert (E : tscal 0 g = taxpy g (-1) g).
  { apply tree_ext; [rewrite taxpy_shape, shape_scal; auto|]. intros i j. rewrite entry_axpy, entry_scal by auto. ring. }
  rewrite E at 1. rewrite HL by auto. apply tree_ext; [rewrite taxpy_shape, shape_scal; auto|]. intros i j. rewrite entry_axpy, entry_scal by auto. ring.
Qed.
(** negative model value and at least as good as every steepest descent step in the region *)
Definition cauchy_good (g : tree) (h : tree -> tree) (D : R) (z : tree) : Prop :=
  quad_model g h z < 0 /\ forall t, 0 <= t -> t * tnorm g <= D -> quad_model g h z <= quad_model g h (tscal (- t) g).
Lemma cauchy_good_le g h D z z' : cauchy_good g h D z -> quad_model g h z' <= quad_model g h z -> cauchy_good g h D z'.
Proof. intros [H1 H2] HL. split; [lra|]. intros t T1 T2. specialize (H2 t T1 T2). lra. Qed.

(** one-dimensional facts about  - t a + t^2 k / 2 *)
Lemma phi_decr a k t : 0 < a -> 0 < t -> (0 < k -> t <= a / k) -> - t * a + t * t * k / 2 <= - t * a / 2.
Proof.
  intros Ha Ht Hk. destruct (Rle_dec k 0) as [N|N].
  - assert (t * t * k <= 0) by (assert (0 < t * t) by nra; nra). nra.
  - assert (t * k <= a). { assert (t <= a / k) by (apply Hk; lra). apply (Rmult_le_compat_r k) in H; [|lra]. replace (a / k * k) with a in H by (field; lra). lra. }
    assert (t * (t * k) <= t * a) by (apply Rmult_le_compat_l; lra). lra.
Qed.
Lemma phi_boundary a k t u : 0 < a -> 0 < t -> (0 < k -> t <= a / k) -> 0 <= u <= t -> - t * a + t * t * k / 2 <= - u * a + u * u * k / 2.
Proof.
  intros Ha Ht Hk Hu. assert (H : 0 <= (t - u) * (a - (t + u) * k / 2)).
  { apply Rmult_le_pos; [lra|]. destruct (Rle_dec k 0) as [N|N]; [nra|].
    assert (t * k <= a). { assert (t <= a / k) by (apply Hk; lra). apply (Rmult_le_compat_r k) in H; [|lra]. replace (a / k * k) with a in H by (field; lra). lra. }
    assert (u * k <= t * k) by (apply Rmult_le_compat_r; lra). lra. }
  nra.
Qed.
Lemma phi_min a k u : 0 < k -> - (a / k) * a + (a / k) * (a / k) * k / 2 <= - u * a + u * u * k / 2.
Proof.
  intros Hk. assert (0 <= k * (u - a / k) * (u - a / k) / 2) by (rewrite Rmult_assoc; pose proof (Rle_0_sqr (u - a / k)) as Q; unfold Rsqr in Q; pose proof (Rmult_le_pos k _ ltac:(lra) Q); lra).
  replace (- u * a + u * u * k / 2) with (- (a / k) * a + (a / k) * (a / k) * k / 2 + k * (u - a / k) * (u - a / k) / 2) by (field; lra). lra.
Qed.

Section Decrease.
  Variables (g : tree) (hvp : xtree -> xtree) (h : tree -> tree) (D e : R).
  Hypotheses (HD : 0 < D) (He : 0 < e) (Hc : computes hvp h (shape g)) (HL : linear_op h (shape g)) (HS : symmetric_op h (shape g)).
  Let sh := shape g.
  Let Hs : forall u, shape u = sh -> shape (h u) = sh. Proof. intros u Hu. apply Hc. auto. Qed.
  (** state s inside the region: residual bookkeeping, model decrease *)
  Definition dec_inv (s : cg_state) : Prop :=
    (exists z d r, cg_inv sh D s z d r /\ r = taxpy g 1 (h z) /\
       ((s_iter s = 0%nat /\ z = tscal 0 g /\ d = tscal (-1) g) \/ cauchy_good g h D z)) \/
    (exists z, cg_term sh D s z /\ cauchy_good g h D z).
  Lemma dec_inv_init : dec_inv (cg_init (fin g)).
  Proof.
    left. exists (tscal 0 g), (tscal (-1) g), g. split; [apply cg_inv_init; auto|]. split; [|left; auto].
    rewrite (op_zero h g) by auto. apply tree_ext; [rewrite taxpy_shape; rewrite ?shape_scal; auto|].
    intros i j. rewrite entry_axpy, entry_scal by (rewrite shape_scal; auto). ring.
  Qed.
  Lemma model_step z d r t : shape z = sh -> shape d = sh -> r = taxpy g 1 (h z) -> tdot r d = - tdot r r ->
    quad_model g h (taxpy z t d) = quad_model g h z + (- t * tdot r r + t * t * tdot d (h d) / 2).
  Proof.
    intros Sz Sd Er Hrd. rewrite (quad_model_axpy g h sh z t d) by auto. rewrite <- Er, Hrd. lra.
  Qed.
  Lemma zero_axpy t : taxpy (tscal 0 g) t (tscal (-1) g) = tscal (- t) g.
  Proof.
    apply tree_ext; [rewrite taxpy_shape; rewrite ?shape_scal; auto|]. intros i j.
    rewrite entry_axpy, !entry_scal by (rewrite ?shape_scal; auto). ring.
  Qed.
  Lemma tnorm_neg_scal t : 0 <= t -> tnorm (tscal (- t) g) = t * tnorm g.
  Proof.
    intros Ht. unfold tnorm. rewrite tdot_scal_l, tdot_scal_r. replace (- t * (- t * tdot g g)) with ((t * t) * tdot g g) by ring.
    rewrite sqrt_mult_alt by nra. rewrite sqrt_square; auto.
  Qed.
  Lemma quad_model_zero : quad_model g h (tscal 0 g) = 0.
  Proof. unfold quad_model. rewrite tdot_scal_r, tdot_scal_l. lra. Qed.
  Lemma dec_inv_step s : dec_inv s -> cg_cond D (Fin e) s = true -> dec_inv (cg_step hvp D s).
  Proof.
    intros [(z & d & r & HI & Er & HG)|(z & HT & _)] HC; [|rewrite (cg_term_cond _ _ _ _ _ HT) in HC; discriminate].
    pose proof HI as (_ & (Sz & Sd & Sr) & Hrd & _ & Hz & _). destruct (Hc d Sd) as (Eh & Shd).
    destruct (cg_inv_step _ _ _ _ _ _ _ _ _ HD He HI HC Eh Shd) as (Hrr & Hcase).
    set (kap := tdot d (h d)) in *. set (alpha := tdot r r / kap) in *. cbv zeta in Hcase.
    assert (DEC : forall t, 0 < t -> (0 < kap -> t <= alpha) -> quad_model g h (taxpy z t d) < quad_model g h z).
    { intros t Ht Ha. rewrite (model_step z d r t) by auto. pose proof (phi_decr (tdot r r) kap t Hrr Ht Ha). fold kap. nra. }
    (* the Cauchy property of the first step *)
    assert (FIRST : forall t, 0 < t -> z = tscal 0 g -> d = tscal (-1) g -> (0 < kap -> t <= alpha) -> (kap <= 0 \/ t < alpha -> tnorm (taxpy z t d) = D) ->
       (0 < kap -> t = alpha \/ tnorm (taxpy z t d) = D) -> cauchy_good g h D (taxpy z t d)).
    { intros t Ht E1 E2 Ha HB1 HB. split.
      - specialize (DEC t Ht Ha). rewrite E1 in DEC at 2. rewrite quad_model_zero in DEC. auto.
      - intros u Hu HuD. rewrite <- zero_axpy, <- E1, <- E2. rewrite !(model_step z d r) by auto. fold kap. apply Rplus_le_compat_l.
        assert (BD : tnorm (taxpy z t d) = D -> u <= t).
        { rewrite E1, E2, zero_axpy, tnorm_neg_scal by lra. intros EB.
          destruct (Rle_dec u t); auto. exfalso. assert (0 < tnorm g). { destruct (Rle_dec (tnorm g) 0); [|lra]. exfalso. assert (t * tnorm g <= 0) by nra. lra. }
          assert (t * tnorm g < u * tnorm g) by (apply Rmult_lt_compat_r; lra). lra. }
        destruct (Rle_dec kap 0) as [N|N].
        + assert (u <= t) by (apply BD, HB1; auto). apply phi_boundary; auto.
        + destruct (HB ltac:(lra)) as [->|EB]; [apply phi_min; lra|]. apply phi_boundary; auto. }
    destruct Hcase as [(K & I)|(K & tau & Ht & Ha & T)].
    - left. eexists _, _, _. split; [exact I|]. split.
      { rewrite HL by auto. rewrite Er at 1. assert (Sg : shape g = sh) by reflexivity. pose proof (Hs z Sz) as Shz.
        assert (S1 : shape (taxpy g 1 (h z)) = sh) by (rewrite taxpy_shape; congruence).
        assert (S2 : shape (taxpy (h z) alpha (h d)) = sh) by (rewrite taxpy_shape; congruence). fold alpha. clearbody alpha. clear FIRST DEC I HI.
        apply tree_ext; [rewrite !taxpy_shape by congruence; congruence|].
        intros i j. rewrite !entry_axpy by congruence. ring. }
      right. assert (Ap : 0 < alpha) by (apply Rmult_lt_0_compat; auto; apply Rinv_0_lt_compat; auto).
      destruct HG as [(_ & E1 & E2)|HG].
      + fold alpha. apply FIRST; auto; [lra|]. intros [N|N]; lra.
      + apply (cauchy_good_le g h D z); auto. left. fold alpha. apply DEC; auto. lra.
    - right. exists (taxpy z tau d). split; auto. pose proof T as (_ & _ & TD & _).
      destruct HG as [(_ & E1 & E2)|HG].
      + apply FIRST; auto.
      + apply (cauchy_good_le g h D z); auto. left. apply DEC; auto.
  Qed.
  Lemma cg_loop_dec mi : dec_inv (cg_loop g hvp D (Fin e) mi).
  Proof. unfold cg_loop. apply while_inv; [apply dec_inv_step|apply dec_inv_init]. Qed.
End Decrease.

Lemma iter_mono cond body (HB : forall s, s_iter (body s) = (s_iter s + 1)%nat) : forall n s, (s_iter s <= s_iter (while_loop n cond body s))%nat.
Proof. induction n as [|n IH]; intros s; simpl; auto. destruct (cond s); auto. specialize (IH (body s)). rewrite HB in IH. lia. Qed.
Lemma cg_loop_started g hvp D e mi : 0 < D -> e <= tnorm g -> (1 <= iter_limit g mi)%nat -> (1 <= s_iter (cg_loop g hvp D (Fin e) mi))%nat.
Proof.
  intros HD He Hm. unfold cg_loop. destruct (iter_limit g mi) as [|n] eqn:E; [lia|]. rewrite while_first.
  - pose proof (iter_mono (cg_cond D (Fin e)) (cg_step hvp D) (cg_step_iter hvp D) n (cg_step hvp D (cg_init (fin g)))) as H.
    rewrite cg_step_iter in H. change (s_iter (cg_init (fin g))) with 0%nat in H. lia.
  - rewrite (cg_inv_cond _ _ _ _ _ _ _ HD (cg_inv_init g D HD)). unfold Rleb. destruct (Rle_dec e (tnorm g)); auto; lra.
Qed.
Lemma steihaug_decrease_lemma g hvp h D e mi : 0 < D -> 0 < e -> computes hvp h (shape g) -> linear_op h (shape g) -> symmetric_op h (shape g) ->
  e <= tnorm g -> (1 <= iter_limit g mi)%nat ->
  let res := steihaug (fin g) hvp D (Fin e) mi in
  exists p, cg_p res = fin p /\ shape p = shape g /\ quad_model g h p < 0 /\
    (forall t, 0 <= t -> t * tnorm g <= D -> quad_model g h p <= quad_model g h (tscal (- t) g)) /\
    (tnorm p < D -> cg_norm_r res = Fin (tnorm (taxpy g 1 (h p)))) /\
    (tnorm p < D -> cg_converged res = true -> tnorm (taxpy g 1 (h p)) < e).
Proof.
  intros HD He Hc HL HS Hg Hm res. unfold res. rewrite steihaug_unfold. cbn [cg_p cg_norm_r cg_converged].
  pose proof (cg_loop_started g hvp D e mi HD Hg Hm) as IT.
  destruct (cg_loop_dec g hvp h D e HD He Hc HL HS mi) as [(z & d & r & HI & Er & HG)|(z & HT & (HG1 & HG2))]; exists z.
  - destruct HG as [(E0 & _)|(G1 & G2)]; [lia|]. pose proof HI as ((Ez & _) & (Sz & _) & _ & (_ & N2) & _). 
    rewrite (cg_inv_cond _ _ _ _ _ _ _ HD HI), N2, Er. repeat split; auto. intros _. unfold Rleb.
    destruct (Rle_dec e _); simpl; [discriminate|lra].
  - pose proof HT as (Ez & Sz & Hz & _). repeat split; auto; intros; lra.
Qed.

Lemma steihaug_limit_lemma g hvp D e mi : 0 < D -> 0 < e -> finite_op hvp (shape g) ->
  let res := steihaug (fin g) hvp D (Fin e) mi in
  exists p, cg_p res = fin p /\ (cg_limit_step res = true <-> D - tnorm p <= 1 / 100000000 + D / 100000).
Proof.
  intros HD He HF res. destruct (steihaug_region_lemma g hvp D e mi HD He HF) as (p & Ep & _ & El & Lp & _). exists p.
  split; [exact Ep|]. fold res in El. assert (E : cg_limit_step res = xisclose (cg_step_length res) (Fin D)).
  { unfold res. rewrite steihaug_unfold. reflexivity. }
  rewrite E, El. unfold xisclose, Rleb. rewrite (Rabs_right D), Rabs_left1 by lra.
  destruct (Rle_dec _ _); split; intros; auto; try discriminate; lra.
Qed.
