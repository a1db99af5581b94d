(** Proofs about boundary conditions on solids, part 2: transformations, primitives and programs. *)
From Coquelicot Require Import Coquelicot.
From Verif Require Import Base BaseFacts M_Quat S_Quat P_Quat M_RFun S_RFun P_RFun1 P_Vec P_RFun2 M_Solid S_Solid
  P_Solid1 P_Solid2 P_Solid3 P_Solid4 P_Solid5 S_SolidBC P_SolidC1.

(** *** Transformations other than revolutions transport gradients exactly *)
Definition rigid (m : move) : Prop := match m with Revolve _ => False | _ => True end.

Lemma exact_move n m g : good_move n m -> rigid m -> length g = n -> exists g', length g' = n /\
  forall x y, length x = n -> length y = n -> factor m * dotR g (vsub (back m y) (back m x)) = dotR g' (vsub y x).
Proof.
  intros G Rg Hg. destruct m; try (destruct Rg; fail); simpl in G; cbn [factor].
  - exists g. split; auto. intros x z Hx Hz. simpl. rewrite vsub_shift by congruence. ring.
  - exists g. split; auto. intros x z Hx Hz. simpl. rewrite vsub_vscal, dotR_vscal_r by congruence. field. lra.
  - destruct G as [G1 G2]. exists (quot g axes). split; [rewrite quot_length; congruence|]. intros x z Hx Hz. simpl.
    rewrite vsub_quot by congruence. rewrite Rmult_1_l. apply dot_quot; [congruence|]. rewrite vsub_length; congruence.
  - subst n. exists [nth 0 g 0 * cos angle - nth 1 g 0 * sin angle; nth 0 g 0 * sin angle + nth 1 g 0 * cos angle].
    split; [reflexivity|]. intros x z Hx Hz. rewrite (len2 g Hg) at 1. rewrite (len2 x Hx), (len2 z Hz).
    unfold dotR, sumR, vsub, ccw. simpl. rewrite cos_neg, sin_neg. ring.
  - destruct G as [-> U]. exists (list3 (unturn (Rotate3 angle n0 o) (three g))). split; [reflexivity|]. intros x z Hx Hz.
    rewrite !(back_turn (Rotate3 angle n0 o)).
    rewrite <- (list3_three g) at 1 by auto. rewrite dot_list3, shift3, turn_sub, unshift3, turn_adjoint.
    rewrite <- dot_list3, !list3_three by auto. ring.
  - subst n. exists (list3 (unturn (Euler a b c o) (three g))). split; [reflexivity|]. intros x z Hx Hz.
    rewrite !(back_turn (Euler a b c o)).
    rewrite <- (list3_three g) at 1 by auto. rewrite dot_list3, shift3, turn_sub, unshift3, turn_adjoint.
    rewrite <- dot_list3, !list3_three by auto. ring.
  - destruct G as (G1 & G2 & G3). exists (vsub g (vscal (2 * dotR g n0 / dotR n0 n0) n0)).
    split; [rewrite vsub_length; rewrite ?vscal_length; congruence|]. intros x z Hx Hz. simpl.
    assert (E : vsub (mirror_in n0 o z) (mirror_in n0 o x) = vsub (vsub z x) (vscal (2 * dotR (vsub z x) n0 / dotR n0 n0) n0)).
    { unfold mirror_in. apply vec_ext.
      - repeat (rewrite vsub_length; rewrite ?vscal_length; try congruence).
      - intros i Hi. repeat (rewrite nth_vsub; [|rewrite ?vsub_length; rewrite ?vscal_length; congruence]).
        rewrite !nth_vscal. rewrite !(dotR_vsub _ _ n0) by congruence. field. auto. }
    rewrite E. rewrite dotR_vsub_r by (rewrite vscal_length, vsub_length; congruence).
    rewrite dotR_vscal_r. rewrite (dotR_vsub g) by (rewrite vscal_length; congruence). rewrite dotR_vscal.
    rewrite (dotR_comm n0 (vsub z x)). field. auto.
  - destruct G as (G1 & G2 & G3). exists (vsub g (vscal (dotR g n0 / dotR n0 n0) n0)).
    split; [rewrite vsub_length; rewrite ?vscal_length; congruence|]. intros x z Hx Hz. simpl.
    assert (E : vsub (foot n0 o z) (foot n0 o x) = vsub (vsub z x) (vscal (dotR (vsub z x) n0 / dotR n0 n0) n0)).
    { unfold foot. apply vec_ext.
      - repeat (rewrite vsub_length; rewrite ?vscal_length; try congruence).
      - intros i Hi. repeat (rewrite nth_vsub; [|rewrite ?vsub_length; rewrite ?vscal_length; congruence]).
        rewrite !nth_vscal. rewrite !(dotR_vsub _ _ n0) by congruence. field. auto. }
    rewrite E. rewrite dotR_vsub_r by (rewrite vscal_length, vsub_length; congruence).
    rewrite dotR_vscal_r. rewrite (dotR_vsub g) by (rewrite vscal_length; congruence). rewrite dotR_vscal.
    rewrite (dotR_comm n0 (vsub z x)). field. auto.
Qed.

(** the transported gradient, by components *)
Definition pull (n : nat) (m : move) (g : list R) : list R :=
  map (fun i => factor m * dotR g (vsub (back m (basis n i)) (back m (repeat 0 n)))) (seq 0 n).
Lemma pull_nth n m g i : (i < n)%nat ->
  nth i (pull n m g) 0 = factor m * dotR g (vsub (back m (basis n i)) (back m (repeat 0 n))).
Proof.
  intros Hi. unfold pull.
  set (F := fun i => factor m * dotR g (vsub (back m (basis n i)) (back m (repeat 0 n)))).
  rewrite (nth_indep _ 0 (F 0%nat)) by (rewrite map_length, seq_length; auto). rewrite map_nth, seq_nth by auto. reflexivity.
Qed.
Lemma vsub_zeros v : vsub v (repeat 0 (length v)) = v.
Proof. apply vec_ext; rewrite ?vsub_length; rewrite ?repeat_length; auto. intros i _. rewrite nth_vsub by (rewrite repeat_length; auto). rewrite nth_repeat. ring. Qed.
Lemma pull_exact n m g : good_move n m -> rigid m -> length g = n -> length (pull n m g) = n /\
  forall x y, length x = n -> length y = n -> factor m * dotR g (vsub (back m y) (back m x)) = dotR (pull n m g) (vsub y x).
Proof.
  intros G Rg Hg. destruct (exact_move n m g G Rg Hg) as (g' & Lg & E).
  assert (Lp : length (pull n m g) = n) by (unfold pull; rewrite map_length, seq_length; auto).
  replace (pull n m g) with g'; [auto|]. apply vec_ext; [congruence|]. intros i Hi. rewrite Lg in Hi.
  rewrite pull_nth by auto. rewrite E by (rewrite ?basis_length, ?repeat_length; auto).
  replace (vsub (basis n i) (repeat 0 n)) with (basis n i).
  - rewrite dotR_comm. unfold basis. rewrite upd_unit; auto.
  - pose proof (vsub_zeros (basis n i)) as Z. rewrite basis_length in Z. auto.
Qed.

Lemma smooth_rigid n m f h x : good_move n m -> rigid m -> length x = n ->
  (forall y, length y = n -> h (A1 y) = bind (f (A1 (back m y))) (fun w => Ok (factor m * w))) ->
  smooth_near f (back m x) -> smooth_near h x.
Proof.
  intros G Rg Hx E. rewrite !smooth_near_nb. intros (g & N). exists (fun y => pull n m (g (back m y))).
  assert (Sm : source m n = n) by (destruct m; auto; destruct Rg).
  apply nb_nb in N. apply (nb_back n m x _ G Hx) in N.
  generalize (filter_and _ _ N (nb_len x)). apply filter_imp. clear N. cbv beta. intros y ((Lb & N) & Ly).
  assert (Hy : length y = n) by congruence.
  pose proof (nb_at _ _ N) as ((v & Gv) & C). split.
  - exists (factor m * v). destruct (pull_exact n m (g (back m y)) G Rg) as (Lp & Ep).
    { destruct Gv as (_ & L & _). rewrite L, (back_length n m); auto. }
    eapply grad_move; eauto. apply exact_transport. intros z Hz. apply Ep; auto.
  - intros i. destruct (Nat.lt_ge_cases i n) as [Hi|Hi].
    + set (w := vsub (back m (basis n i)) (back m (repeat 0 n))).
      apply (cont_ext_loc (fun z => factor m * dotR (g (back m z)) w)).
      { apply filter_forall. intros z. rewrite pull_nth by auto. reflexivity. }
      apply cont_mult; [apply cont_const|]. apply (cont_back n m (fun z => dotR (g z) w)); auto.
      apply cont_dot; auto. eapply filter_imp; [|exact (filter_and _ _ N (nb_len _))]. cbv beta.
      intros z (((v' & (_ & L & _)) & _) & Lz). rewrite L, Lz. unfold w.
      rewrite vsub_length; rewrite !(back_length n m); rewrite ?basis_length, ?repeat_length; auto.
    + apply (cont_ext_loc (fun _ => 0)); [|apply cont_const]. apply filter_forall. intros z. symmetry.
      apply nth_overflow. unfold pull. rewrite map_length, seq_length. auto.
Qed.

(** *** Revolutions *)
Definition spin (sel : bool) (y g : list R) : list R :=
  let a := if sel then nth 0 y 0 else nth 1 y 0 in
  let r := sqrt (a ^ 2 + nth 2 y 0 ^ 2) in
  if sel then [nth 0 g 0 * (a / r); nth 1 g 0; nth 0 g 0 * (nth 2 y 0 / r)]
  else [nth 0 g 0; nth 1 g 0 * (a / r); nth 1 g 0 * (nth 2 y 0 / r)].

Lemma spin_transport (sel : bool) x g : length x = 3%nat -> length g = 2%nat -> off_axis (Revolve sel) x ->
  forall e, 0 < e -> exists d, 0 < d /\ forall y, length y = 3%nat -> edist y x < d ->
     Rabs (1 * dotR g (vsub (back (Revolve sel) y) (back (Revolve sel) x)) - dotR (spin sel x g) (vsub y x)) <= e * edist y x.
Proof.
  intros Hx Hg. rewrite (len2 g Hg). set (p := nth 0 g 0). set (q := nth 1 g 0). clearbody p q. clear g Hg.
  destruct x as [|x0 [|x1 [|x2 [|x3 x]]]]; simpl in Hx; try lia. clear Hx. simpl off_axis.
  set (a := if sel then x0 else x1). intros K.
  assert (P : 0 < a ^ 2 + x2 ^ 2) by (unfold a; destruct sel; simpl in *; lra).
  set (r := sqrt (a ^ 2 + x2 ^ 2)). assert (Pr : 0 < r) by (apply sqrt_lt_R0; auto).
  set (k := if sel then p else q).
  intros e He. set (d := Rmin r (e * (2 * r) / (Rabs k + 1))).
  pose proof (Rabs_pos k) as Pk.
  assert (Hd : 0 < d) by (apply Rmin_pos; auto; apply Rdiv_lt_0_compat; [nra|lra]).
  exists d. split; auto. intros y Hy L.
  destruct y as [|y0 [|y1 [|y2 [|y3 y]]]]; simpl in Hy; try lia. clear Hy.
  set (u := (if sel then y0 else y1) - a). set (v := y2 - x2).
  set (D := edist [y0; y1; y2] [x0; x1; x2]) in *. pose proof (edist_nonneg [y0; y1; y2] [x0; x1; x2]) as PD. fold D in PD.
  assert (UV : u * u + v * v <= D * D).
  { unfold D. rewrite edist_sq. unfold vsub, u, v, a. simpl. rewrite !sumsq_cons. change (sumsq []) with 0.
    pose proof (sq_nonneg (y0 - x0)). pose proof (sq_nonneg (y1 - x1)). destruct sel; lra. }
  assert (Dr : D < r) by (eapply Rlt_le_trans; [exact L|apply Rmin_l]).
  assert (De : D < e * (2 * r) / (Rabs k + 1)) by (eapply Rlt_le_trans; [exact L|apply Rmin_r]).
  pose proof (axis_distance a x2 u v P ltac:(fold r; nra)) as B. fold r in B.
  match goal with |- Rabs ?z <= _ =>
    replace z with (k * (sqrt ((a + u) ^ 2 + (x2 + v) ^ 2) - r - (a / r * u + x2 / r * v))) end.
  2: { unfold u, v, k, r, a. destruct sel; unfold spin, dotR, sumR, vsub; cbn [back map2 map fold_right nth];
       [replace (x0 + (y0 - x0)) with y0 by ring|replace (x1 + (y1 - x1)) with y1 by ring];
       replace (x2 + (y2 - x2)) with y2 by ring; ring. }
  rewrite Rabs_mult. apply Rle_trans with (Rabs k * (D * D / (2 * r))).
  - apply Rmult_le_compat_l; auto. eapply Rle_trans; [exact B|].
    apply Rmult_le_compat_r; [left; apply Rinv_0_lt_compat; lra|auto].
  - assert ((Rabs k + 1) * D <= e * (2 * r)).
    { replace (e * (2 * r)) with ((Rabs k + 1) * (e * (2 * r) / (Rabs k + 1))) by (field; lra).
      apply Rmult_le_compat_l; lra. }
    apply Rmult_le_reg_r with (2 * r); [lra|].
    replace (Rabs k * (D * D / (2 * r)) * (2 * r)) with (Rabs k * D * D) by (field; lra). nra.
Qed.

Lemma cont_radius i x : 0 < nth i x 0 ^ 2 + nth 2 x 0 ^ 2 -> cont_fun (fun y => / sqrt (nth i y 0 ^ 2 + nth 2 y 0 ^ 2)) x.
Proof.
  intros P. apply (cont_1 (fun z => / sqrt z) (fun y => nth i y 0 ^ 2 + nth 2 y 0 ^ 2)).
  - apply continuity_pt_inv; [apply continuity_pt_sqrt; lra|]. apply Rgt_not_eq, sqrt_lt_R0. auto.
  - apply (cont_plus (fun y => nth i y 0 ^ 2) (fun y => nth 2 y 0 ^ 2));
    (eapply cont_ext_loc; [apply filter_forall; intros y; symmetry; rewrite <- Rsqr_pow2; unfold Rsqr; reflexivity|]);
    apply cont_mult; apply cont_nth.
Qed.

Lemma smooth_revolve sel f h x : length x = 3%nat -> off_axis (Revolve sel) x ->
  (forall y, length y = 3%nat -> h (A1 y) = bind (f (A1 (back (Revolve sel) y))) (fun w => Ok (1 * w))) ->
  smooth_near f (back (Revolve sel) x) -> smooth_near h x.
Proof.
  intros Hx Off E. rewrite !smooth_near_nb. intros (g & N). set (m := Revolve sel).
  assert (G : good_move 3 m) by reflexivity.
  exists (fun y => spin sel y (g (back m y))).
  assert (O : nb x (fun y => off_axis m y)).
  { set (i := if sel then 0%nat else 1%nat).
    assert (C : cont_fun (fun y => nth i y 0 * nth i y 0 + nth 2 y 0 * nth 2 y 0) x) by (apply cont_plus; apply cont_mult; apply cont_nth).
    assert (Z : nth i x 0 * nth i x 0 + nth 2 x 0 * nth 2 x 0 <> 0) by (unfold i; destruct sel; simpl in Off |- *; lra).
    generalize (nonzero_near _ _ C Z). apply filter_imp. intros y Hz. unfold m. simpl.
    unfold i in Hz. pose proof (sq_nonneg (nth 0 y 0)). pose proof (sq_nonneg (nth 1 y 0)). pose proof (sq_nonneg (nth 2 y 0)).
    destruct sel; lra. }
  apply nb_nb in N. apply (nb_back 3 m x _ G Hx) in N.
  generalize (filter_and _ _ O (filter_and _ _ N (nb_len x))). apply filter_imp. clear N O. cbv beta. intros y (O & ((Lb & N) & Ly)).
  assert (Hy : length y = 3%nat) by congruence.
  pose proof (nb_at _ _ N) as ((v & Gv) & C). split.
  - exists (factor m * v). eapply grad_move; eauto.
    + unfold spin. destruct sel; reflexivity.
    + apply spin_transport; auto. destruct Gv as (_ & L & _). rewrite L. apply (back_length 3 m y G Hy).
  - intros i. pose proof (fun j => cont_back 3 m (fun z => nth j (g z) 0) y G Hy (C j)) as Cb. cbv beta in Cb.
    destruct sel; unfold m in *; simpl in O.
    + destruct i as [|[|[|i]]]; unfold spin; cbn [nth].
      * apply cont_mult; [apply Cb|]. apply cont_mult; [apply cont_nth|]. apply cont_radius. simpl. lra.
      * apply Cb.
      * apply cont_mult; [apply Cb|]. apply cont_mult; [apply cont_nth|]. apply cont_radius. simpl. lra.
      * destruct i; apply cont_const.
    + destruct i as [|[|[|i]]]; unfold spin; cbn [nth].
      * apply Cb.
      * apply cont_mult; [apply Cb|]. apply cont_mult; [apply cont_nth|]. apply cont_radius. simpl. lra.
      * apply cont_mult; [apply Cb|]. apply cont_mult; [apply cont_nth|]. apply cont_radius. simpl. lra.
      * destruct i; apply cont_const.
Qed.

Lemma smooth_move n m f h x : good_move n m -> length x = n -> off_axis m x ->
  (forall y, length y = n -> h (A1 y) = bind (f (A1 (back m y))) (fun w => Ok (factor m * w))) ->
  smooth_near f (back m x) -> smooth_near h x.
Proof.
  intros G Hx O E N. destruct m; try (eapply smooth_rigid; eauto; exact I).
  simpl in G. subst n. eapply smooth_revolve; eauto.
Qed.

(** *** Primitives *)
Lemma smooth_everywhere f x (g : list R -> list R) : (forall y, length y = length x -> exists v, has_gradient f y v (g y)) ->
  (forall i y, cont_fun (fun z => nth i (g z) 0) y) -> smooth_near f x.
Proof. intros G C. exists 1, g. split; [lra|]. intros y Hy _. split; auto. intros i. apply C. Qed.

Lemma smooth_sphere r x : 0 < r -> smooth_near (sphere r) x.
Proof.
  intros Hr. apply (smooth_everywhere _ _ (fun y => vscal (- 2 * (1 / (2 * r))) y)).
  - intros y Hy. exists (1 / (2 * r) * (r ^ 2 - sumsq y)).
    apply (grad_of_fun _ (fun y => 1 / (2 * r) * (r ^ 2 - sumsq y))).
    + intros z Hz. rewrite sphere_value by auto. f_equal. field. lra.
    + apply (quad_grad (fun y => y) (length y) 1); auto; [lra|]. intros. lra.
  - intros i y. apply (cont_ext_loc (fun z => - 2 * (1 / (2 * r)) * nth i z 0)).
    + apply filter_forall. intros z. rewrite nth_vscal. reflexivity.
    + apply cont_mult; [apply cont_const|apply cont_nth].
Qed.

Lemma smooth_cylinder r x : 0 < r -> (2 <= length x)%nat -> smooth_near (cylinder r) x.
Proof.
  intros Hr Hx. apply (smooth_everywhere _ _ (fun y => vscal (- 2 * (1 / (2 * r))) (nth 0 y 0 :: nth 1 y 0 :: repeat 0 (length x - 2)))).
  - intros y Hy. destruct y as [|a [|b y]]; simpl in Hy; try lia. exists (1 / (2 * r) * (r ^ 2 - sumsq (firstn 2 (a :: b :: y)))).
    apply (grad_of_fun _ (fun y => 1 / (2 * r) * (r ^ 2 - sumsq (firstn 2 y)))).
    + intros z Hz. unfold cylinder. rewrite sphere_value by auto. f_equal. field. lra.
    + apply (quad_grad (firstn 2) (length (a :: b :: y)) 1); auto.
      * simpl. rewrite repeat_length. lia.
      * lra.
      * intros z Hz. destruct z as [|c [|d z]]; simpl in Hz; try lia. reflexivity.
      * intros z Hz. apply firstn_edist; simpl in *; lia.
      * intros z Hz. destruct z as [|c [|d z]]; simpl in Hz; try lia. simpl. unfold vsub. simpl.
        rewrite !dotR_cons, dot_zeros. change (dotR [] []) with 0. ring.
  - intros i y. set (w := repeat 0 (length x - 2)).
    apply (cont_ext_loc (fun z => - 2 * (1 / (2 * r)) * nth i (nth 0 z 0 :: nth 1 z 0 :: w) 0)).
    + apply filter_forall. intros z. rewrite nth_vscal. reflexivity.
    + apply cont_mult; [apply cont_const|]. destruct i as [|[|i]]; cbn [nth]; [apply cont_nth|apply cont_nth|apply cont_const].
Qed.

Lemma smooth_hi k u x : (k < length x)%nat -> smooth_near (hi k u) x.
Proof.
  intros Hk. apply (smooth_everywhere _ _ (fun _ => vscal (-1) (basis (length x) k))); [|intros; apply cont_const].
  intros y Hy. exists (u - nth k y 0). split; [reflexivity|]. split; [rewrite vscal_length, basis_length; auto|]. intros e He.
  exists 1. split; [lra|]. intros z Hz _. exists (u - nth k z 0). split; auto.
  unfold basis. rewrite dotR_vscal, upd_unit, nth_vsub by auto.
  replace (u - nth k z 0 - (u - nth k y 0) - -1 * (nth k z 0 - nth k y 0)) with 0 by lra. rewrite Rabs_R0.
  pose proof (edist_nonneg z y). nra.
Qed.
Lemma smooth_lo k u x : (k < length x)%nat -> smooth_near (lo k u) x.
Proof.
  intros Hk. apply (smooth_everywhere _ _ (fun _ => basis (length x) k)); [|intros; apply cont_const].
  intros y Hy. exists (nth k y 0 - u). split; [reflexivity|]. split; [rewrite basis_length; auto|]. intros e He.
  exists 1. split; [lra|]. intros z Hz _. exists (nth k z 0 - u). split; auto.
  unfold basis. rewrite upd_unit, nth_vsub by auto.
  replace (nth k z 0 - u - (nth k y 0 - u) - (nth k z 0 - nth k y 0)) with 0 by lra. rewrite Rabs_R0.
  pose proof (edist_nonneg z y). nra.
Qed.

(** *** Folds *)
Definition zero_at (x : list R) (f : adf) : Prop := f (A1 x) = Ok 0.
Lemma smooth_fold op x f fs : smooth_op op -> (forall a b, exists c, op a b = Ok c /\ (c = 0 -> a = 0 \/ b = 0)) ->
  smooth_near f x -> Forall (fun f => smooth_near f x) fs -> at_most_one (zero_at x) (f :: fs) ->
  smooth_near (fold_adf op f fs) x.
Proof.
  intros SO Z. revert f. induction fs as [|h fs IH]; intros f Sf F A; [exact Sf|]. simpl.
  inversion F as [|? ? Sh F']. subst. simpl in A. destruct A as (A1 & A2 & A3). rewrite !fold_and in *.
  destruct (smooth_grad _ _ Sf) as (a & ga & Ha & _). destruct (smooth_grad _ _ Sh) as (b & gb & Hb & _).
  assert (NZ : a <> 0 \/ b <> 0).
  { destruct (Req_dec a 0) as [->|]; auto. right. intros ->. destruct (A1 Ha) as (N & _). apply N. exact Hb. }
  apply IH; auto.
  - eapply smooth_pointwise; eauto.
  - simpl. split; auto. intros Zc. rewrite fold_and. destruct (Z a b) as (c & Ec & Zz).
    unfold zero_at, pointwise in Zc. rewrite Ha, Hb in Zc. simpl in Zc. assert (c = 0) by congruence. destruct (Zz H) as [-> | ->].
    + destruct (A1 Ha) as (_ & N). exact N.
    + apply A2. exact Hb.
Qed.

Lemma sign_zero s : sign_correct s -> (forall a b, exists c, conj_ s a b = Ok c /\ (c = 0 -> a = 0 \/ b = 0)) /\
  (forall a b, exists c, disj_ s a b = Ok c /\ (c = 0 -> a = 0 \/ b = 0)).
Proof.
  intros S.
  assert (sg0 : forall a, sg a = 0%Z -> a = 0).
  { intros a. unfold sg. repeat destruct Rlt_dec; try discriminate; try lra. }
  assert (sg00 : sg 0 = 0%Z) by (unfold sg; repeat destruct Rlt_dec; try lra; auto).
  split; intros a b; destruct (S a b) as ((c & Ec & Sc) & (d & Ed & Sd)).
  - exists c. split; auto. intros ->. rewrite sg00 in Sc. destruct (Z.min_spec (sg a) (sg b)) as [[_ H]|[_ H]]; rewrite H in Sc; auto.
  - exists d. split; auto. intros ->. rewrite sg00 in Sd. destruct (Z.max_spec (sg a) (sg b)) as [[_ H]|[_ H]]; rewrite H in Sd; auto.
Qed.

(** *** Boxes *)
Lemma faces_smooth x lb ub k : length lb = length ub -> (k + length lb <= length x)%nat ->
  Forall (fun f => smooth_near f x) (faces k lb ub).
Proof.
  revert ub k. induction lb as [|b lb IH]; intros [|u ub] k L K; simpl in *; try lia; [constructor|].
  constructor; [apply smooth_hi; lia|]. constructor; [apply smooth_lo; lia|]. apply IH; lia.
Qed.
Lemma faces_nonzero x lb ub k : length lb = length ub ->
  (forall i, (i < length lb)%nat -> nth (k + i) x 0 <> nth i lb 0 /\ nth (k + i) x 0 <> nth i ub 0) ->
  Forall (fun f => ~ zero_at x f) (faces k lb ub).
Proof.
  revert ub k. induction lb as [|b lb IH]; intros [|u ub] k L H; simpl in *; try lia; [constructor|].
  destruct (H 0%nat ltac:(lia)) as (H1 & H2). rewrite Nat.add_0_r in *. simpl in *.
  constructor; [intros Z; unfold zero_at, hi in Z; assert (u - nth k x 0 = 0) by congruence; lra|].
  constructor; [intros Z; unfold zero_at, lo in Z; assert (nth k x 0 - b = 0) by congruence; lra|].
  apply IH; [lia|]. intros i Hi. specialize (H (S i) ltac:(lia)). simpl in H. rewrite Nat.add_succ_r in H. exact H.
Qed.
Lemma faces_single x lb ub k : length lb = length ub ->
  (forall i, (i < length lb)%nat -> nth i lb 0 <> nth i ub 0) ->
  (forall i j, (i < j < length lb)%nat ->
    ~ ((nth (k + i) x 0 = nth i lb 0 \/ nth (k + i) x 0 = nth i ub 0) /\ (nth (k + j) x 0 = nth j lb 0 \/ nth (k + j) x 0 = nth j ub 0))) ->
  at_most_one (zero_at x) (faces k lb ub).
Proof.
  revert ub k. induction lb as [|b lb IH]; intros [|u ub] k L N H; simpl in L; try lia; [exact I|].
  assert (Rest : nth k x 0 = b \/ nth k x 0 = u -> Forall (fun f => ~ zero_at x f) (faces (S k) lb ub)).
  { intros Hk. apply faces_nonzero; [lia|]. intros i Hi. specialize (H 0%nat (S i) ltac:(simpl; lia)). simpl in H.
    rewrite Nat.add_0_r, Nat.add_succ_r in H. simpl. split; intros C; apply H; auto. }
  simpl. rewrite !fold_and.
  assert (Zh : zero_at x (hi k u) -> nth k x 0 = u) by (intros Z; unfold zero_at, hi in Z; assert (u - nth k x 0 = 0) by congruence; lra).
  assert (Zl : zero_at x (lo k b) -> nth k x 0 = b) by (intros Z; unfold zero_at, lo in Z; assert (nth k x 0 - b = 0) by congruence; lra).
  split; [|split].
  - intros Z. split; [|auto]. intros Z'. apply Zh in Z. apply Zl in Z'. apply (N 0%nat ltac:(simpl; lia)). simpl. congruence.
  - auto.
  - apply IH; [lia| |].
    + intros i Hi. exact (N (S i) ltac:(simpl; lia)).
    + intros i j Hij. specialize (H (S i) (S j) ltac:(simpl; lia)). simpl in H. rewrite !Nat.add_succ_r in H. exact H.
Qed.

Lemma smooth_cuboid e c s x : smooth_system s -> length e = length x -> (1 <= length x)%nat ->
  single_face (lower e c) (upper e c) x -> smooth_near (cuboid (A1 e) c s) x.
Proof.
  intros (NS & Sc & _) He Hx (N & H). destruct (cuboid_faces e c s x He Hx) as (f & fs & Ef & V).
  eapply smooth_ext_all; [exact V|].
  assert (Ll : length (lower e c) = length x) by (unfold lower; rewrite map_length; auto).
  assert (Lu : length (upper e c) = length x) by (unfold upper; rewrite map_length; auto).
  pose proof (faces_smooth x (lower e c) (upper e c) 0 ltac:(congruence) ltac:(lia)) as F.
  pose proof (faces_single x (lower e c) (upper e c) 0 ltac:(congruence)) as A. rewrite Ef in *. inversion F. subst.
  apply smooth_fold; auto.
  - apply sign_zero. apply NS.
  - apply A; intros; [apply N; lia|]. simpl. apply H. lia.
Qed.

Lemma smooth_prim n p x : good_prim smooth_system n p -> length x = n -> kink_free_prim p x -> smooth_near (build_prim p) x.
Proof.
  intros G Hx K. destruct p; simpl in *.
  - destruct G as (G1 & G2 & G3). apply smooth_cuboid; auto; lia.
  - destruct G as (G1 & G2). eapply smooth_ext_all; [|apply (smooth_cuboid (repeat edge_length (length x)) centering s); eauto].
    + intros y Hy. rewrite cube_is_cuboid, Hy. reflexivity.
    + apply repeat_length.
    + lia.
  - apply smooth_sphere; auto.
  - apply smooth_cylinder; [apply G|]. destruct G; lia.
  - destruct K.
  - exact K.
Qed.

(** *** Programs *)
Lemma smooth_op2 o s f g x a b : smooth_system s -> smooth_near f x -> smooth_near g x ->
  f (A1 x) = Ok a -> g (A1 x) = Ok b -> a <> 0 \/ b <> 0 -> smooth_near (build_op2 o s f g) x.
Proof.
  intros (NS & Sc & Sd) Sf Sg Ea Eb NZ. assert (SC : sign_correct s) by apply NS.
  pose proof (smooth_negate _ _ Sf) as Nf. pose proof (smooth_negate _ _ Sg) as Ng.
  assert (Ea' : negate f (A1 x) = Ok (- a)) by (unfold negate; rewrite Ea; reflexivity).
  assert (Eb' : negate g (A1 x) = Ok (- b)) by (unfold negate; rewrite Eb; reflexivity).
  assert (NZ1 : a <> 0 \/ - b <> 0) by (destruct NZ; [left|right]; lra).
  assert (NZ2 : - a <> 0 \/ b <> 0) by (destruct NZ; [left|right]; lra).
  assert (sg_opp : forall z, sg (- z) = (- sg z)%Z).
  { intros z. unfold sg. repeat destruct Rlt_dec; try lra; auto. }
  assert (sg_nz : forall z, z <> 0 -> sg z <> 0%Z).
  { intros z Hz. unfold sg. repeat destruct Rlt_dec; try discriminate; lra. }
  assert (sg_0 : sg 0 = 0%Z) by (unfold sg; repeat destruct Rlt_dec; try lra; auto).
  assert (Nsg : (sg a <> 0 \/ sg b <> 0)%Z) by (destruct NZ; auto).
  destruct o; simpl.
  - eapply smooth_pointwise; eauto.
  - eapply smooth_pointwise; eauto.
  - eapply smooth_ext_all; [intros; apply equivalence_eq|].
    destruct (SC a (- b)) as (_ & (c1 & E1 & S1)). destruct (SC (- a) b) as (_ & (c2 & E2 & S2)). rewrite sg_opp in S1, S2.
    apply (smooth_pointwise _ _ _ _ c1 c2); auto.
    + eapply smooth_pointwise; eauto.
    + eapply smooth_pointwise; eauto.
    + unfold pointwise. rewrite Ea, Eb'. exact E1.
    + unfold pointwise. rewrite Ea', Eb. exact E2.
    + destruct (Req_dec c1 0) as [->|]; auto. right. intros ->. rewrite sg_0 in *. lia.
  - eapply smooth_ext_all; [intros; apply implication_eq|]. eapply smooth_pointwise; eauto.
  - eapply smooth_ext_all; [intros; apply difference_eq|]. eapply smooth_pointwise; eauto.
  - eapply smooth_ext_all; [intros; apply xor_eq|].
    destruct (SC a (- b)) as ((c1 & E1 & S1) & _). destruct (SC (- a) b) as ((c2 & E2 & S2) & _). rewrite sg_opp in S1, S2.
    apply (smooth_pointwise _ _ _ _ c1 c2); auto.
    + eapply smooth_pointwise; eauto.
    + eapply smooth_pointwise; eauto.
    + unfold pointwise. rewrite Ea, Eb'. exact E1.
    + unfold pointwise. rewrite Ea', Eb. exact E2.
    + destruct (Req_dec c1 0) as [->|]; auto. right. intros ->. rewrite sg_0 in *. lia.
Qed.

Lemma system_norm s : smooth_system s -> normalized_system s.
Proof. intros (H & _). exact H. Qed.
Lemma system_cont s : smooth_system s -> continuous_system s.
Proof. intros (H & _). apply H. Qed.

Lemma status_zero t f x v : status t f x v -> v = 0 -> on_boundary t x.
Proof. intros (_ & P & M) ->. split; rewrite <- ?P, <- ?M; lra. Qed.

(** kink-free points are regular *)
Lemma kink_regular t x : kink_free t x -> regular t x.
Proof.
  revert x. induction t using solid_rect'; intros x Kf; cbn [kink_free regular] in *.
  - destruct p; cbn [kink_free_prim] in *; auto.
  - destruct Kf as (_ & Kf). auto.
  - auto.
  - destruct Kf as (K1 & K2 & _). auto.
  - destruct Kf as (Kf & _). rewrite fold_and in *. rewrite Forall_forall in *. auto.
  - destruct Kf as (Kf & _). rewrite fold_and in *. rewrite Forall_forall in *. auto.
Qed.

Definition smoothed (t : solid) : Prop := forall n x f, good smooth_system n t -> length x = n -> kink_free t x ->
  build t = Ok f -> smooth_near f x.

Lemma smooth_list l fs n x : Forall smoothed l -> Forall (good smooth_system n) l -> length x = n ->
  Forall (fun a => kink_free a x) l -> at_most_one (fun a => on_boundary a x) l -> Forall2 (fun t f => build t = Ok f) l fs ->
  Forall (fun f => smooth_near f x) fs /\ at_most_one (zero_at x) fs.
Proof.
  intros H G Hx K A B. induction B as [|a f l fs Ba B IH]; [split; [constructor|exact I]|].
  inversion H; inversion G; inversion K; subst. destruct A as (A1 & A2). rewrite fold_and in A1.
  destruct IH as (I1 & I2); auto. split; [constructor; eauto|]. split; [|auto]. rewrite fold_and. intros Z.
  assert (st : forall t g, good smooth_system (length x) t -> kink_free t x -> build t = Ok g -> zero_at x g -> on_boundary t x).
  { intros t g Gt Kt Bt Zt. destruct (solid_status t (length x) x g) as (v & S); auto.
    - apply (good_mono smooth_system continuous_system); auto using system_cont.
    - apply kink_regular; auto.
    - apply (status_zero t g x v S). destruct S as ((E & _) & _). unfold zero_at in Zt. congruence. }
  specialize (A1 (st a f H6 H10 Ba Z)). clear - A1 B st H7 H11.
  induction B as [|b g l fs Bb B IH]; constructor; inversion H7; inversion H11; inversion A1; subst.
  - intros Zg. eauto.
  - auto.
Qed.

Lemma smooth_compose op fs x : smooth_op op -> (forall a b, exists c, op a b = Ok c /\ (c = 0 -> a = 0 \/ b = 0)) ->
  continuous2 op -> fs <> [] -> Forall (fun f => smooth_near f x) fs -> at_most_one (zero_at x) fs ->
  smooth_near (compose op (map scalar_adf fs)) x.
Proof.
  intros SO Z C2 Ne F A.
  assert (exists vs, Forall2 (fun f v => continuous_adf f x v) fs vs) as (vs & Fv).
  { clear - F. induction F as [|f fs S F (vs & IH)]; [exists []; constructor|].
    destruct (smooth_grad _ _ S) as (v & g & G). exists (v :: vs). constructor; auto. eapply grad_cont; eauto. }
  destruct (cont_compose op fs x vs C2 Ne Fv) as ((f & r & -> & N) & _).
  inversion F. subst. eapply smooth_ext; [exact N|]. apply smooth_fold; auto.
Qed.

Lemma solid_smooth t : smoothed t.
Proof.
  induction t using solid_rect'; intros n x f G Hx K B.
  - simpl in B. injection B as <-. eapply smooth_prim; eauto.
  - destruct G as [G1 G2]. destruct K as [K1 K2]. simpl in B. destruct (build t) as [h|] eqn:Eh; [|discriminate]. simpl in B.
    destruct (move_eval n m h G1) as (g & Eg & Vg). assert (g = f) by congruence. subst g.
    eapply smooth_move; eauto. eapply IHt; eauto. apply back_length; auto.
  - simpl in B. destruct (build t) as [h|] eqn:Eh; [|discriminate]. simpl in B. injection B as <-.
    apply smooth_negate. eapply IHt; eauto.
  - destruct G as (G0 & G1 & G2). destruct K as (K1 & K2 & K3). simpl in B.
    destruct (build t1) as [h|] eqn:Eh; [|discriminate]. destruct (build t2) as [k|] eqn:Ek; [|discriminate].
    simpl in B. injection B as <-.
    destruct (solid_status t1 n x h) as (a & Sa); auto using kink_regular.
    { apply (good_mono smooth_system continuous_system); auto using system_cont. }
    destruct (solid_status t2 n x k) as (b & Sb); auto using kink_regular.
    { apply (good_mono smooth_system continuous_system); auto using system_cont. }
    apply (smooth_op2 o s h k x a b); auto; [eapply IHt1; eauto|eapply IHt2; eauto|apply Sa|apply Sb|].
    destruct (Req_dec a 0) as [->|]; auto. right. intros ->. apply K3. split; eapply status_zero; eauto.
  - simpl in G, K, B. destruct K as (K1 & K2). rewrite fold_and in G, K1. destruct G as (G0 & G1 & G2).
    destruct (sequence (map build l)) as [fs|] eqn:Es; [|discriminate]. simpl in B. injection B as <-.
    apply sequence_build in Es. destruct (smooth_list l fs n x) as (F & A); auto.
    apply smooth_compose; auto; try apply G0; try apply sign_zero; try apply G0. inversion Es; subst; congruence.
  - simpl in G, K, B. destruct K as (K1 & K2). rewrite fold_and in G, K1. destruct G as (G0 & G1 & G2).
    destruct (sequence (map build l)) as [fs|] eqn:Es; [|discriminate]. simpl in B. injection B as <-.
    apply sequence_build in Es. destruct (smooth_list l fs n x) as (F & A); auto.
    apply smooth_compose; auto; try apply G0; try apply sign_zero; try apply G0. inversion Es; subst; congruence.
Qed.
