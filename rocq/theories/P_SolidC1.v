(** Proofs about boundary conditions on solids, part 1: continuously differentiable distance functions. *)
From Coquelicot Require Import Coquelicot.
From Verif Require Import Base BaseFacts M_Quat S_Quat P_Quat M_RFun S_RFun P_RFun1 P_Vec P_RFun2 M_Solid S_Solid
  P_Solid1 P_Solid2 P_Solid3 P_Solid4 P_Solid5 S_SolidBC.

(** *** Neighbourhoods as a filter *)
Definition nb (x : list R) (P : list R -> Prop) : Prop :=
  exists d, 0 < d /\ forall y, length y = length x -> edist y x < d -> P y.
Global Instance nb_filter x : Filter (nb x).
Proof.
  constructor.
  - exists 1. split; [lra|auto].
  - intros P Q (d & Hd & B) (d' & Hd' & B'). exists (Rmin d d'). split; [apply Rmin_pos; auto|]. intros y Hy L. split.
    + apply B; auto. eapply Rlt_le_trans; [exact L|apply Rmin_l].
    + apply B'; auto. eapply Rlt_le_trans; [exact L|apply Rmin_r].
  - intros P Q I (d & Hd & B). exists d. split; auto.
Qed.
Lemma nb_at x P : nb x P -> P x.
Proof. intros (d & Hd & B). apply B; auto. rewrite edist_self. auto. Qed.
Lemma edist_triangle x y z : length y = length x -> length z = length x -> edist z x <= edist z y + edist y x.
Proof.
  intros Hy Hz. unfold edist. replace (vsub z x) with (vadd (vsub z y) (vsub y x)).
  - apply normR_triangle. rewrite !vsub_length; congruence.
  - apply vec_ext.
    + rewrite vadd_length; rewrite !vsub_length; congruence.
    + intros i _. rewrite nth_vadd by (rewrite !vsub_length; congruence). rewrite !nth_vsub by congruence. ring.
Qed.
Lemma nb_nb x P : nb x P -> nb x (fun y => length y = length x /\ nb y P).
Proof.
  intros (d & Hd & B). exists d. split; auto. intros y Hy L. split; auto. exists (d - edist y x). split; [lra|].
  intros z Hz Lz. apply B; [congruence|]. pose proof (edist_triangle x y z Hy ltac:(congruence)). lra.
Qed.
Lemma nb_len x : nb x (fun y => length y = length x).
Proof. exists 1. split; [lra|auto]. Qed.

Lemma cont_lim h x : cont_fun h x <-> filterlim h (nb x) (locally (h x)).
Proof.
  split.
  - intros H P (e & He). destruct (H e (cond_pos e)) as (d & Hd & B). exists d. split; auto. intros y Hy L.
    apply He. apply (B y Hy L).
  - intros H e He. apply (H (fun z => Rabs (z - h x) < e)). exists (mkposreal e He). intros z Hz. exact Hz.
Qed.
Lemma cont_ext_loc h k x : nb x (fun y => h y = k y) -> cont_fun h x -> cont_fun k x.
Proof.
  intros E H. rewrite cont_lim in *. rewrite <- (nb_at _ _ E). eapply filterlim_ext_loc; eauto.
Qed.
Lemma cont_const c x : cont_fun (fun _ => c) x.
Proof. intros e He. exists 1. split; [lra|]. intros. rewrite Rminus_eq_0, Rabs_R0. auto. Qed.
Lemma cont_nth i x : cont_fun (fun y => nth i y 0) x.
Proof.
  intros e He. exists e. split; auto. intros y Hy L. eapply Rle_lt_trans; [apply nth_close; auto|auto].
Qed.
Lemma cont_2 (F : R -> R -> R) h k x : continuity_2d_pt F (h x) (k x) -> cont_fun h x -> cont_fun k x ->
  cont_fun (fun y => F (h y) (k y)) x.
Proof.
  intros C Ch Ck e He. destruct (C (mkposreal e He)) as (d & Hd).
  destruct (Ch d (cond_pos d)) as (d1 & D1 & B1). destruct (Ck d (cond_pos d)) as (d2 & D2 & B2).
  exists (Rmin d1 d2). split; [apply Rmin_pos; auto|]. intros y Hy L. apply Hd.
  - apply B1; auto. eapply Rlt_le_trans; [exact L|apply Rmin_l].
  - apply B2; auto. eapply Rlt_le_trans; [exact L|apply Rmin_r].
Qed.
Lemma cont_plus h k x : cont_fun h x -> cont_fun k x -> cont_fun (fun y => h y + k y) x.
Proof.
  intros. apply (cont_2 Rplus); auto. apply continuity_2d_pt_plus; [apply continuity_2d_pt_id1|apply continuity_2d_pt_id2].
Qed.
Lemma cont_mult h k x : cont_fun h x -> cont_fun k x -> cont_fun (fun y => h y * k y) x.
Proof.
  intros. apply (cont_2 Rmult); auto. apply continuity_2d_pt_mult; [apply continuity_2d_pt_id1|apply continuity_2d_pt_id2].
Qed.
Lemma cont_1 (F : R -> R) h x : continuity_pt F (h x) -> cont_fun h x -> cont_fun (fun y => F (h y)) x.
Proof.
  intros C H. apply (cont_2 (fun a _ => F a) h h); auto.
  apply (continuity_1d_2d_pt_comp F (fun a _ => a)); [exact C|]. apply continuity_2d_pt_id1.
Qed.
Lemma cont_dot (g : list R -> list R) w x : (forall i, cont_fun (fun y => nth i (g y) 0) x) ->
  nb x (fun y => length (g y) = length w) -> cont_fun (fun y => dotR (g y) w) x.
Proof.
  intros H L.
  assert (E : forall u v : list R, length u = length v -> dotR u v = sumR (map (fun i => nth i u 0 * nth i v 0) (seq 0 (length v)))).
  { clear. induction u as [|a u IH]; intros [|b v] Hl; simpl in Hl; try lia; [reflexivity|].
    rewrite dotR_cons, IH by lia. cbn [length seq map sumR fold_right nth]. f_equal. rewrite <- seq_shift, map_map. reflexivity. }
  apply (cont_ext_loc (fun y => sumR (map (fun i => nth i (g y) 0 * nth i w 0) (seq 0 (length w))))).
  - eapply filter_imp; [|exact L]. intros y Ly. cbv beta in *. symmetry. apply E. auto.
  - generalize (seq 0 (length w)) as l. clear L. induction l as [|i l IH]; cbn [map sumR fold_right]; [apply cont_const|].
    apply cont_plus; [|exact IH]. apply cont_mult; [apply H|apply cont_const].
Qed.
Lemma cont_back n m h x : good_move n m -> length x = n -> cont_fun h (back m x) -> cont_fun (fun y => h (back m y)) x.
Proof.
  intros G Hx C e He. destruct (C e He) as (d & Hd & B). destruct (back_lipschitz n m G) as (K & HK & L).
  exists (d / K). split; [apply Rdiv_lt_0_compat; auto|]. intros y Hy E. apply B.
  - rewrite !(back_length n m) by congruence. reflexivity.
  - eapply Rle_lt_trans; [apply L; congruence|]. replace d with (K * (d / K)) by (field; lra). apply Rmult_lt_compat_l; auto.
Qed.
Lemma nb_back n m x P : good_move n m -> length x = n -> nb (back m x) P -> nb x (fun y => P (back m y)).
Proof.
  intros G Hx (d & Hd & B). destruct (back_lipschitz n m G) as (K & HK & L).
  exists (d / K). split; [apply Rdiv_lt_0_compat; auto|]. intros y Hy E. apply B.
  - rewrite !(back_length n m) by congruence. reflexivity.
  - eapply Rle_lt_trans; [apply L; congruence|]. replace d with (K * (d / K)) by (field; lra). apply Rmult_lt_compat_l; auto.
Qed.

(** *** Combinators *)
Definition c1_here (f : adf) (g : list R -> list R) (y : list R) : Prop :=
  (exists v, has_gradient f y v (g y)) /\ forall i, cont_fun (fun z => nth i (g z) 0) y.
Lemma smooth_near_nb f x : smooth_near f x <-> exists g, nb x (c1_here f g).
Proof.
  split.
  - intros (d & g & Hd & B). exists g, d. split; auto.
  - intros (g & d & Hd & B). exists d, g. split; auto.
Qed.
Lemma smooth_grad f x : smooth_near f x -> exists v g, has_gradient f x v g.
Proof. rewrite smooth_near_nb. intros (g & N). apply nb_at in N. destruct N as ((v & H) & _). eauto. Qed.
Lemma smooth_ext f h x : nb x (fun y => h (A1 y) = f (A1 y)) -> smooth_near f x -> smooth_near h x.
Proof.
  rewrite !smooth_near_nb. intros E (g & N). exists g. apply nb_nb in E.
  generalize (filter_and _ _ E N). apply filter_imp. intros y ((_ & E') & ((v & G) & C)). split; auto.
  exists v. eapply grad_ext; [exact E'|exact G].
Qed.
Lemma smooth_ext_all f h x : (forall y, length y = length x -> h (A1 y) = f (A1 y)) -> smooth_near f x -> smooth_near h x.
Proof. intros E. apply smooth_ext. exists 1. split; [lra|auto]. Qed.
Lemma grad_negate f x v g : has_gradient f x v g -> has_gradient (negate f) x (- v) (vscal (-1) g).
Proof.
  intros (E & L & H). split; [unfold negate; rewrite E; reflexivity|]. split; [rewrite vscal_length; auto|].
  intros e He. destruct (H e He) as (d & Hd & B). exists d. split; auto. intros y Hy Ly.
  destruct (B y Hy Ly) as (w & Ew & Lw). exists (- w). split; [unfold negate; rewrite Ew; reflexivity|].
  rewrite dotR_vscal. replace (- w - - v - -1 * dotR g (vsub y x)) with (- (w - v - dotR g (vsub y x))) by ring.
  rewrite Rabs_Ropp. auto.
Qed.
Lemma smooth_negate f x : smooth_near f x -> smooth_near (negate f) x.
Proof.
  rewrite !smooth_near_nb. intros (g & N). exists (fun y => vscal (-1) (g y)). revert N. apply filter_imp.
  intros y ((v & G) & C). split.
  - exists (- v). apply grad_negate. auto.
  - intros i. apply (cont_ext_loc (fun z => -1 * nth i (g z) 0)).
    + apply filter_forall. intros z. rewrite nth_vscal. reflexivity.
    + apply cont_mult; [apply cont_const|auto].
Qed.

Definition value (f : adf) (y : list R) : R := match f (A1 y) with Ok v => v | Err _ => 0 end.
Lemma value_cont f x v : continuous_adf f x v -> nb x (fun y => f (A1 y) = Ok (value f y)) /\ cont_fun (value f) x /\ value f x = v.
Proof.
  intros (E & C). assert (Ev : value f x = v) by (unfold value; rewrite E; reflexivity). split; [|split; auto].
  - destruct (C 1 ltac:(lra)) as (d & Hd & B). exists d. split; auto. intros y Hy L. destruct (B y Hy L) as (w & Ew & _).
    unfold value. rewrite Ew. reflexivity.
  - intros e He. destruct (C e He) as (d & Hd & B). exists d. split; auto. intros y Hy L. destruct (B y Hy L) as (w & Ew & Lw).
    rewrite Ev. unfold value. rewrite Ew. auto.
Qed.

Lemma grad_bound f x v g : has_gradient f x v g -> nb x (fun y => exists w, f (A1 y) = Ok w /\ Rabs (w - v) <= (normR g + 1) * edist y x).
Proof.
  intros (E & L & H). destruct (H 1 ltac:(lra)) as (d & Hd & B). exists d. split; auto. intros y Hy Ly.
  destruct (B y Hy Ly) as (w & Ew & Lw). exists w. split; auto.
  pose proof (cauchy_schwarz_norm g (vsub y x) ltac:(rewrite vsub_length; congruence)) as CS. fold (edist y x) in CS.
  replace (w - v) with (w - v - dotR g (vsub y x) + dotR g (vsub y x)) by ring.
  eapply Rle_trans; [apply Rabs_triang|]. lra.
Qed.

Lemma grad_op op V p q f h x a b gf gh : locally_2d (fun u v => op u v = Ok (V u v)) a b -> differentiable_pt_lim V a b p q ->
  has_gradient f x a gf -> has_gradient h x b gh ->
  has_gradient (pointwise op f h) x (V a b) (vadd (vscal p gf) (vscal q gh)).
Proof.
  intros (d0 & E0) D Gf Gh. pose proof Gf as (Ef & Lf & Hf). pose proof Gh as (Eh & Lh & Hh).
  split. { unfold pointwise. rewrite Ef, Eh. simpl. apply E0; rewrite Rminus_eq_0, Rabs_R0; apply cond_pos. }
  split. { rewrite vadd_length; rewrite !vscal_length; congruence. }
  intros e He. set (M := Rmax (normR gf + 1) (normR gh + 1)).
  pose proof (normR_nonneg gf) as Nf. pose proof (normR_nonneg gh) as Nh.
  assert (M1 : normR gf + 1 <= M) by apply Rmax_l. assert (M2 : normR gh + 1 <= M) by apply Rmax_r.
  assert (HM : 0 < M) by lra.
  assert (Pp : 0 < e / (4 * (Rabs p + 1))) by (pose proof (Rabs_pos p); apply Rdiv_lt_0_compat; lra).
  assert (Pq : 0 < e / (4 * (Rabs q + 1))) by (pose proof (Rabs_pos q); apply Rdiv_lt_0_compat; lra).
  assert (Pm : 0 < e / (2 * M)) by (apply Rdiv_lt_0_compat; lra).
  destruct (D (mkposreal _ Pm)) as (d1 & D1). simpl in D1.
  set (r := Rmin d0 d1). assert (Hr : 0 < r) by (apply Rmin_pos; apply cond_pos).
  assert (N : nb x (fun y => edist y x < r / M /\ length y = length x)).
  { exists (r / M). split; [apply Rdiv_lt_0_compat; auto|]. auto. }
  pose proof (filter_and _ _ (filter_and _ _ (grad_bound _ _ _ _ Gf) (grad_bound _ _ _ _ Gh))
    (filter_and _ _ N (filter_and (F := nb x) _ _ (Hf _ Pp) (Hh _ Pq)))) as A.
  revert A. apply (filter_imp (F := nb x)). cbv beta.
  intros y (((w & Ew & Bw) & (k & Ek & Bk)) & ((Ly & Ll) & ((w' & Ew' & Cw) & (k' & Ek' & Ck)))).
  assert (w' = w) by congruence. assert (k' = k) by congruence. subst w' k'.
  set (m := edist y x) in *. assert (Hm : 0 <= m) by apply edist_nonneg.
  assert (Mm : M * m < r). { replace r with (M * (r / M)) by (field; lra). apply Rmult_lt_compat_l; auto. }
  assert (Bw' : Rabs (w - a) <= M * m) by (eapply Rle_trans; [exact Bw|apply Rmult_le_compat_r; auto]).
  assert (Bk' : Rabs (k - b) <= M * m) by (eapply Rle_trans; [exact Bk|apply Rmult_le_compat_r; auto]).
  assert (R0 : r <= d0) by apply Rmin_l. assert (R1 : r <= d1) by apply Rmin_r.
  exists (V w k). split.
  { unfold pointwise. rewrite Ew, Ek. simpl. apply E0; lra. }
  specialize (D1 w k ltac:(lra) ltac:(lra)).
  assert (Q1 : Rabs (V w k - V a b - (p * (w - a) + q * (k - b))) <= e / 2 * m).
  { eapply Rle_trans; [exact D1|]. apply Rle_trans with (e / (2 * M) * (M * m)); [|right; field; lra].
    apply Rmult_le_compat_l; [lra|]. apply Rmax_lub; auto. }
  rewrite dotR_vadd by (rewrite !vscal_length; congruence). rewrite !dotR_vscal.
  set (u1 := dotR gf (vsub y x)) in *. set (u2 := dotR gh (vsub y x)) in *.
  replace (V w k - V a b - (p * u1 + q * u2)) with
    ((V w k - V a b - (p * (w - a) + q * (k - b))) + (p * (w - a - u1) + q * (k - b - u2))) by ring.
  assert (Half : forall c t, t <= e / (4 * (Rabs c + 1)) * m -> 0 <= t -> Rabs c * t <= e / 4 * m).
  { intros c t Ht Pt. pose proof (Rabs_pos c). apply Rle_trans with ((Rabs c + 1) * (e / (4 * (Rabs c + 1)) * m)); [nra|].
    right. field. lra. }
  pose proof (Half p _ Cw (Rabs_pos _)). pose proof (Half q _ Ck (Rabs_pos _)).
  eapply Rle_trans; [apply Rabs_triang|]. pose proof (Rabs_triang (p * (w - a - u1)) (q * (k - b - u2))) as T.
  rewrite !Rabs_mult in T. lra.
Qed.

Lemma nonzero_near h x : cont_fun h x -> h x <> 0 -> nb x (fun y => h y <> 0).
Proof.
  intros C N. destruct (C (Rabs (h x)) (Rabs_pos_lt _ N)) as (d & Hd & B). exists d. split; auto. intros y Hy L Z.
  specialize (B y Hy L). rewrite Z in B. replace (0 - h x) with (- h x) in B by ring. rewrite Rabs_Ropp in B. lra.
Qed.
Lemma nonzero_near2 a b : a <> 0 \/ b <> 0 -> locally_2d (fun u v => u <> 0 \/ v <> 0) a b.
Proof.
  intros [H|H].
  - exists (mkposreal _ (Rabs_pos_lt _ H)). simpl. intros u v L _. left. intros ->.
    replace (0 - a) with (- a) in L by ring. rewrite Rabs_Ropp in L. lra.
  - exists (mkposreal _ (Rabs_pos_lt _ H)). simpl. intros u v _ L. right. intros ->.
    replace (0 - b) with (- b) in L by ring. rewrite Rabs_Ropp in L. lra.
Qed.

Lemma smooth_pointwise op f h x a b : smooth_op op -> smooth_near f x -> smooth_near h x ->
  f (A1 x) = Ok a -> h (A1 x) = Ok b -> a <> 0 \/ b <> 0 -> smooth_near (pointwise op f h) x.
Proof.
  intros (V & P & Q & SO). rewrite !smooth_near_nb. intros (gf & Nf) (gh & Nh) Ef Eh NZ.
  exists (fun y => vadd (vscal (P (value f y) (value h y)) (gf y)) (vscal (Q (value f y) (value h y)) (gh y))).
  assert (Z : nb x (fun y => value f y <> 0 \/ value h y <> 0)).
  { destruct (nb_at _ _ Nf) as ((v & Gv) & _). destruct (nb_at _ _ Nh) as ((w & Gw) & _).
    apply grad_cont, value_cont in Gv. apply grad_cont, value_cont in Gw.
    destruct Gv as (_ & Cv & _). destruct Gw as (_ & Cw & _).
    assert (Va : value f x = a) by (unfold value; rewrite Ef; auto). assert (Vb : value h x = b) by (unfold value; rewrite Eh; auto).
    destruct NZ as [NZ|NZ].
    - eapply filter_imp; [|apply (nonzero_near _ _ Cv); congruence]. auto.
    - eapply filter_imp; [|apply (nonzero_near _ _ Cw); congruence]. auto. }
  pose proof (nb_nb _ _ (filter_and _ _ Nf Nh)) as NN.
  generalize (filter_and _ _ Z NN). apply filter_imp. clear Z NN. intros y (Z & (_ & NN)).
  pose proof (nb_at _ _ NN) as (((v & Gv) & Cf) & ((w & Gw) & Ch)).
  destruct (value_cont _ _ _ (grad_cont _ _ _ _ Gv)) as (_ & Kv & Ev). destruct (value_cont _ _ _ (grad_cont _ _ _ _ Gw)) as (_ & Kw & Ew).
  destruct (SO _ _ Z) as (_ & Df & Cp & Cq). split.
  - exists (V v w). rewrite Ev, Ew in *. apply (grad_op _ V); auto.
    eapply locally_2d_impl; [|exact (nonzero_near2 _ _ Z)]. apply locally_2d_forall. intros u k N. apply (SO u k N).
  - intros i. apply (cont_ext_loc (fun z => P (value f z) (value h z) * nth i (gf z) 0 + Q (value f z) (value h z) * nth i (gh z) 0)).
    + pose proof (filter_and _ _ NN (nb_len y)) as A. revert A. apply filter_imp. cbv beta.
      intros z ((((v' & _ & L1 & _) & _) & ((w' & _ & L2 & _) & _)) & _).
      rewrite nth_vadd by (rewrite !vscal_length; congruence). rewrite !nth_vscal. reflexivity.
    + apply cont_plus; apply cont_mult; auto; apply cont_2; auto.
Qed.
