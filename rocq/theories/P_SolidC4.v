(** Proofs about boundary conditions on solids, part 4: the imposed conditions hold. *)
From Coquelicot Require Import Coquelicot.
From Verif Require Import Base BaseFacts M_Quat S_Quat M_RFun S_RFun P_RFun1 P_Vec M_Tensor M_Calc S_Calc M_Model S_Model P_Model
  M_Solid S_Solid P_Solid1 P_Solid2 P_Solid3 P_Solid4 P_Solid5 P_Solid6 M_SolidBC S_SolidBC P_SolidC1 P_SolidC2 P_SolidC3.

(** *** Euclidean balls and boxes *)
Lemma sumsq_box v d : 0 < d -> (forall i, Rabs (nth i v 0) < d) -> sumsq v <= INR (length v) * (d * d).
Proof.
  intros Hd. induction v as [|a v IH]; intros H; [unfold sumsq, sumR; simpl; lra|].
  rewrite sumsq_cons. change (length (a :: v)) with (S (length v)). rewrite S_INR.
  pose proof (IH (fun i => H (S i))) as I. pose proof (H 0%nat) as Ha. simpl in Ha.
  assert (a * a <= d * d). { rewrite <- (Rabs_right (a * a)) by (apply Rle_ge, Rle_0_sqr). rewrite Rabs_mult. pose proof (Rabs_pos a). nra. }
  nra.
Qed.
Lemma near_edist x y d : 0 < d -> near d x y -> edist y x <= (INR (length x) + 1) * d.
Proof.
  intros Hd (L & H). pose proof (pos_INR (length x)) as P. apply Rsqr_incr_0_var; [|nra]. unfold Rsqr. rewrite edist_sq.
  eapply Rle_trans; [apply (sumsq_box _ d); auto; intros i; rewrite nth_vsub by auto; apply H|].
  rewrite vsub_length by auto. rewrite L. nra.
Qed.
Lemma nb_near x (P : list R -> Prop) : nb x P -> exists d, 0 < d /\ forall y, near d x y -> P y.
Proof.
  intros (d & Hd & B). pose proof (pos_INR (length x)) as Q. exists (d / (2 * (INR (length x) + 1))).
  assert (Pd : 0 < d / (2 * (INR (length x) + 1))) by (apply Rdiv_lt_0_compat; lra). split; auto.
  intros y N. apply B; [apply N|]. eapply Rle_lt_trans; [apply near_edist; eauto|].
  replace ((INR (length x) + 1) * (d / (2 * (INR (length x) + 1)))) with (d / 2) by (field; lra). lra.
Qed.

(** *** Gradients and partial derivatives *)
Lemma edist_upd x i t : (i < length x)%nat -> edist (upd x i t) x = Rabs (t - nth i x 0).
Proof.
  intros Hi. unfold edist. rewrite normR_sumsq. replace (sumsq (vsub (upd x i t) x)) with ((t - nth i x 0) * (t - nth i x 0)).
  - rewrite <- (sqrt_Rsqr_abs (t - nth i x 0)). reflexivity.
  - revert x Hi. induction i as [|i IH]; intros [|a x] Hi; simpl in Hi; try lia.
    + simpl. unfold vsub. simpl. rewrite sumsq_cons. fold (vsub x x). rewrite vsub_self. ring.
    + unfold vsub. simpl. rewrite sumsq_cons. fold (vsub (upd x i t) x). rewrite <- IH by lia. ring.
Qed.
Lemma dot_upd g x i t : (i < length x)%nat -> length g = length x -> dotR g (vsub (upd x i t) x) = nth i g 0 * (t - nth i x 0).
Proof.
  revert g x. induction i as [|i IH]; intros [|b g] [|a x] Hi Hl; simpl in Hi, Hl; try lia.
  - unfold vsub. simpl. rewrite dotR_cons. fold (vsub x x). replace (dotR g (vsub x x)) with 0; [ring|].
    assert (Hg : length g = length x) by lia. clear - Hg. revert g Hg.
    induction x as [|a x IH]; intros [|b g] L; simpl in L; try lia; [reflexivity|].
    unfold vsub. simpl. rewrite dotR_cons. fold (vsub x x). rewrite <- IH by lia. ring.
  - unfold vsub. simpl. rewrite dotR_cons. fold (vsub (upd x i t) x). rewrite IH by lia. ring.
Qed.

Lemma grad_partial f x v g i : has_gradient f x v g -> (i < length x)%nat ->
  is_derive (fun t => value f (upd x i t)) (nth i x 0) (nth i g 0).
Proof.
  intros (E & Lg & H) Hi. split; [apply is_linear_scal_l|].
  intros z Hz. pose proof (is_filter_lim_locally_unique (V := R_NormedModule) (nth i x 0) z Hz) as Ez. subst z. intros e.
  destruct (H e (cond_pos e)) as (d & Hd & B). exists (mkposreal d Hd). intros t Ht.
  assert (Lt : edist (upd x i t) x < d) by (rewrite edist_upd by auto; exact Ht).
  destruct (B (upd x i t) (upd_length _ _ _) Lt) as (w & Ew & Lw).
  rewrite edist_upd, dot_upd in Lw by auto.
  replace (value f (upd x i t)) with w by (unfold value; rewrite Ew; reflexivity).
  assert (Ex : value f (upd x i (nth i x 0)) = v) by (rewrite upd_self; unfold value; rewrite E; reflexivity).
  rewrite Ex. unfold norm, minus, plus, opp, scal; simpl. unfold abs, mult; simpl.
  replace (w + - v + - ((t + - nth i x 0) * nth i g 0)) with (w - v - nth i g 0 * (t - nth i x 0)) by ring.
  exact Lw.
Qed.
Lemma grad_pd f x v g i : has_gradient f x v g -> (i < length x)%nat -> pd i (value f) x = nth i g 0.
Proof. intros G Hi. apply is_derive_unique. eapply grad_partial; eauto. Qed.

Lemma smooth_C1 f x n : length x = n -> smooth_near f x ->
  exists D, openset n D /\ D x /\ C1 n D (value f).
Proof.
  intros Hx. rewrite smooth_near_nb. intros (g & d & Hd & B).
  exists (fun y => length y = n /\ edist y x < d). split; [|split].
  - intros y (Ly & Dy). split; auto. apply (nb_near y (fun y => length y = n /\ edist y x < d)).
    exists (d - edist y x). split; [lra|]. intros z Hz Lz. split; [congruence|].
    pose proof (edist_triangle x y z ltac:(congruence) ltac:(congruence)). lra.
  - split; auto. rewrite edist_self. auto.
  - intros i y Hi (Ly & Dy). destruct (B y ltac:(congruence) Dy) as ((v & G) & C). split.
    + eexists. eapply grad_partial; eauto. lia.
    + intros e He. destruct (C i e He) as (d1 & Hd1 & C1).
      apply (nb_near y (fun z => Rabs (pd i (value f) z - pd i (value f) y) < e)).
      exists (Rmin d1 (d - edist y x)). split; [apply Rmin_pos; lra|]. intros z Hz Lz.
      assert (L1 : edist z y < d1) by (eapply Rlt_le_trans; [exact Lz|apply Rmin_l]).
      assert (L2 : edist z y < d - edist y x) by (eapply Rlt_le_trans; [exact Lz|apply Rmin_r]).
      pose proof (edist_triangle x y z ltac:(congruence) ltac:(congruence)).
      destruct (B z ltac:(congruence) ltac:(lra)) as ((w & Gz) & _).
      rewrite (grad_pd _ _ _ _ i G), (grad_pd _ _ _ _ i Gz) by lia. apply C1; auto.
Qed.

Lemma openset_and n D D' : openset n D -> openset n D' -> openset n (fun x => D x /\ D' x).
Proof.
  intros O O' x (H & H'). destruct (O x H) as (L & d & Hd & B). destruct (O' x H') as (_ & d' & Hd' & B').
  split; auto. exists (Rmin d d'). split; [apply Rmin_pos; auto|]. intros y (Ly & N). split.
  - apply B. split; auto. intros i. eapply Rlt_le_trans; [apply N|apply Rmin_l].
  - apply B'. split; auto. intros i. eapply Rlt_le_trans; [apply N|apply Rmin_r].
Qed.
Lemma C1_sub n (D D' : list R -> Prop) f : (forall x, D' x -> D x) -> C1 n D f -> C1 n D' f.
Proof. intros S C i x Hi Hx. apply C; auto. Qed.

(** *** The conditions *)
Lemma solid_rep0 t n f : good sign_correct n t -> (forall x, length x = n -> regular t x) -> build t = Ok f ->
  rep0 n (fun x => on_arrays f [x]) (value f).
Proof.
  intros G Rg B x Hx. destruct (solid_signed t n G) as (f' & B' & D). assert (f' = f) by congruence. subst f'.
  assert (L : length (tlist x) = n) by (unfold tlist; rewrite Hx; rewrite map_length, seq_length; auto).
  destruct (D (tlist x) L (Rg _ L)) as (v & E & _). exists (tsc v). split; [|split; [reflexivity|]].
  - unfold on_arrays. rewrite Hx, E. reflexivity.
  - unfold value. rewrite E. reflexivity.
Qed.

Lemma outward_grad n f x v g : has_gradient f x v g -> length x = n -> outward n (value f) x = vscal (-1) g.
Proof.
  intros G Hx. assert (Lg : length g = n) by (destruct G as (_ & L & _); congruence).
  apply vec_ext; [unfold outward; rewrite map_length, seq_length, vscal_length; auto|].
  unfold outward. rewrite map_length, seq_length. intros i Hi. rewrite nth_vscal.
  set (F := fun i => - pd i (value f) x). rewrite (nth_indep _ 0 (F 0%nat)) by (rewrite map_length, seq_length; auto).
  rewrite map_nth, seq_nth by auto. unfold F. simpl. rewrite (grad_pd f x v g i G) by lia. ring.
Qed.
Lemma grad_sq_norm n f x v g : has_gradient f x v g -> length x = n -> grad_sq n (value f) x = sumsq g.
Proof.
  intros G Hx. assert (Lg : length g = n) by (destruct G as (_ & L & _); congruence). unfold grad_sq, total.
  replace (map (fun i => pd i (value f) x * pd i (value f) x) (seq 0 n)) with (map (fun i => nth i g 0 * nth i g 0) (seq 0 n)).
  - rewrite <- dotR_self. clear - Lg. revert n Lg. induction g as [|a g IH]; intros n L; simpl in L; subst n; [reflexivity|].
    simpl. rewrite dotR_cons. f_equal. rewrite <- (IH (length g) eq_refl). rewrite <- seq_shift, map_map. reflexivity.
  - apply map_ext_in. intros i Hi. apply in_seq in Hi. rewrite (grad_pd f x v g i G) by lia. reflexivity.
Qed.

Lemma cont_at_along (h : list R -> R) x v : length v = length x -> cont_at h x -> cont_along h x v.
Proof.
  intros Lv C. unfold cont_along. intros P (e & HP).
  assert (E0 : axpy 0 x v = x).
  { apply nth_ext with 0 0; unfold axpy; [rewrite map2_length; lia|]. intros i Hi. rewrite map2_length in Hi.
    rewrite (nth_map2 _ _ _ _ 0 0) by lia. ring. }
  destruct (C e (cond_pos e)) as (d & Hd & B).
  set (M := normR v + 1). pose proof (normR_nonneg v) as Nv. assert (HM : 0 < M) by (unfold M; lra).
  assert (Pd : 0 < d / M) by (apply Rdiv_lt_0_compat; auto).
  exists (mkposreal _ Pd). intros t Ht. apply HP. rewrite E0. change (Rabs (h (axpy t x v) - h x) < e). apply B. split.
  - unfold axpy. rewrite map2_length. lia.
  - intros i. destruct (Nat.lt_ge_cases i (length x)) as [Hi|Hi].
    + unfold axpy. rewrite (nth_map2 _ _ _ _ 0 0) by lia. replace (nth i x 0 + t * nth i v 0 - nth i x 0) with (t * nth i v 0) by ring.
      rewrite Rabs_mult. assert (Rt : Rabs t < d / M). { replace t with (t - 0) by ring. exact Ht. }
      pose proof (nth_norm v i). pose proof (Rabs_pos t). pose proof (Rabs_pos (nth i v 0)).
      assert (Hdm : M * (d / M) = d) by (field; lra). unfold M in *. nra.
    + rewrite !nth_overflow by (unfold axpy; rewrite ?map2_length; lia). rewrite Rminus_eq_0, Rabs_R0. auto.
Qed.

Section Neumann.
Variables (t : solid) (n : nat) (f : adf) (D : list R -> Prop) (j : nat) (s : list nat) (na nh : argspec) (am : Z)
  (model : amodel) (args : list tensor) (kw : kwargs) (u : list nat -> list R -> R) (X : list R).
Hypothesis G : good smooth_system n t.
Hypothesis Rg : forall x, length x = n -> regular t x.
Hypothesis B : build t = Ok f.
Hypothesis HX : length X = n.
Hypothesis Sm : smooth t X.
Hypothesis Kf : kink_free t X.
Hypothesis Hj : (j < length args)%nat.
Hypothesis Ham : am = Z.of_nat j.
Hypothesis Hna : exists a, argn na = [a] /\ pyidx (length args) j a.
Hypothesis Hu : repT n s (fun x => model (upd args j x) kw) u.
Hypothesis Od : openset n D.
Hypothesis HD : D X.
Hypothesis Cu : forall p, S_Model.inside s p -> C1 n D (u p).

Lemma neumann_setup : exists g D0, has_gradient f X 0 g /\ normR g = 1 /\ openset n D0 /\ D0 X /\ C1 n D0 (value f) /\
  (forall p, S_Model.inside s p -> C1 n D0 (u p)) /\ value f X = 0 /\ grad_sq n (value f) X = 1 /\
  outward n (value f) X = vscal (-1) g /\ leaves t X (vscal (-1) g) /\ rep0 n (fun x => on_arrays f [x]) (value f).
Proof.
  pose proof (good_mono _ _ t system_norm n G) as Gn. pose proof (good_mono _ _ t norm_cont n Gn) as Gc.
  destruct (solid_unit t n X f Gn HX (Rg X HX) Sm B) as (g & Hg & Ng).
  destruct (smooth_C1 f X n HX (solid_smooth t n X f G HX Kf B)) as (D1 & O1 & X1 & C).
  exists g, (fun x => D x /\ D1 x). split; [exact Hg|]. split; [exact Ng|]. split; [apply openset_and; auto|]. split; [auto|].
  split; [apply (C1_sub n D1); tauto|]. split; [intros p Hp; apply (C1_sub n D); auto; tauto|].
  split; [destruct Hg as (E & _); unfold value; rewrite E; reflexivity|].
  split; [rewrite (grad_sq_norm n f X 0 g Hg HX), <- normR_sq, Ng; ring|]. split; [apply (outward_grad n f X 0 g Hg HX)|]. split.
  - assert (Lg : length g = length X) by apply Hg. split; [rewrite vscal_length; auto|]. split.
    { unfold vscal. rewrite normR_scal, Ng, Rabs_left; lra. }
    destruct (solid_crossing t n X f g Gn HX (Rg X HX) B Hg Ng) as (d & Hd & H). exists d. split; auto. intros r Hr.
    destruct (H r Hr) as (I & O).
    assert (V : forall c, vscal c (vscal (-1) g) = vscal (- c) g).
    { intros c. apply vec_ext; rewrite !vscal_length; auto. intros i _. rewrite !nth_vscal. ring. }
    rewrite !V. replace (- - r) with r by ring. auto.
  - apply (solid_rep0 t); auto. apply (good_mono _ _ t cont_sign n Gc).
Qed.

Lemma solid_neumann_lemma h hh : repT n s (fun x => xs <- pick (upd args j x) nh ;; h xs) hh ->
  (forall p, S_Model.inside s p -> cont_at (hh p) X) ->
  exists nu U, leaves t X nu /\ repT n s (fun x => neumann_model (on_arrays f) (Some h) na am nh model (upd args j x) kw) U /\
    forall p, S_Model.inside s p -> U p X = u p X /\ is_derive (fun r => U p (axpy r X nu)) 0 (hh p X).
Proof.
  intros Hh Ch. destruct neumann_setup as (g & D0 & Hg & Ng & O0 & X0 & Cf & Cu0 & V0 & Q0 & Ow & Lv & Rp).
  destruct (neumann_exact_some n D0 j s (on_arrays f) na nh am model args kw (value f) u h hh X) as (U & RU & HU); auto.
  - intros p Hp. apply cont_at_along; auto. rewrite Ow, vscal_length. apply Hg.
  - exists (vscal (-1) g), U. rewrite Ow in HU. auto.
Qed.

Lemma solid_neumann_zero : (exists is, Forall2 (fun k i => pyidx (length args) i k) (argn nh) is) ->
  exists nu U, leaves t X nu /\ repT n s (fun x => neumann_model (on_arrays f) None na am nh model (upd args j x) kw) U /\
    forall p, S_Model.inside s p -> U p X = u p X /\ is_derive (fun r => U p (axpy r X nu)) 0 0.
Proof.
  intros Hi. destruct neumann_setup as (g & D0 & Hg & Ng & O0 & X0 & Cf & Cu0 & V0 & Q0 & Ow & Lv & Rp).
  destruct (neumann_exact_none n D0 j s (on_arrays f) na nh am model args kw (value f) u X) as (U & RU & HU); auto.
  exists (vscal (-1) g), U. rewrite Ow in HU. auto.
Qed.
End Neumann.

(** *** Dirichlet conditions *)
Lemma solid_dirichlet_lemma t n f g na ng model args kw x v xg w s : good sign_correct n t -> build t = Ok f ->
  pick args na = Ok [x] -> M_Tensor.shape x = [n] -> regular t (tlist x) -> on_boundary t (tlist x) ->
  model args kw = Ok v -> pick args ng = Ok xg -> g xg = Ok w -> M_Tensor.shape v = s -> M_Tensor.shape w = s ->
  exists y, dirichlet_model (on_arrays f) (Some g) na ng model args kw = Ok y /\ M_Tensor.shape y = s /\
    forall p, S_Model.inside s p -> entry y p = entry w p.
Proof.
  intros G B E1 Sx Rg (NI & NO) Em Eg Ew Sv Sw. destruct (solid_signed t n G) as (f' & B' & D). assert (f' = f) by congruence. subst f'.
  assert (L : length (tlist x) = n) by (unfold tlist; rewrite Sx; rewrite map_length, seq_length; auto).
  destruct (D (tlist x) L Rg) as (r & E & P & M).
  assert (r = 0). { destruct (Rtotal_order r 0) as [H|[H|H]]; auto; exfalso; [apply NO|apply NI]; [apply M|apply P]; lra. } subst r.
  assert (Ea : on_arrays f [x] = Ok (tsc 0)) by (unfold on_arrays; rewrite Sx, E; reflexivity).
  destruct (dirichlet_ok (on_arrays f) g na ng model args kw [x] (tsc 0) v xg w s E1 Ea Em Eg Ew eq_refl Sv Sw) as (y & Ey & Sy & V).
  exists y. split; [exact Ey|]. split; [exact Sy|]. intros p Hp. rewrite V by exact Hp. simpl. ring.
Qed.
