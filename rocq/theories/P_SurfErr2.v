(** Taylor remainder in three variables; errors of surface integrals and potentials. *)
From Coquelicot Require Import Coquelicot.
From Verif Require Import Base BaseFacts P_Vec M_Tensor M_Integrate S_Calc P_AD S_Integrate S_IntErr S_IntOrder P_Integrate1 P_Integrate2 P_Integrate3 P_Integrate4 P_IntOrder.
From Verif Require Import S_Model S_Surface P_Surface2 S_SurfErr P_SurfErr.

Lemma axpy_axpy s t c d : length c = length d -> axpy s (axpy t c d) d = axpy (t + s) c d.
Proof.
  intros L. apply vec_ext; [rewrite !axpy_length; auto; rewrite axpy_length; auto|]. intros i Hi.
  rewrite !axpy_length in Hi by (rewrite ?axpy_length; auto). rewrite !nth_axpy by (rewrite ?axpy_length; auto; lia). ring.
Qed.
Lemma dirder_derive D k : openset 3 D -> forall f c d t, smooth 3 D (S k) f -> length c = 3%nat -> length d = 3%nat -> D (axpy t c d) ->
  is_derive (fun s => dirder k f (axpy s c d) d) t (dirder (S k) f (axpy t c d) d).
Proof.
  intros HO. induction k as [|k IH]; intros f c d t HS Lc Ld HD.
  - cbn [dirder]. pose proof (chain_line 3 D f (axpy t c d) d HO (proj1 HS) HD Ld) as CL.
    assert (E : is_derive (fun s => f (axpy (s - t) (axpy t c d) d)) t (lsum 3 (fun j => pd j f (axpy t c d) * nth j d 0))).
    { assert (D0 : is_derive (fun s => s - t) t 1) by (auto_derive; auto; ring).
      assert (CL' : is_derive (fun s => f (axpy s (axpy t c d) d)) (t - t) (lsum 3 (fun j => pd j f (axpy t c d) * nth j d 0))) by (rewrite Rminus_diag_eq by auto; exact CL).
      pose proof (is_derive_comp (fun s => f (axpy s (axpy t c d) d)) (fun s => s - t) t _ _ CL' D0) as X. eapply is_derive_ext; [|evar_last; [exact X|apply Rmult_1_l]]. reflexivity. }
    eapply is_derive_ext; [|evar_last; [exact E|]].
    + intros s. cbn beta. rewrite axpy_axpy by lia. do 2 f_equal. ring.
    + change total with lsum. apply lsum_ext. intros i _. ring.
  - cbn [dirder]. destruct HS as [HS1 HS2].
    assert (G : forall n, (n <= 3)%nat -> is_derive (fun s => lsum n (fun i => nth i d 0 * dirder k (pd i f) (axpy s c d) d)) t
      (lsum n (fun i => nth i d 0 * dirder (S k) (pd i f) (axpy t c d) d))).
    { induction n as [|n IHn]; intros Hn; [exact (is_derive_const (V := R_NormedModule) (0 : R) t)|]. rewrite lsum_S.
      eapply is_derive_ext; [intros s; symmetry; apply lsum_S|]. apply (is_derive_plus (V := R_NormedModule)); [apply IHn; lia|].
      apply (is_derive_scal (fun s => dirder k (pd n f) (axpy s c d) d)). apply IH; auto. }
    apply (G 3%nat). lia.
Qed.
(** the line stays inside for a while *)
Lemma line_open D c d t : openset 3 D -> length c = 3%nat -> length d = 3%nat -> D (axpy t c d) ->
  locally t (fun s => D (axpy s c d)).
Proof.
  intros HO Lc Ld HD. destruct (HO _ HD) as (_ & r & Hr & HB).
  set (S := lsum 3 (fun j => Rabs (nth j d 0))).
  assert (HS : 0 <= S) by (apply lsum_nonneg; intros; apply Rabs_pos).
  assert (P : 0 < r / (1 + S)) by (apply Rdiv_lt_0_compat; lra).
  exists (mkposreal _ P). intros s Hs. change (Rabs (s - t) < r / (1 + S)) in Hs. apply HB. split; [rewrite !axpy_length; lia|].
  intros i. destruct (Nat.lt_ge_cases i 3) as [Hi|Hi].
  - rewrite !nth_axpy by lia. replace (nth i c 0 + s * nth i d 0 - (nth i c 0 + t * nth i d 0)) with ((s - t) * nth i d 0) by ring.
    assert (Bi : Rabs (nth i d 0) <= S).
    { unfold S, lsum, sumR. cbn. pose proof (Rabs_pos (nth 0 d 0)). pose proof (Rabs_pos (nth 1 d 0)). pose proof (Rabs_pos (nth 2 d 0)).
      destruct i as [|[|[|i]]]; try lia; lra. }
    rewrite Rabs_mult. apply Rle_lt_trans with (Rabs (s - t) * (1 + S)); [apply Rmult_le_compat_l; [apply Rabs_pos|lra]|].
    apply Rlt_le_trans with (r / (1 + S) * (1 + S)); [apply Rmult_lt_compat_r; lra|]. right. field. lra.
  - rewrite !nth_overflow by (rewrite axpy_length; lia). rewrite Rminus_diag_eq, Rabs_R0 by auto. auto.
Qed.
Lemma smooth_le n D k : forall f, smooth n D (S k) f -> smooth n D k f.
Proof. induction k as [|k IH]; intros f H; [exact I|]. destruct H as [H1 H2]. split; auto. Qed.
Lemma smooth_le_n n D k m f : (k <= m)%nat -> smooth n D m f -> smooth n D k f.
Proof. induction 1; auto. intros H'. apply IHle. apply smooth_le. auto. Qed.
Lemma line_derivatives D n f c d : openset 3 D -> smooth 3 D n f -> length c = 3%nat -> length d = 3%nat ->
  forall k t, (k <= n)%nat -> D (axpy t c d) ->
  Derive_n (fun s => f (axpy s c d)) k t = dirder k f (axpy t c d) d /\ ex_derive_n (fun s => f (axpy s c d)) k t.
Proof.
  intros HO HS Lc Ld. induction k as [|k IH]; intros t Hk HD; [split; [reflexivity|exact I]|].
  pose proof (line_open D c d t HO Lc Ld HD) as LO.
  assert (DD : is_derive (Derive_n (fun s => f (axpy s c d)) k) t (dirder (S k) f (axpy t c d) d)).
  { eapply (is_derive_ext_loc (fun s => dirder k f (axpy s c d) d)).
    - apply filter_imp with (2 := LO). intros s Hs. symmetry. apply IH; auto. lia.
    - apply (dirder_derive D); auto. eapply smooth_le_n; [|exact HS]. lia. }
  split; [apply is_derive_unique; exact DD|]. eexists. exact DD.
Qed.
Lemma taylor_remainder D n f M c y : openset 3 D -> convex D -> smooth 3 D (S n) f -> derivatives_below (S n) D f M -> D c -> D y ->
  Rabs (taylor n f c y - f y) <= M * dist y c ^ S n / INR (fact (S n)).
Proof.
  intros HO HC HS HM Dc Dy. destruct (HO c Dc) as (Lc & _). destruct (HO y Dy) as (Ly & _).
  set (d := map2 Rminus y c). assert (Ld : length d = 3%nat) by (unfold d; rewrite map2_length; lia).
  assert (IN : forall t, 0 <= t <= 1 -> D (axpy t c d)) by (intros t Ht; apply HC; auto).
  assert (E0 : axpy 0 c d = c) by (apply vec_ext; [apply axpy_length; lia|]; intros i Hi; rewrite nth_axpy by lia; ring).
  assert (E1 : axpy 1 c d = y).
  { apply vec_ext; [rewrite axpy_length; lia|]. intros i Hi. rewrite axpy_length in Hi by lia. rewrite nth_axpy by lia. unfold d.
    rewrite (nth_map2 Rminus y c i 0 0 0) by lia. ring. }
  pose proof (line_derivatives D (S n) f c d HO HS Lc Ld) as LD.
  destruct (Taylor_Lagrange (fun s => f (axpy s c d)) n 0 1) as (z & Hz & E); [lra|intros t Ht k Hk; apply LD; auto|].
  rewrite E1 in E. rewrite E. destruct (LD (S n) z (le_n _)) as [-> _]; [apply IN; lra|].
  rewrite Rminus_0_r, pow1.
  assert (ET : taylor n f c y = sum_f_R0 (fun k => 1 ^ k / INR (fact k) * Derive_n (fun s => f (axpy s c d)) k 0) n).
  { unfold taylor. change total with lsum. fold d. clear - LD IN E0.
    assert (G : forall m, (m <= n)%nat -> lsum (S m) (fun k => dirder k f c d / INR (fact k)) =
       sum_f_R0 (fun k => 1 ^ k / INR (fact k) * Derive_n (fun s => f (axpy s c d)) k 0) m).
    { induction m as [|m IH]; intros Hm; rewrite lsum_S.
      - cbn [sum_f_R0]. destruct (LD 0%nat 0 ltac:(lia) ltac:(apply IN; lra)) as [-> _]. rewrite E0. unfold lsum, sumR. cbn [map seq fold_right pow]. unfold Rdiv. ring.
      - rewrite IH by lia. rewrite tech5. destruct (LD (S m) 0 ltac:(lia) ltac:(apply IN; lra)) as [-> _]. rewrite E0, pow1. unfold Rdiv. ring. }
    apply G. lia. }
  rewrite <- ET. replace (taylor n f c y - (taylor n f c y + 1 / INR (fact (S n)) * dirder (S n) f (axpy z c d) d)) with
    (- (/ INR (fact (S n)) * dirder (S n) f (axpy z c d) d)) by (unfold Rdiv; ring).
  pose proof (INR_fact_lt_0 (S n)) as F. assert (F' : 0 < / INR (fact (S n))) by (apply Rinv_0_lt_compat; auto).
  rewrite Rabs_Ropp, Rabs_mult, (Rabs_right (/ _)) by lra. unfold dist. fold d. unfold Rdiv. rewrite Rmult_comm.
  apply Rmult_le_compat_r; [lra|]. apply HM; auto. apply IN. lra.
Qed.

(** *** cells of the grids *)
Lemma cell_ok h u i : nondecreasing u -> steps_at_most h u -> (S i < length u)%nat ->
  first (cell u i) = nth i u 0 /\ final (cell u i) = nth (S i) u 0 /\ (2 <= length (cell u i))%nat /\ nondecreasing (cell u i) /\ steps_at_most h (cell u i).
Proof.
  intros Nu Su Hi. split; [reflexivity|]. split; [reflexivity|]. split; [simpl; lia|]. split; simpl; split; auto.
  - apply grid_step_le; auto.
  - apply grid_step_at_most; auto.
Qed.
Lemma middle_near h u i x : nondecreasing u -> steps_at_most h u -> (S i < length u)%nat -> nth i u 0 <= x <= nth (S i) u 0 ->
  Rabs (x - middle u i) <= h / 2 /\ first u <= middle u i <= final u /\ first u <= x <= final u.
Proof.
  intros Nu Su Hi Hx. pose proof (grid_step_at_most h u i Su Hi). pose proof (grid_step_le u i Nu Hi).
  pose proof (grid_between u i Nu ltac:(lia)). pose proof (grid_between u (S i) Nu Hi). unfold middle. split; [apply Rabs_le; lra|lra].
Qed.
Lemma layer_error rule nodes weights K h u v pf D n f X (Q : nat -> nat -> R) M M' L A delta :
  sound_rule rule nodes weights -> reference_exact K nodes weights ->
  Forall (fun w => 0 <= w) weights -> sumR weights = 2 -> Forall (fun x => -1 <= x <= 1) nodes ->
  (2 <= length u)%nat -> (2 <= length v)%nat -> nondecreasing u -> nondecreasing v -> steps_at_most h u -> steps_at_most h v ->
  openset 3 D -> convex D -> (forall y, on_surface pf u v y -> D y) -> smooth 3 D (S n) f -> derivatives_below (S n) D f M ->
  0 <= M -> 0 <= L -> stretches pf u v L -> 0 < delta -> (forall q, rect u v q -> delta <= dist X (point pf q) /\ area pf q <= A) ->
  smooth_box (covered [u; v]) K M' (fun q => f (point pf q) / dist X (point pf q) * area pf q) ->
  (forall i j, (S i < length u)%nat -> (S j < length v)%nat -> quad2 rule (cell u i) (cell v j)
     (fun q => taylor n f (point pf [middle u i; middle v j]) (point pf q) / dist X (point pf q) * area pf q) (Q i j)) ->
  Rabs (total (length u - 1) (fun i => total (length v - 1) (fun j => Q i j)) -
        rect_integral u v (fun q => f (point pf q) / dist X (point pf q) * area pf q))
  <= (M * (L * h) ^ S n / INR (fact (S n)) * A / delta + 4 * M' / INR (fact (S K)) * (h / 2) ^ S K) * ((final u - first u) * (final v - first v)).
Proof.
  intros SR HK Hw Hs Hn Lu Lv Nu Nv Su Sv HO HC HD HS HM M0 L0 HL Hd HX HF HQ.
  set (T := M * (L * h) ^ S n / INR (fact (S n)) * A / delta).
  replace (T + 4 * M' / INR (fact (S K)) * (h / 2) ^ S K) with (T + 2 * (2 * M' / INR (fact (S K)) * (h / 2) ^ S K)) by (unfold Rdiv; ring).
  unfold rect_integral.
  apply (cells_error rule nodes weights K h u v (cell u) (cell v)
    (fun i j q => taylor n f (point pf [middle u i; middle v j]) (point pf q) / dist X (point pf q) * area pf q) Q T M'); auto;
    [intros; apply cell_ok; auto..|].
  intros i j x y Hi Hj Hx Hy. cbv beta.
  destruct (middle_near h u i x Nu Su Hi Hx) as (B1 & B2 & B3). destruct (middle_near h v j y Nv Sv Hj Hy) as (C1 & C2 & C3).
  assert (R1 : rect u v [x; y]) by (exists x, y; auto). assert (R2 : rect u v [middle u i; middle v j]) by (eexists; eexists; eauto).
  set (c := point pf [middle u i; middle v j]). set (z := point pf [x; y]).
  assert (Dc : D c) by (apply HD; exists [middle u i; middle v j]; auto). assert (Dz : D z) by (apply HD; exists [x; y]; auto).
  pose proof (taylor_remainder D n f M c z HO HC HS HM Dc Dz) as TR.
  destruct (HX _ R1) as [X1 X2]. fold z in X1.
  assert (A0 : 0 <= area pf [x; y]) by apply sqrt_pos.
  pose proof (HL x y (middle u i) (middle v j) R1 R2) as HL'. fold c z in HL'.
  assert (D0 : 0 <= dist z c) by apply sqrt_pos.
  assert (DL : dist z c <= L * h).
  { eapply Rle_trans; [exact HL'|]. apply Rmult_le_compat_l; auto. lra. }
  replace (taylor n f c z / dist X z * area pf [x; y] - f z / dist X z * area pf [x; y]) with ((taylor n f c z - f z) * (/ dist X z * area pf [x; y])) by (unfold Rdiv; ring).
  rewrite Rabs_mult, (Rabs_right (/ dist X z * area pf [x; y])).
  2:{ apply Rle_ge, Rmult_le_pos; auto. apply Rlt_le, Rinv_0_lt_compat. lra. }
  unfold T. replace (M * (L * h) ^ S n / INR (fact (S n)) * A / delta) with (M * (L * h) ^ S n / INR (fact (S n)) * (/ delta * A)) by (unfold Rdiv; ring).
  assert (P1 : 0 <= / dist X z * area pf [x; y]) by (apply Rmult_le_pos; auto; apply Rlt_le, Rinv_0_lt_compat; lra).
  apply Rmult_le_compat; auto; [apply Rabs_pos| |].
  - eapply Rle_trans; [exact TR|]. unfold Rdiv. apply Rmult_le_compat_r; [apply Rlt_le, Rinv_0_lt_compat, INR_fact_lt_0|].
    apply Rmult_le_compat_l; auto. apply pow_incr. auto.
  - apply Rmult_le_compat; auto; [apply Rlt_le, Rinv_0_lt_compat; lra|]. apply Rinv_le_contravar; auto.
Qed.
