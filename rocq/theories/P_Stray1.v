(** Proofs for the stray field fit, part 1: second derivatives, least squares. *)
From Coquelicot Require Import Coquelicot.
From Verif Require Import Base BaseFacts P_Vec S_RFun M_Quat M_RFun M_Domain M_Tensor M_Calc M_Integrate M_Surface M_Mumag.
From Verif Require Import S_Calc P_AD P_Calc P_Calc2 S_Integrate P_Integrate1 P_Integrate2 P_Integrate3 S_Model P_Model S_Surface S_Mumag.
From Verif Require Import P_Surface1 P_Surface2 P_Surface3 P_Surface4 P_Surface5 P_Mumag1 P_Mumag2 P_Mumag3 P_Mumag4 P_Mumag5 P_Mumag6.

(** ** twice differentiable functions of one variable *)
Definition D2 (F : R -> R) (t : R) : Prop := locally t (fun s => ex_derive F s) /\ ex_derive (Derive F) t.
Lemma D2_derive F t : D2 F t -> ex_derive F t.
Proof. intros (H & _). apply (locally_singleton _ _ H). Qed.
Lemma D2_ext F G t : (forall s, F s = G s) -> D2 F t -> D2 G t.
Proof.
  intros E (A & B). split.
  - revert A. apply filter_imp. intros s. apply ex_derive_ext. auto.
  - apply (ex_derive_ext (Derive F)); auto. intros s. apply Derive_ext. auto.
Qed.
Lemma D2_const c t : D2 (fun _ => c) t.
Proof.
  split; [apply filter_forall; intros s; apply ex_derive_const|].
  apply (ex_derive_ext (fun _ => 0)); [intros s; symmetry; apply Derive_const|apply ex_derive_const].
Qed.
Lemma D2_id t : D2 (fun s => s) t.
Proof.
  split; [apply filter_forall; intros s; apply ex_derive_id|].
  apply (ex_derive_ext (fun _ => 1)); [intros s; symmetry; apply Derive_id|apply ex_derive_const].
Qed.
Lemma D2_plus F G t : D2 F t -> D2 G t -> D2 (fun s => F s + G s) t /\
  Derive (Derive (fun s => F s + G s)) t = Derive (Derive F) t + Derive (Derive G) t.
Proof.
  intros (A & B) (A' & B').
  assert (L : locally t (fun s => ex_derive F s /\ ex_derive G s)) by (apply filter_and; auto).
  assert (E : locally t (fun s => Derive F s + Derive G s = Derive (fun s => F s + G s) s)).
  { revert L. apply filter_imp. intros s (H & H'). symmetry. apply Derive_plus; auto. }
  split; [split|].
  - revert L. apply filter_imp. intros s (H & H'). apply (ex_derive_plus F G); auto.
  - apply (ex_derive_ext_loc (fun s => Derive F s + Derive G s)); auto. apply (ex_derive_plus (Derive F) (Derive G)); auto.
  - rewrite <- (Derive_ext_loc _ _ t E). apply Derive_plus; auto.
Qed.
Lemma D2_mult F G t : D2 F t -> D2 G t -> D2 (fun s => F s * G s) t.
Proof.
  intros (A & B) (A' & B').
  assert (L : locally t (fun s => ex_derive F s /\ ex_derive G s)) by (apply filter_and; auto).
  assert (E : locally t (fun s => Derive F s * G s + F s * Derive G s = Derive (fun s => F s * G s) s)).
  { revert L. apply filter_imp. intros s (H & H'). symmetry. apply Derive_mult; auto. }
  split.
  - revert L. apply filter_imp. intros s (H & H'). apply (ex_derive_mult F G); auto.
  - apply (ex_derive_ext_loc (fun s => Derive F s * G s + F s * Derive G s)); auto.
    pose proof (locally_singleton _ _ A). pose proof (locally_singleton _ _ A').
    apply (ex_derive_plus (fun s => Derive F s * G s) (fun s => F s * Derive G s));
      [apply (ex_derive_mult (Derive F) G)|apply (ex_derive_mult F (Derive G))]; auto.
Qed.
Lemma D2_scal F c t : D2 F t -> D2 (fun s => F s * c) t /\
  Derive (Derive (fun s => F s * c)) t = Derive (Derive F) t * c.
Proof.
  intros H. split; [apply D2_mult; auto; apply D2_const|].
  rewrite (Derive_ext _ (fun s => Derive F s * c)) by (intros s; apply Derive_scal_l). apply Derive_scal_l.
Qed.
Lemma D2_opp F t : D2 F t -> D2 (fun s => - F s) t.
Proof. intros H. apply (D2_ext (fun s => F s * -1)); [intros; ring|]. apply D2_scal; auto. Qed.
Lemma D2_minus F G t : D2 F t -> D2 G t -> D2 (fun s => F s - G s) t.
Proof. intros A B. apply (D2_plus F (fun s => - G s)); auto. apply D2_opp; auto. Qed.
Lemma D2_comp f g t : D2 f (g t) -> D2 g t -> D2 (fun s => f (g s)) t.
Proof.
  intros (A & B) (A' & B').
  pose proof (locally_singleton _ _ A'). pose proof (locally_singleton _ _ A).
  assert (C : locally t (fun s => ex_derive f (g s))) by (apply (ex_derive_continuous g t H) in A; exact A).
  assert (L : locally t (fun s => ex_derive f (g s) /\ ex_derive g s)) by (apply filter_and; auto).
  split.
  - revert L. apply filter_imp. intros s (H1 & H2). apply (ex_derive_comp f g); auto.
  - apply (ex_derive_ext_loc (fun s => Derive g s * Derive f (g s))).
    + revert L. apply filter_imp. intros s (H1 & H2). symmetry. apply (Derive_comp f g); auto.
    + apply (ex_derive_mult (Derive g) (fun s => Derive f (g s))); auto. apply (ex_derive_comp (Derive f) g); auto.
Qed.
Lemma locally_pos x : 0 < x -> locally x (fun s => 0 < s).
Proof.
  intros Hx. exists (mkposreal x Hx). intros s Hs. change (Rabs (s - x) < x) in Hs. apply Rabs_def2 in Hs. lra.
Qed.
Lemma D2_sqrt x : 0 < x -> D2 sqrt x.
Proof.
  intros Hx. split.
  - apply (filter_imp _ _ (fun s (Hs : 0 < s) => ex_intro _ _ (is_derive_sqrt (fun s => s) s 1 (is_derive_id s) Hs))), locally_pos; auto.
  - apply (ex_derive_ext_loc (fun s => 1 / (2 * sqrt s))).
    + apply (filter_imp (fun s => 0 < s)); [|apply locally_pos; auto]. intros s Hs. symmetry. apply is_derive_unique.
      apply (is_derive_sqrt (fun s => s)); auto. apply @is_derive_id.
    + pose proof (sqrt_lt_R0 x Hx). auto_derive. split; auto. split; auto. lra.
Qed.
Lemma cosh_pos t : 0 < cosh t.
Proof. pose proof (exp_pos t). pose proof (exp_pos (- t)). unfold cosh. lra. Qed.
Lemma is_derive_sinh t : is_derive sinh t (cosh t).
Proof. apply is_derive_Reals. apply derivable_pt_lim_sinh. Qed.
Lemma is_derive_cosh t : is_derive cosh t (sinh t).
Proof. apply is_derive_Reals. apply derivable_pt_lim_cosh. Qed.
Lemma D2_tanh t : D2 tanh t.
Proof.
  split; [apply filter_forall; intros s; apply ex_derive_tanh|].
  apply (ex_derive_ext (fun s => 1 - tanh s * tanh s)).
  - intros s. symmetry. apply is_derive_unique. pose proof (cosh_pos s).
    replace (1 - tanh s * tanh s) with ((cosh s * cosh s - sinh s * sinh s) / cosh s ^ 2) by (unfold tanh; field; lra).
    apply (is_derive_div sinh cosh s (cosh s) (sinh s)); [apply is_derive_sinh|apply is_derive_cosh|lra].
  - apply (ex_derive_minus (fun _ => 1) (fun s => tanh s * tanh s)); [apply ex_derive_const|].
    apply (ex_derive_mult tanh tanh); apply ex_derive_tanh.
Qed.
Lemma D2_lsum k (F : nat -> R -> R) t : (forall j, (j < k)%nat -> D2 (F j) t) ->
  D2 (fun s => lsum k (fun j => F j s)) t /\
  Derive (Derive (fun s => lsum k (fun j => F j s))) t = lsum k (fun j => Derive (Derive (F j)) t).
Proof.
  induction k as [|k IH]; intros H.
  - split; [apply (D2_const 0)|]. change (Derive (Derive (fun _ => 0)) t = 0).
    rewrite (Derive_ext _ (fun _ => 0)) by (intros; apply Derive_const). apply Derive_const.
  - destruct IH as (A & B); [intros; apply H; lia|].
    assert (E : forall s, lsum k (fun j => F j s) + F k s = lsum (S k) (fun j => F j s)) by (intros; rewrite lsum_S; reflexivity).
    destruct (D2_plus _ _ t A (H k ltac:(lia))) as (C & D). split; [apply (D2_ext _ _ t E C)|].
    rewrite lsum_S, <- B, <- D. apply Derive_ext. intros s. apply Derive_ext. intros r. symmetry. apply E.
Qed.

(** ** the distance function *)
Lemma cj_pos a b : 0 < a -> 0 < b -> 0 < cj a b.
Proof.
  intros Ha Hb. unfold cj. assert (sqrt (a ^ 2 + b ^ 2) < a + b); [|lra].
  rewrite <- (sqrt_pow2 (a + b)) by lra. apply sqrt_lt_1; nra.
Qed.
Lemma D2_cj F G t : D2 F t -> D2 G t -> 0 < F t -> 0 < G t -> D2 (fun s => cj (F s) (G s)) t /\ 0 < cj (F t) (G t).
Proof.
  intros HF HG PF PG. split; [|apply cj_pos; auto]. unfold cj.
  apply (D2_minus (fun s => F s + G s) (fun s => sqrt (F s ^ 2 + G s ^ 2))); [apply D2_plus; auto|].
  apply (D2_comp sqrt (fun s => F s ^ 2 + G s ^ 2)); [apply D2_sqrt; nra|].
  apply (D2_plus (fun s => F s ^ 2) (fun s => G s ^ 2)).
  - apply (D2_ext (fun s => F s * F s)); [intros; ring|apply D2_mult; auto].
  - apply (D2_ext (fun s => G s * G s)); [intros; ring|apply D2_mult; auto].
Qed.
Lemma D2_coord (X : list R) l i t : D2 (fun s => nth i (upd X l s) 0) t.
Proof.
  destruct (Nat.eq_dec l i) as [<-|N].
  - destruct (le_lt_dec (length X) l) as [L|L].
    + apply (D2_ext (fun _ => 0)); [|apply D2_const]. intros s. symmetry. apply nth_overflow. rewrite upd_length. auto.
    + apply (D2_ext (fun s => s)); [|apply D2_id]. intros s. rewrite upd_nth_same; auto.
  - apply (D2_ext (fun _ => nth i X 0)); [|apply D2_const]. intros s. rewrite upd_nth_other; auto.
Qed.
Lemma upd_same (X : list R) l : upd X l (nth l X 0) = X.
Proof. revert l. induction X as [|x X IH]; intros [|l]; cbn; auto. f_equal. auto. Qed.
Lemma D2_box lo hi X l : (l < length X)%nat -> (forall i, (i < 3)%nat -> nth i lo 0 < nth i X 0 < nth i hi 0) ->
  D2 (fun t => box_adf lo hi (upd X l t)) (nth l X 0).
Proof.
  intros Hl H. unfold box_adf. cbv zeta.
  assert (U : forall i, (i < 3)%nat -> D2 (fun t => nth i hi 0 - nth i (upd X l t) 0) (nth l X 0) /\ 0 < nth i hi 0 - nth i (upd X l (nth l X 0)) 0).
  { intros i Hi. split; [apply D2_minus; [apply D2_const|apply D2_coord]|]. rewrite upd_same. specialize (H i Hi). lra. }
  assert (L : forall i, (i < 3)%nat -> D2 (fun t => nth i (upd X l t) 0 - nth i lo 0) (nth l X 0) /\ 0 < nth i (upd X l (nth l X 0)) 0 - nth i lo 0).
  { intros i Hi. split; [apply D2_minus; [apply D2_coord|apply D2_const]|]. rewrite upd_same. specialize (H i Hi). lra. }
  assert (J : forall F G, D2 F (nth l X 0) /\ 0 < F (nth l X 0) -> D2 G (nth l X 0) /\ 0 < G (nth l X 0) ->
     D2 (fun s => cj (F s) (G s)) (nth l X 0) /\ 0 < cj (F (nth l X 0)) (G (nth l X 0))).
  { intros F G (A & B) (A' & B'). apply D2_cj; auto. }
  pose proof (J _ _ (U 0%nat ltac:(lia)) (L 0%nat ltac:(lia))) as J1.
  pose proof (J _ _ J1 (U 1%nat ltac:(lia))) as J2. pose proof (J _ _ J2 (L 1%nat ltac:(lia))) as J3.
  pose proof (J _ _ J3 (U 2%nat ltac:(lia))) as J4. pose proof (J _ _ J4 (L 2%nat ltac:(lia))) as J5. apply J5.
Qed.
Lemma pd_pd l f X : (l < length X)%nat -> pd l (pd l f) X = Derive (Derive (fun t => f (upd X l t))) (nth l X 0).
Proof. intros Hl. unfold pd at 1. apply Derive_ext. intros t. rewrite pd_upd by auto. reflexivity. Qed.

(** ** sums *)
Lemma lsum_swap m n (f : nat -> nat -> R) : lsum m (fun i => lsum n (fun j => f i j)) = lsum n (fun j => lsum m (fun i => f i j)).
Proof.
  induction m as [|m IH].
  - change (0 = lsum n (fun _ => 0)). symmetry. rewrite (lsum_ext n _ (fun _ => 0 * 0)) by (intros; ring). rewrite lsum_scal. ring.
  - rewrite lsum_S, IH, <- lsum_add. apply lsum_ext. intros j Hj. rewrite lsum_S. reflexivity.
Qed.
Lemma lsum_scal_r n c g : lsum n (fun i => g i * c) = lsum n g * c.
Proof. rewrite (lsum_ext n _ (fun i => c * g i)) by (intros; ring). rewrite lsum_scal. ring. Qed.
Lemma lsum_minus n f g : lsum n (fun i => f i - g i) = lsum n f - lsum n g.
Proof.
  rewrite (lsum_ext n _ (fun i => f i + -1 * g i)) by (intros; ring). rewrite lsum_add, lsum_scal. ring.
Qed.
Lemma lsum_nonneg n g : (forall i, (i < n)%nat -> 0 <= g i) -> 0 <= lsum n g.
Proof.
  induction n as [|n IH]; intros H; [cbn; lra|]. rewrite lsum_S. pose proof (H n ltac:(lia)).
  assert (0 <= lsum n g) by (apply IH; intros; apply H; lia). lra.
Qed.
Lemma lsum_zero n g : (forall i, (i < n)%nat -> 0 <= g i) -> lsum n g = 0 -> forall i, (i < n)%nat -> g i = 0.
Proof.
  induction n as [|n IH]; intros H E i Hi; [lia|]. rewrite lsum_S in E. pose proof (H n ltac:(lia)).
  assert (0 <= lsum n g) by (apply lsum_nonneg; intros; apply H; lia).
  destruct (Nat.eq_dec i n) as [->|N]; [lra|]. apply IH; try lia; [intros; apply H; lia|lra].
Qed.

(** ** least squares by singular values *)
Section LS.
Variables (N K r : nat) (U VT Q : nat -> nat -> R) (s b : nat -> R).
Hypothesis HU : forall a a', (a < r)%nat -> (a' < r)%nat -> lsum N (fun i => U i a * U i a') = if Nat.eqb a a' then 1 else 0.
Hypothesis HV : forall a a', (a < r)%nat -> (a' < r)%nat -> lsum K (fun j => VT a j * VT a' j) = if Nat.eqb a a' then 1 else 0.
Hypothesis HQ : forall i j, (i < N)%nat -> (j < K)%nat -> Q i j = lsum r (fun a => U i a * s a * VT a j).
Hypothesis Hs : forall a, (a < r)%nat -> s a <> 0.
Let w a := lsum N (fun i => U i a * b i).
Let z q a := s a * lsum K (fun j => VT a j * q j).
Definition sv_solution (j : nat) : R := lsum r (fun a => VT a j * (1 / s a) * w a).
Definition residual (q : nat -> R) : R := lsum N (fun i => (lsum K (fun j => Q i j * q j) - b i) ^ 2).

Lemma sv_apply q i : (i < N)%nat -> lsum K (fun j => Q i j * q j) = lsum r (fun a => U i a * z q a).
Proof.
  intros Hi. rewrite (lsum_ext K _ (fun j => lsum r (fun a => U i a * (s a * (VT a j * q j))))).
  - rewrite lsum_swap. apply lsum_ext. intros a Ha. rewrite lsum_scal, lsum_scal. reflexivity.
  - intros j Hj. rewrite HQ by auto. rewrite <- lsum_scal_r. apply lsum_ext. intros a Ha. ring.
Qed.
Lemma sv_norm y : lsum N (fun i => lsum r (fun a => U i a * y a) ^ 2) = lsum r (fun a => y a ^ 2).
Proof.
  rewrite (lsum_ext N _ (fun i => lsum r (fun a => lsum r (fun a' => (U i a * U i a') * (y a * y a'))))).
  2:{ intros i Hi. cbn [pow]. rewrite Rmult_1_r, <- lsum_scal_r. apply lsum_ext. intros a Ha. rewrite <- lsum_scal.
      apply lsum_ext. intros a' Ha'. ring. }
  rewrite lsum_swap. apply lsum_ext. intros a Ha. rewrite lsum_swap.
  rewrite (lsum_ext r _ (fun a' => (y a * y a') * (if Nat.eqb a' a then 1 else 0))).
  - rewrite lsum_pick by auto. ring.
  - intros a' Ha'. rewrite lsum_scal_r, HU by auto. rewrite Nat.eqb_sym. ring.
Qed.
Lemma sv_inner y : lsum N (fun i => lsum r (fun a => U i a * y a) * b i) = lsum r (fun a => y a * w a).
Proof.
  rewrite (lsum_ext N _ (fun i => lsum r (fun a => y a * (U i a * b i)))).
  - rewrite lsum_swap. apply lsum_ext. intros a Ha. rewrite lsum_scal. reflexivity.
  - intros i Hi. rewrite <- lsum_scal_r. apply lsum_ext. intros a Ha. ring.
Qed.
Lemma residual_split q : residual q = lsum r (fun a => (z q a - w a) ^ 2) + (lsum N (fun i => b i ^ 2) - lsum r (fun a => w a ^ 2)).
Proof.
  unfold residual.
  rewrite (lsum_ext N _ (fun i => (lsum r (fun a => U i a * z q a) ^ 2 + -2 * (lsum r (fun a => U i a * z q a) * b i)) + b i ^ 2)).
  2:{ intros i Hi. rewrite sv_apply by auto. ring. }
  rewrite !lsum_add, lsum_scal, sv_norm, sv_inner.
  rewrite (lsum_ext r (fun a => (z q a - w a) ^ 2) (fun a => (z q a ^ 2 + -2 * (z q a * w a)) + w a ^ 2)) by (intros; ring).
  rewrite !lsum_add, lsum_scal. ring.
Qed.
Lemma sv_coord a : (a < r)%nat -> lsum K (fun j => VT a j * sv_solution j) = 1 / s a * w a.
Proof.
  intros Ha. unfold sv_solution.
  rewrite (lsum_ext K _ (fun j => lsum r (fun a' => (VT a j * VT a' j) * (1 / s a' * w a')))).
  2:{ intros j Hj. rewrite <- lsum_scal. apply lsum_ext. intros a' Ha'. ring. }
  rewrite lsum_swap. rewrite (lsum_ext r _ (fun a' => (1 / s a' * w a') * (if Nat.eqb a' a then 1 else 0))).
  - rewrite lsum_pick by auto. reflexivity.
  - intros a' Ha'. rewrite lsum_scal_r, HV by auto. rewrite Nat.eqb_sym. ring.
Qed.
Lemma sv_fit a : (a < r)%nat -> z sv_solution a = w a.
Proof. intros Ha. unfold z. rewrite sv_coord by auto. field. auto. Qed.
Lemma least_squares q : residual sv_solution <= residual q.
Proof.
  rewrite !residual_split. rewrite (lsum_ext r (fun a => (z sv_solution a - w a) ^ 2) (fun a => 0 * 0)).
  - rewrite lsum_scal. pose proof (lsum_nonneg r (fun a => (z q a - w a) ^ 2) (fun a _ => pow2_ge_0 _)). lra.
  - intros a Ha. rewrite sv_fit by auto. ring.
Qed.
Lemma least_norm q : residual q <= residual sv_solution -> lsum K (fun j => sv_solution j ^ 2) <= lsum K (fun j => q j ^ 2).
Proof.
  intros H.
  assert (Z : forall a, (a < r)%nat -> z q a = w a).
  { rewrite !residual_split in H. rewrite (lsum_ext r (fun a => (z sv_solution a - w a) ^ 2) (fun a => 0 * 0)) in H
      by (intros a Ha; rewrite sv_fit by auto; ring). rewrite lsum_scal in H.
    pose proof (lsum_nonneg r (fun a => (z q a - w a) ^ 2) (fun a _ => pow2_ge_0 _)) as NN.
    intros a Ha. pose proof (lsum_zero r (fun a => (z q a - w a) ^ 2) (fun a _ => pow2_ge_0 _) ltac:(lra) a Ha) as E. cbn beta in E. nra. }
  assert (I : forall q', (forall a, (a < r)%nat -> z q' a = w a) ->
     lsum K (fun j => q' j * sv_solution j) = lsum r (fun a => 1 / s a * w a * (1 / s a * w a))).
  { intros q' Z'. unfold sv_solution. rewrite (lsum_ext K _ (fun j => lsum r (fun a => (1 / s a * w a) * (VT a j * q' j)))).
    2:{ intros j Hj. rewrite <- lsum_scal. apply lsum_ext. intros a Ha. ring. }
    rewrite lsum_swap. apply lsum_ext. intros a Ha. rewrite lsum_scal. f_equal.
    rewrite <- (Z' a Ha). unfold z. field. auto. }
  pose proof (I q Z) as E1. pose proof (I sv_solution sv_fit) as E2.
  pose proof (lsum_nonneg K (fun j => (q j - sv_solution j) ^ 2) (fun a _ => pow2_ge_0 _)) as P.
  rewrite (lsum_ext K _ (fun j => (q j ^ 2 + -2 * (q j * sv_solution j)) + sv_solution j * sv_solution j)) in P by (intros; ring).
  rewrite !lsum_add, lsum_scal, E1 in P. 
  rewrite (lsum_ext K (fun j => sv_solution j ^ 2) (fun j => sv_solution j * sv_solution j)) by (intros; ring).
  rewrite E2 in P |- *. lra.
Qed.
End LS.
