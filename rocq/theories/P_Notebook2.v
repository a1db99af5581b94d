(** Proofs about the notebooks, part 2: the ridge regression of elm_poisson.ipynb. *)
From Coquelicot Require Import Coquelicot.
From Verif Require Import Base BaseFacts P_Vec S_RFun M_Quat M_RFun M_Domain M_Tensor M_Calc M_Integrate M_Surface M_Mumag M_Stray.
From Verif Require Import S_Calc P_AD P_Calc P_Calc2 S_Integrate P_Integrate1 P_Integrate2 P_Integrate3 S_Model P_Model S_Surface S_Mumag S_Stray.
From Verif Require Import P_Surface1 P_Surface2 P_Surface3 P_Surface4 P_Surface5 P_Mumag1 P_Mumag2 P_Mumag3 P_Mumag4 P_Mumag5 P_Mumag6 P_Stray1 P_Stray2.
From Verif Require Import M_Solid M_Notebook S_Notebook.

(** ** ridge regression by singular values *)
Section Ridge.
Variables (N K r : nat) (U VT Q : nat -> nat -> R) (s b : nat -> R) (l2 : R).
Hypothesis HU : forall a a', (a < r)%nat -> (a' < r)%nat -> lsum N (fun i => U i a * U i a') = if Nat.eqb a a' then 1 else 0.
Hypothesis HV : forall a a', (a < r)%nat -> (a' < r)%nat -> lsum K (fun j => VT a j * VT a' j) = if Nat.eqb a a' then 1 else 0.
Hypothesis HQ : forall i j, (i < N)%nat -> (j < K)%nat -> Q i j = lsum r (fun a => U i a * s a * VT a j).
Hypothesis Hl : 0 < l2.
Let w a := lsum N (fun i => U i a * b i).
Let zeta (q : nat -> R) a := lsum K (fun j => VT a j * q j).
Let best a := s a / (s a ^ 2 + l2) * w a.
Definition ridge_solution (j : nat) : R := lsum r (fun a => VT a j * (s a / (s a ^ 2 + l2)) * w a).
Definition ridge (q : nat -> R) : R := residual N K Q b q + l2 * lsum K (fun j => q j ^ 2).
Let span y (j : nat) := lsum r (fun a => VT a j * y a).

Lemma span_inner q y : lsum K (fun j => q j * span y j) = lsum r (fun a => zeta q a * y a).
Proof.
  unfold span, zeta. rewrite (lsum_ext K _ (fun j => lsum r (fun a => y a * (VT a j * q j)))).
  - rewrite lsum_swap. apply lsum_ext. intros a Ha. rewrite lsum_scal. ring.
  - intros j Hj. rewrite <- lsum_scal. apply lsum_ext. intros a Ha. ring.
Qed.
Lemma span_coord y a : (a < r)%nat -> zeta (span y) a = y a.
Proof.
  intros Ha. unfold zeta, span. rewrite (lsum_ext K _ (fun j => lsum r (fun a' => (VT a j * VT a' j) * y a'))).
  2:{ intros j Hj. rewrite <- lsum_scal. apply lsum_ext. intros a' Ha'. ring. }
  rewrite lsum_swap. rewrite (lsum_ext r _ (fun a' => y a' * (if Nat.eqb a' a then 1 else 0))).
  - rewrite lsum_pick by auto. reflexivity.
  - intros a' Ha'. rewrite lsum_scal_r, HV by auto. rewrite Nat.eqb_sym. ring.
Qed.
Lemma span_norm y : lsum K (fun j => span y j ^ 2) = lsum r (fun a => y a ^ 2).
Proof.
  rewrite (lsum_ext K _ (fun j => span y j * span y j)) by (intros; ring). rewrite span_inner.
  apply lsum_ext. intros a Ha. rewrite span_coord by auto. ring.
Qed.
(** distance to a vector of the span *)
Lemma split_norm q y : lsum K (fun j => (q j - span y j) ^ 2) =
  lsum K (fun j => q j ^ 2) - 2 * lsum r (fun a => zeta q a * y a) + lsum r (fun a => y a ^ 2).
Proof.
  rewrite (lsum_ext K _ (fun j => (q j ^ 2 + -2 * (q j * span y j)) + span y j ^ 2)) by (intros; ring).
  rewrite !lsum_add, lsum_scal, span_inner, span_norm. ring.
Qed.
Lemma ridge_span j : ridge_solution j = span best j.
Proof. unfold ridge_solution, span, best. apply lsum_ext. intros. ring. Qed.
Lemma ridge_split q : ridge q = lsum r (fun a => (s a ^ 2 + l2) * (zeta q a - best a) ^ 2) +
  l2 * lsum K (fun j => (q j - span (zeta q) j) ^ 2) +
  (lsum N (fun i => b i ^ 2) - lsum r (fun a => (s a * best a) * w a)).
Proof.
  unfold ridge. rewrite (residual_split N K r U VT Q s b HU HQ q). fold w.
  rewrite split_norm.
  rewrite (lsum_ext r (fun a => (s a * lsum K (fun j => VT a j * q j) - lsum N (fun i => U i a * b i)) ^ 2)
    (fun a => ((s a ^ 2 + l2) * (zeta q a - best a) ^ 2 + (-1 * l2) * zeta q a ^ 2) + (w a ^ 2 + -1 * ((s a * best a) * w a)))).
  2:{ intros a Ha. fold (zeta q a). fold (w a). unfold best.
      assert (s a ^ 2 + l2 <> 0) by (pose proof (pow2_ge_0 (s a)); lra). field. auto. }
  rewrite !lsum_add, !lsum_scal. 
  rewrite (lsum_ext r (fun a => zeta q a * zeta q a) (fun a => zeta q a ^ 2)) by (intros; ring).
  change (lsum r (fun a => lsum N (fun i => U i a * b i) ^ 2)) with (lsum r (fun a => w a ^ 2)). ring.
Qed.
Lemma ridge_best : ridge ridge_solution = lsum N (fun i => b i ^ 2) - lsum r (fun a => (s a * best a) * w a).
Proof.
  rewrite ridge_split.
  assert (Z : forall a, (a < r)%nat -> zeta ridge_solution a = best a).
  { intros a Ha. rewrite <- (span_coord best a Ha). unfold zeta. apply lsum_ext. intros j Hj. rewrite ridge_span. reflexivity. }
  rewrite (lsum_ext r (fun a => (s a ^ 2 + l2) * (zeta ridge_solution a - best a) ^ 2) (fun a => 0 * 0)) by (intros a Ha; rewrite Z by auto; ring).
  rewrite (lsum_ext K (fun j => (ridge_solution j - span (zeta ridge_solution) j) ^ 2) (fun j => 0 * 0)).
  - rewrite !lsum_scal. ring.
  - intros j Hj. rewrite ridge_span. replace (span (zeta ridge_solution) j) with (span best j); [ring|].
    unfold span. apply lsum_ext. intros a Ha. rewrite Z by auto. reflexivity.
Qed.
Lemma ridge_terms q : 0 <= lsum r (fun a => (s a ^ 2 + l2) * (zeta q a - best a) ^ 2) /\
  0 <= lsum K (fun j => (q j - span (zeta q) j) ^ 2).
Proof.
  split; apply lsum_nonneg; intros i _; [|apply pow2_ge_0]. pose proof (pow2_ge_0 (s i)). pose proof (pow2_ge_0 (zeta q i - best i)).
  apply Rmult_le_pos; lra.
Qed.
Lemma ridge_minimal q : ridge ridge_solution <= ridge q.
Proof. rewrite ridge_best, ridge_split. destruct (ridge_terms q). nra. Qed.
Lemma ridge_unique q : ridge q <= ridge ridge_solution -> forall j, (j < K)%nat -> q j = ridge_solution j.
Proof.
  rewrite ridge_best, ridge_split. destruct (ridge_terms q) as (A & B). intros H j Hj.
  assert (A0 : lsum r (fun a => (s a ^ 2 + l2) * (zeta q a - best a) ^ 2) = 0) by nra.
  assert (B0 : lsum K (fun j => (q j - span (zeta q) j) ^ 2) = 0) by nra.
  pose proof (lsum_zero K (fun j => (q j - span (zeta q) j) ^ 2) (fun _ _ => pow2_ge_0 _) B0 j Hj) as E. cbn beta in E.
  assert (q j = span (zeta q) j) as -> by nra. rewrite ridge_span. unfold span. apply lsum_ext. intros a Ha.
  assert (zeta q a = best a); [|congruence].
  pose proof (lsum_zero r (fun a => (s a ^ 2 + l2) * (zeta q a - best a) ^ 2)) as Z. cbn beta in Z.
  assert (P : forall a, 0 < s a ^ 2 + l2) by (intros a'; pose proof (pow2_ge_0 (s a')); lra).
  assert (E' : (s a ^ 2 + l2) * (zeta q a - best a) ^ 2 = 0).
  { apply Z; auto. intros i _. apply Rmult_le_pos; [apply Rlt_le, P|apply pow2_ge_0]. }
  pose proof (P a). apply Rmult_integral in E'. destruct E' as [E'|E']; [lra|]. nra.
Qed.
End Ridge.

(** ** arrays *)
Lemma seq_fdivs l2 l : Forall (fun e => e ^ 2 + l2 <> 0) l ->
  sequence (map (fun e => fdiv e (e ^ 2 + l2)) l) = Ok (map (fun e => e / (e ^ 2 + l2)) l).
Proof.
  induction 1 as [|e l He _ IH]; [reflexivity|]. cbn [map sequence]. unfold fdiv at 1.
  destruct (Req_EM_T (e ^ 2 + l2) 0); [tauto|]. cbn [bind]. rewrite IH. reflexivity.
Qed.
Lemma ridge_filter_ok l2 s r : shape s = [r] -> 0 < l2 -> exists d, ridge_filter l2 s = Ok d /\ shape d = [r] /\
  forall a, (a < r)%nat -> entry d [a] = entry s [a] / (entry s [a] ^ 2 + l2).
Proof.
  intros Ss Hl. unfold ridge_filter. rewrite seq_fdivs.
  - cbn [bind]. eexists. split; [reflexivity|]. unfold tlist. rewrite Ss. cbn [hd]. split.
    + unfold tvec. cbn [shape]. rewrite !map_length, seq_length. reflexivity.
    + intros a Ha. unfold tvec. cbn [entry hd]. rewrite map_map.
      rewrite (nth_indep _ 0 (entry s [0%nat] / (entry s [0%nat] ^ 2 + l2))) by (rewrite map_length, seq_length; auto).
      rewrite (map_nth (fun i => entry s [i] / (entry s [i] ^ 2 + l2))). rewrite seq_nth by auto. reflexivity.
  - apply Forall_forall. intros e _. pose proof (pow2_ge_0 e). lra.
Qed.
Lemma ridge_inverse_ok svd l2 Q U s VT N K : svd Q = (U, s, VT) -> is_svd N K Q U s VT -> 0 < l2 ->
  exists P, ridge_inverse svd l2 Q = Ok P /\ shape P = [K; N] /\ forall j i, (j < K)%nat -> (i < N)%nat ->
    entry P [j; i] = lsum (Nat.min N K) (fun a => entry VT [a; j] * (entry s [a] / (entry s [a] ^ 2 + l2)) * entry U [i; a]).
Proof.
  intros E (SU & Ss & SV & _) Hl. set (r := Nat.min N K) in *. unfold ridge_inverse. rewrite E.
  destruct (ridge_filter_ok l2 s r Ss Hl) as (d & -> & Sd & Vd). cbn [bind].
  assert (STV : shape (ttrans VT) = [K; r]) by (unfold ttrans; cbn [shape]; rewrite SV; reflexivity).
  assert (STU : shape (ttrans U) = [r; N]) by (unfold ttrans; cbn [shape]; rewrite SU; reflexivity).
  destruct (tbop_rows Rmult (ttrans VT) d K r STV Sd) as (A & -> & SA & VA). cbn [bind].
  destruct (tmatmul_ok A (ttrans U) K r N SA STU) as (P & -> & SP & VP).
  exists P. split; auto. split; auto. intros j i Hj Hi. rewrite VP. apply lsum_ext. intros a Ha. rewrite VA, Vd by auto. reflexivity.
Qed.

(** ** the hidden layer on the unit square *)
Definition sq_adf (x : list R) : R := cj (cj (cj (1 - nth 0 x 0) (nth 0 x 0)) (1 - nth 1 x 0)) (nth 1 x 0).
Section Layer.
Variables (sys : rsys) (gamma : R) (W : list (list R)).
Hypothesis Hr0 : r0 = Ok sys.
Hypothesis HW : Forall (fun w => length w = 2%nat) W.
Let K := length W.
Let f := cube 1 false sys.
Lemma square_value x : length x = 2%nat -> f (A1 x) = Ok (sq_adf x).
Proof.
  intros L. destruct x as [|a [|b [|]]]; try discriminate. destruct r0_sys as (s' & E & Hc). rewrite Hr0 in E. injection E as <-.
  unfold f, cube, cuboid, compose. cbn -[Rminus]. rewrite Hc. cbn [bind]. rewrite Hc. cbn [bind]. rewrite Hc. cbn [bind reduce_from].
  unfold sq_adf. cbn [nth]. f_equal. rewrite !Rminus_0_r. reflexivity.
Qed.
Definition rbf (j : nat) (x : list R) : R := exp (- gamma * normR (map2 Rminus x (nth j W [])) ^ 2).
Definition neuron (j : nat) (x : list R) : R := sq_adf x * rbf j x.
Definition wsum (q : nat -> R) (x : list R) : R := lsum K (fun j => neuron j x * q j).
Lemma u_elm_value x : length x = 2%nat -> M_Notebook.u_elm f gamma W x = Ok (map (fun w => sq_adf x * exp (- gamma * normR (map2 Rminus x w) ^ 2)) W).
Proof.
  intros L. unfold M_Notebook.u_elm. rewrite square_value by auto. cbn [bind]. replace (forallb _ W) with true; [reflexivity|].
  symmetry. apply forallb_forall. rewrite Forall_forall in HW. intros w Hw. rewrite (HW w Hw), L. reflexivity.
Qed.
Lemma layer_rep : rep1 2 K (elm_layer f gamma W) neuron.
Proof.
  intros x Sx. assert (L : length (tlist x) = 2%nat) by (unfold tlist; rewrite Sx, map_length, seq_length; reflexivity).
  unfold elm_layer. rewrite Sx, u_elm_value by auto. cbn [bind]. eexists. split; [reflexivity|]. split.
  - unfold tvec. cbn [shape]. rewrite map_length. reflexivity.
  - intros j Hj. unfold tvec. cbn [entry hd]. unfold neuron, rbf. rewrite (nth_indep _ 0 ((fun w => sq_adf (tlist x) * exp (- gamma * normR (map2 Rminus (tlist x) w) ^ 2)) [])) by (rewrite map_length; auto).
    rewrite (map_nth (fun w => sq_adf (tlist x) * exp (- gamma * normR (map2 Rminus (tlist x) w) ^ 2))). reflexivity.
Qed.
Lemma model_value q x : length q = K -> length x = 2%nat -> elm_model f gamma W q x = Ok (wsum (fun j => nth j q 0) x).
Proof.
  intros Lq L. unfold elm_model. rewrite u_elm_value by auto. cbn [bind]. rewrite map_length. fold K. rewrite Lq, Nat.eqb_refl. f_equal.
  unfold wsum, neuron, rbf, K in *. clear -Lq. revert q Lq. induction W as [|w W' IH]; intros [|q0 q] Lq; try discriminate; [reflexivity|].
  cbn [map length]. unfold lsum. cbn [seq map sumR fold_right nth]. rewrite <- seq_shift, map_map. cbn [nth].
  unfold dotR in *. cbn [map2 sumR fold_right]. f_equal.
  change (fold_right Rplus 0) with sumR. rewrite (IH q) by (cbn in Lq; lia). reflexivity.
Qed.
Lemma D2_exp t : D2 exp t.
Proof.
  split; [apply filter_forall; intros s; exists (exp s); apply is_derive_exp|].
  apply (ex_derive_ext exp); [intros s; symmetry; apply is_derive_unique, is_derive_exp|]. exists (exp t). apply is_derive_exp.
Qed.
Lemma norm2_sq a b : normR [a; b] ^ 2 = a * a + b * b.
Proof. replace (normR [a; b] ^ 2) with (normR [a; b] * normR [a; b]) by ring. rewrite BaseFacts.normR_sq, !sumsq_cons. change (sumsq []) with 0. ring. Qed.
Lemma neuron_D2 j X l : (j < K)%nat -> in_square X -> (l < 2)%nat -> D2 (fun t => neuron j (upd X l t)) (nth l X 0).
Proof.
  intros Hj (a & b & -> & Ha & Hb) Hl. unfold neuron. apply (D2_mult (fun t => sq_adf (upd [a; b] l t)) (fun t => rbf j (upd [a; b] l t))).
  - set (t0 := nth l [a; b] 0).
    assert (C : forall i, (i < 2)%nat -> D2 (fun t => nth i (upd [a; b] l t) 0) t0) by (intros; apply D2_coord).
    assert (V : forall i, (i < 2)%nat -> 0 < nth i (upd [a; b] l t0) 0 < 1).
    { intros i Hi. unfold t0. rewrite upd_same. destruct i as [|[|i]]; try lia; cbn; lra. }
    assert (J : forall F G, D2 F t0 /\ 0 < F t0 -> D2 G t0 /\ 0 < G t0 -> D2 (fun s => cj (F s) (G s)) t0 /\ 0 < cj (F t0) (G t0)).
    { intros F G (A & B) (A' & B'). apply D2_cj; auto. }
    assert (LO : forall i, (i < 2)%nat -> D2 (fun t => nth i (upd [a; b] l t) 0) t0 /\ 0 < nth i (upd [a; b] l t0) 0).
    { intros i Hi. split; auto. apply V; auto. }
    assert (UP : forall i, (i < 2)%nat -> D2 (fun t => 1 - nth i (upd [a; b] l t) 0) t0 /\ 0 < 1 - nth i (upd [a; b] l t0) 0).
    { intros i Hi. split; [apply D2_minus; [apply D2_const|auto]|]. specialize (V i Hi). lra. }
    pose proof (J _ _ (UP 0%nat ltac:(lia)) (LO 0%nat ltac:(lia))) as J1. pose proof (J _ _ J1 (UP 1%nat ltac:(lia))) as J2.
    pose proof (J _ _ J2 (LO 1%nat ltac:(lia))) as J3. apply J3.
  - unfold rbf. apply (D2_comp exp (fun t => - gamma * normR (map2 Rminus (upd [a; b] l t) (nth j W [])) ^ 2)); [apply D2_exp|].
    assert (Lw : length (nth j W []) = 2%nat) by (rewrite Forall_forall in HW; apply HW, nth_In; auto).
    destruct (nth j W []) as [|w1 [|w2 [|]]]; try discriminate.
    apply (D2_ext (fun t => - gamma * ((nth 0 (upd [a; b] l t) 0 - w1) * (nth 0 (upd [a; b] l t) 0 - w1) + (nth 1 (upd [a; b] l t) 0 - w2) * (nth 1 (upd [a; b] l t) 0 - w2)))).
    + intros t. destruct l as [|[|l]]; try lia; cbn [upd map2 nth]; rewrite norm2_sq; reflexivity.
    + apply (D2_mult (fun _ => - gamma) (fun t => (nth 0 (upd [a; b] l t) 0 - w1) * (nth 0 (upd [a; b] l t) 0 - w1) + (nth 1 (upd [a; b] l t) 0 - w2) * (nth 1 (upd [a; b] l t) 0 - w2))); [apply D2_const|].
      assert (C : forall i w, D2 (fun t => nth i (upd [a; b] l t) 0 - w) (nth l [a; b] 0))
        by (intros i w; apply D2_minus; [apply D2_coord|apply D2_const]).
      apply (proj1 (D2_plus (fun t => (nth 0 (upd [a; b] l t) 0 - w1) * (nth 0 (upd [a; b] l t) 0 - w1)) (fun t => (nth 1 (upd [a; b] l t) 0 - w2) * (nth 1 (upd [a; b] l t) 0 - w2)) (nth l [a; b] 0)
        (D2_mult _ _ _ (C 0%nat w1) (C 0%nat w1)) (D2_mult _ _ _ (C 1%nat w2) (C 1%nat w2)))).
Qed.
Lemma wsum_lap q X : in_square X -> lap_ 2 (wsum q) X = lsum K (fun j => lap_ 2 (neuron j) X * q j).
Proof.
  intros HX. unfold lap_. change total with lsum.
  rewrite (lsum_ext 2 _ (fun l => lsum K (fun j => pd l (pd l (neuron j)) X * q j))).
  - rewrite lsum_swap. apply lsum_ext. intros j Hj. apply lsum_scal_r.
  - intros l Hl. assert (L : (l < length X)%nat) by (destruct HX as (a & b & -> & _); cbn; lia). unfold wsum.
    destruct (D2_lsum K (fun j t => neuron j (upd X l t) * q j) (nth l X 0)) as (A & B).
    { intros j Hj. apply D2_scal. apply neuron_D2; auto. }
    rewrite pd_pd by auto. rewrite B. apply lsum_ext. intros j Hj. rewrite pd_pd by auto.
    apply (D2_scal (fun t => neuron j (upd X l t)) (q j)). apply neuron_D2; auto.
Qed.
Lemma pd_same2 i g h X : length X = 2%nat -> (forall Y, length Y = 2%nat -> g Y = h Y) -> pd i g X = pd i h X.
Proof. intros L E. unfold pd. apply Derive_ext. intros t. apply E. rewrite upd_length. auto. Qed.
Lemma lap_same2 g h X : length X = 2%nat -> (forall Y, length Y = 2%nat -> g Y = h Y) -> lap_ 2 g X = lap_ 2 h X.
Proof.
  intros L E. unfold lap_. change total with lsum. apply lsum_ext. intros l Hl. apply pd_same2; auto.
  intros Y LY. apply pd_same2; auto.
Qed.
Lemma square_zero x : on_square x -> sq_adf x = 0.
Proof.
  intros (a & b & -> & Ha & Hb & E). unfold sq_adf. cbn [nth].
  assert (Z1 : forall c, 0 <= c -> cj 0 c = 0).
  { intros c Hc. unfold cj. replace (0 ^ 2 + c ^ 2) with (c ^ 2) by ring. rewrite sqrt_pow2 by auto. ring. }
  assert (Z2 : forall c, 0 <= c -> cj c 0 = 0).
  { intros c Hc. unfold cj. replace (c ^ 2 + 0 ^ 2) with (c ^ 2) by ring. rewrite sqrt_pow2 by auto. ring. }
  assert (P : forall c d, 0 <= c -> 0 <= d -> 0 <= cj c d).
  { intros c d Hc Hd. unfold cj. assert (sqrt (c ^ 2 + d ^ 2) <= c + d); [|lra].
    rewrite <- (sqrt_pow2 (c + d)) by lra. apply sqrt_le_1_alt. nra. }
  destruct E as [-> | [-> | [-> | ->]]].
  - rewrite Rminus_0_r, Z2 by lra. rewrite Z1 by lra. apply Z1. lra.
  - replace (1 - 1) with 0 by ring. rewrite Z1 by lra. rewrite Z1 by lra. apply Z1. lra.
  - apply Z2. apply P; [apply P; lra|lra].
  - replace (1 - 1) with 0 by ring. rewrite Z2 by (apply P; lra). apply Z1. lra.
Qed.
Lemma model_boundary q x : length q = K -> on_square x -> elm_model f gamma W q x = Ok 0.
Proof.
  intros Lq Hx. rewrite model_value; auto; [|destruct Hx as (a & b & -> & _); reflexivity]. f_equal. unfold wsum, neuron.
  rewrite (square_zero x Hx). rewrite (lsum_ext K _ (fun j => 0 * 0)) by (intros; ring). rewrite lsum_scal. ring.
Qed.

Variables (X : list tensor) (sol : tensor -> res tensor) (g : list R -> R) (l2 : R).
Hypotheses (HX0 : X <> []) (HX : forall x, In x X -> shape x = [2%nat] /\ in_square (tlist x)).
Hypotheses (Hsol : rep0 2 sol g) (Hl : 0 < l2).
Let N := length X.
Let pt i := tlist (nth i X (tsc 0)).
Variables (svd : tensor -> tensor * tensor * tensor) (U s VT : tensor).
Hypothesis Hsvd : forall Q, vmapT (laplace (elm_layer f gamma W)) X = Ok Q -> svd Q = (U, s, VT) /\ is_svd N K Q U s VT.
Variable (u : list R -> list R -> R).
Hypothesis Hu : forall q x, length q = K -> length x = 2%nat -> elm_model f gamma W q x = Ok (u q x).

Lemma matrix_ok : exists Q, vmapT (laplace (elm_layer f gamma W)) X = Ok Q /\ shape Q = [N; K] /\
  forall i j, (i < N)%nat -> (j < K)%nat -> entry Q [i; j] = lap_ 2 (neuron j) (pt i).
Proof.
  destruct (vmapT_ok (laplace (elm_layer f gamma W)) X [K]
    (fun x y => forall j, (j < K)%nat -> entry y [j] = lap_ 2 (neuron j) (tlist x)) HX0) as (Q & EQ & SQ & VQ).
  { intros x Hx. destruct (HX x Hx) as (Sx & _). destruct (laplace_rep1 2 K _ _ x ltac:(lia) layer_rep Sx) as (y & -> & Sy & Vy).
    eexists. split; [reflexivity|]. split; [exact Sy|]. exact Vy. }
  exists Q. split; auto. split; auto. intros i j Hi Hj.
  destruct (VQ i (nth i X (tsc 0))) as (y & _ & _ & Vy & Ey); [apply nth_error_nth'; auto|]. rewrite Ey. apply Vy; auto.
Qed.
Lemma target_ok : exists B, vmapT (laplace sol) X = Ok B /\ shape B = [N] /\
  forall i, (i < N)%nat -> entry B [i] = lap_ 2 g (pt i).
Proof.
  destruct (vmapT_ok (laplace sol) X [] (fun x y => entry y [] = lap_ 2 g (tlist x)) HX0) as (Q & EQ & SQ & VQ).
  { intros x Hx. destruct (HX x Hx) as (Sx & _). destruct (laplace_rep0 2 _ _ x ltac:(lia) Hsol Sx) as (y & -> & Sy & Vy).
    eexists. split; [reflexivity|]. split; [exact Sy|]. exact Vy. }
  exists Q. split; auto. split; auto. intros i Hi.
  destruct (VQ i (nth i X (tsc 0))) as (y & _ & _ & Vy & Ey); [apply nth_error_nth'; auto|]. rewrite Ey. apply Vy; auto.
Qed.
Lemma tlist_nth (p : tensor) k j : shape p = [k] -> (j < k)%nat -> nth j (tlist p) 0 = entry p [j].
Proof.
  intros Sp Hj. unfold tlist. rewrite Sp. cbn [hd]. rewrite (nth_indep _ 0 (entry p [0%nat])) by (rewrite map_length, seq_length; auto).
  rewrite (map_nth (fun i => entry p [i])), seq_nth by auto. reflexivity.
Qed.
Lemma poisson_ok : exists p, poisson_fit svd f gamma W l2 sol X = Ok p /\ shape p = [K] /\
  forall q, length q = K ->
    ridge_objective X l2 g (u (tlist p)) (tlist p) <= ridge_objective X l2 g (u q) q /\
    (ridge_objective X l2 g (u q) q <= ridge_objective X l2 g (u (tlist p)) (tlist p) -> q = tlist p).
Proof.
  destruct matrix_ok as (Q & EQ & SQ & VQ). destruct (Hsvd Q EQ) as (Es & HS).
  destruct (ridge_inverse_ok svd l2 Q U s VT N K Es HS Hl) as (P & EP & SP & VP). destruct target_ok as (B & EB & SB & VB).
  destruct (tmatvec_mat P B K N SP SB) as (p & Ep & Sp & Vp).
  exists p. split. { unfold poisson_fit. rewrite EQ. cbn [bind]. rewrite EP. cbn [bind]. rewrite EB. exact Ep. }
  split; auto. destruct HS as (SU & Ss & SV & OU & OV & _ & DQ). set (r := Nat.min N K) in *.
  pose (fU := fun i a => entry U [i; a]). pose (fV := fun a j => entry VT [a; j]). pose (fQ := fun i j => entry Q [i; j]).
  pose (fs := fun a => entry s [a]). pose (fb := fun i => entry B [i]).
  assert (Lp : length (tlist p) = K) by (unfold tlist; rewrite Sp, map_length, seq_length; reflexivity).
  assert (MR : forall q, length q = K -> ridge_objective X l2 g (u q) q = ridge N K fQ fb l2 (fun j => nth j q 0)).
  { intros q Lq. unfold ridge_objective, ridge. rewrite (sum_list _ (tsc 0)), (sum_list (fun e => e ^ 2) 0), Lq. f_equal. unfold residual. fold N.
    apply lsum_ext. intros i Hi. fold (pt i). assert (Hp : in_square (pt i)) by (apply HX, nth_In; auto).
    assert (Lpt : length (pt i) = 2%nat) by (destruct Hp as (a1 & b1 & E1 & _); rewrite E1; reflexivity).
    rewrite (lap_same2 (u q) (wsum (fun j => nth j q 0))); auto.
    2:{ intros Y LY. pose proof (Hu q Y Lq LY) as E. rewrite model_value in E by auto. congruence. }
    rewrite wsum_lap by auto. unfold fb. rewrite VB by auto. f_equal. f_equal. apply lsum_ext. intros j Hj. unfold fQ. rewrite VQ by auto. ring. }
  assert (PS : forall j, (j < K)%nat -> nth j (tlist p) 0 = ridge_solution N r fU fV fs fb l2 j).
  { intros j Hj. rewrite (tlist_nth p K j Sp Hj). rewrite Vp. unfold ridge_solution.
    rewrite (lsum_ext N _ (fun i => lsum r (fun a => fV a j * (fs a / (fs a ^ 2 + l2)) * (fU i a * fb i)))).
    - rewrite lsum_swap. apply lsum_ext. intros a Ha. rewrite lsum_scal. reflexivity.
    - intros i Hi. rewrite VP by auto. rewrite <- lsum_scal_r. apply lsum_ext. intros a Ha. unfold fV, fs, fU, fb. ring. }
  assert (RP : ridge N K fQ fb l2 (fun j => nth j (tlist p) 0) = ridge N K fQ fb l2 (ridge_solution N r fU fV fs fb l2)).
  { unfold ridge, residual. f_equal; [|f_equal]; apply lsum_ext; intros i Hi; [|rewrite PS by auto; reflexivity].
    f_equal. f_equal. apply lsum_ext. intros j Hj. rewrite PS by auto. reflexivity. }
  intros q Lq. rewrite !MR, RP by auto. split.
  - apply ridge_minimal with (U := fU) (VT := fV) (s := fs); auto.
  - intros H. apply (nth_ext _ _ 0 0); [congruence|]. intros j Hj. rewrite PS by congruence.
    apply (ridge_unique N K r fU fV fQ fs fb l2 OU OV DQ Hl (fun j => nth j q 0) H). congruence.
Qed.
End Layer.
(** without regularisation a zero singular value gives nan *)
Lemma ridge_filter_zero s r a : shape s = [r] -> (a < r)%nat -> entry s [a] = 0 -> ridge_filter 0 s = Err NonFinite.
Proof.
  intros Ss Ha E. unfold ridge_filter. replace (sequence _) with (@Err (list R) NonFinite); [reflexivity|]. symmetry.
  assert (I : In 0 (tlist s)).
  { unfold tlist. rewrite Ss. cbn [hd]. rewrite <- E. apply in_map_iff. exists a. split; auto. apply in_seq. lia. }
  revert I. generalize (tlist s) as l. induction l as [|e l IH]; intros I; [destruct I|]; destruct I as [->|I]; simpl.
  - unfold fdiv. destruct (Req_EM_T (0 * (0 * 1) + 0) 0) as [|N0]; [reflexivity|exfalso; apply N0; ring].
  - unfold fdiv at 1. destruct (Req_EM_T (e * (e * 1) + 0) 0); [reflexivity|]. cbn [bind].
    simpl in IH. rewrite (IH I). reflexivity.
Qed.
Lemma poisson_fit_lemma sys gamma W X sol g l2 svd u : r0 = Ok sys -> Forall (fun w => length w = 2%nat) W ->
  X <> [] -> (forall x, In x X -> shape x = [2%nat] /\ in_square (tlist x) /\ ~ In (tlist x) W) ->
  rep0 2 sol g -> 0 < l2 ->
  (forall Q, vmapT (laplace (elm_layer (cube 1 false sys) gamma W)) X = Ok Q ->
     exists U s VT, svd Q = (U, s, VT) /\ is_svd (length X) (length W) Q U s VT) ->
  (forall q x, length q = length W -> length x = 2%nat -> elm_model (cube 1 false sys) gamma W q x = Ok (u q x)) ->
  exists p, poisson_fit svd (cube 1 false sys) gamma W l2 sol X = Ok p /\ shape p = [length W] /\
    forall q, length q = length W ->
      ridge_objective X l2 g (u (tlist p)) (tlist p) <= ridge_objective X l2 g (u q) q /\
      (ridge_objective X l2 g (u q) q <= ridge_objective X l2 g (u (tlist p)) (tlist p) -> q = tlist p).
Proof.
  intros E HW X0 HX Hs Hl Hsvd Hu.
  assert (HX' : forall x, In x X -> shape x = [2%nat] /\ in_square (tlist x)) by (intros x Hx; destruct (HX x Hx) as (A & B & _); auto).
  destruct (matrix_ok sys gamma W E HW X X0 HX') as (Q & EQ & _). destruct (Hsvd Q EQ) as (U & s & VT & Es & HS).
  apply (poisson_ok sys gamma W E HW X sol g l2 X0 HX' Hs Hl svd U s VT); auto.
  intros Q' EQ'. rewrite EQ in EQ'. injection EQ' as <-. auto.
Qed.
Lemma ridge_inverse_zero svd Q U s VT N K a : svd Q = (U, s, VT) -> is_svd N K Q U s VT ->
  (a < Nat.min N K)%nat -> entry s [a] = 0 -> ridge_inverse svd 0 Q = Err NonFinite.
Proof.
  intros E (SU & Ss & _) Ha Z. unfold ridge_inverse. rewrite E, (ridge_filter_zero s _ a Ss Ha Z). reflexivity.
Qed.
