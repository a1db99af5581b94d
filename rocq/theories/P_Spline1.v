(** The B-spline basis: support, sign, sums. *)
From Verif Require Import Base BaseFacts P_Vec M_Spline S_Spline.

Lemma Rleb_true a b : Rleb a b = true <-> a <= b.
Proof. unfold Rleb. destruct (Rle_dec a b); intuition congruence. Qed.
Lemma Rltb_true a b : Rltb a b = true <-> a < b.
Proof. unfold Rltb. destruct (Rlt_dec a b); intuition congruence. Qed.
Lemma Reqb_true a b : Reqb a b = true <-> a = b.
Proof. unfold Reqb. destruct (Req_EM_T a b); intuition congruence. Qed.

Lemma node_nth t i : (i < length t)%nat -> node t i = nth i t 0.
Proof. intros H. unfold node. rewrite Nat.min_l by lia. auto. Qed.
Lemma node_mono t : sorted t -> forall i j, (i <= j)%nat -> node t i <= node t j.
Proof.
  intros H i j Hij. unfold node. destruct t as [|a t].
  - destruct (Nat.min i _), (Nat.min j _); simpl; lra.
  - apply H. cbn [length]. lia.
Qed.

(** the cell indicator *)
Definition cell (x : R) (i : nat) (t : list R) : R := if andb (Rleb (node t i) x) (Rltb x (node t (i + 1))) then 1 else 0.
Lemma cell_in x i t : node t i <= x < node t (i + 1) -> cell x i t = 1.
Proof. intros [H1 H2]. unfold cell. rewrite (proj2 (Rleb_true _ _) H1), (proj2 (Rltb_true _ _) H2). auto. Qed.
Lemma cell_out x i t : ~ (node t i <= x < node t (i + 1)) -> cell x i t = 0.
Proof.
  intros H. unfold cell. destruct (Rleb (node t i) x) eqn:E1; auto. destruct (Rltb x (node t (i + 1))) eqn:E2; auto.
  apply Rleb_true in E1. apply Rltb_true in E2. tauto.
Qed.

(** weight (x - t_i) / (t_{i+k} - t_i), zero for an empty interval *)
Definition wt (x : R) (k i : nat) (t : list R) : R :=
  if Reqb (node t (i + k)) (node t i) then 0 else (x - node t i) / (node t (i + k) - node t i).

Lemma base_fun_support t : sorted t -> forall x k i, ~ (node t i <= x < node t (i + k + 1)) -> base_fun x k i t = 0.
Proof.
  intros Hs x. induction k as [|k IH]; intros i H.
  - cbn [base_fun]. apply cell_out. rewrite Nat.add_0_r in H. auto.
  - cbn [base_fun]. rewrite (IH i), (IH (i + 1)%nat).
    + destruct (Reqb _ _), (Reqb _ _); ring.
    + intros [H1 H2]. apply H. split; [|replace (i + S k + 1)%nat with (i + 1 + k + 1)%nat by lia; auto].
      apply Rle_trans with (node t (i + 1)); auto. apply node_mono; auto. lia.
    + intros [H1 H2]. apply H. split; auto. eapply Rlt_le_trans; eauto. apply node_mono; auto. lia.
Qed.

(** two-term recursion without case distinctions *)
Lemma base_fun_rec t : sorted t -> forall x k i,
  base_fun x (S k) i t = wt x (S k) i t * base_fun x k i t + (1 - wt x (S k) (i + 1) t) * base_fun x k (i + 1) t.
Proof.
  intros Hs x k i. cbn [base_fun]. unfold wt. f_equal.
  - destruct (Reqb _ _) eqn:E; [ring|auto].
  - replace (i + S k + 1)%nat with (i + 1 + S k)%nat by lia. destruct (Reqb _ _) eqn:E.
    + rewrite (base_fun_support t Hs x k (i + 1)); [ring|]. apply Reqb_true in E.
      replace (i + 1 + k + 1)%nat with (i + 1 + S k)%nat by lia. lra.
    + f_equal. assert (node t (i + 1 + S k) <> node t (i + 1)) by (intros H; apply Reqb_true in H; congruence).
      field. lra.
Qed.
Lemma wt_range t : sorted t -> forall x k i, base_fun x k i t <> 0 -> 0 <= wt x (S k) i t <= 1.
Proof.
  intros Hs x k i H. assert (Hx : node t i <= x < node t (i + k + 1)).
  { destruct (Rle_dec (node t i) x), (Rlt_dec x (node t (i + k + 1))); try tauto; exfalso; apply H, base_fun_support; auto; lra. }
  unfold wt. replace (i + S k)%nat with (i + k + 1)%nat by lia. destruct (Reqb _ _) eqn:E; [lra|].
  assert (0 < node t (i + k + 1) - node t i) by lra. split.
  - apply Rmult_le_pos; [lra|]. left. apply Rinv_0_lt_compat. auto.
  - apply (Rmult_le_reg_r (node t (i + k + 1) - node t i)); auto. unfold Rdiv. rewrite Rmult_assoc, Rinv_l; lra.
Qed.
Lemma base_fun_nonneg t : sorted t -> forall x k i, 0 <= base_fun x k i t.
Proof.
  intros Hs x. induction k as [|k IH]; intros i.
  - cbn [base_fun]. destruct (andb _ _); lra.
  - rewrite base_fun_rec by auto. apply Rplus_le_le_0_compat.
    + destruct (Req_dec (base_fun x k i t) 0) as [->|N]; [lra|]. apply Rmult_le_pos; auto. apply wt_range; auto.
    + destruct (Req_dec (base_fun x k (i + 1) t) 0) as [->|N]; [lra|]. apply Rmult_le_pos; auto.
      pose proof (wt_range t Hs x k (i + 1) N). lra.
Qed.

(** *** sums over the index *)
Fixpoint sumn (n : nat) (f : nat -> R) : R := match n with O => 0 | S m => sumn m f + f m end.
Lemma sumn_ext n f g : (forall i, (i < n)%nat -> f i = g i) -> sumn n f = sumn n g.
Proof. induction n as [|n IH]; intros H; [reflexivity|]. cbn [sumn]. rewrite (H n) by lia. f_equal. apply IH. intros; apply H; lia. Qed.
Lemma sumn_le n f g : (forall i, (i < n)%nat -> f i <= g i) -> sumn n f <= sumn n g.
Proof. induction n as [|n IH]; intros H; cbn [sumn]; [lra|]. apply Rplus_le_compat; [apply IH; intros; apply H; lia|apply H; lia]. Qed.
Lemma sumn_scal n c f : sumn n (fun i => c * f i) = c * sumn n f.
Proof. induction n as [|n IH]; cbn [sumn]; [ring|rewrite IH; ring]. Qed.
Lemma sumn_plus n f g : sumn n (fun i => f i + g i) = sumn n f + sumn n g.
Proof. induction n as [|n IH]; cbn [sumn]; [ring|rewrite IH; ring]. Qed.
Lemma sumn_shift n f : sumn (S n) f = f 0%nat + sumn n (fun i => f (S i)).
Proof. induction n as [|n IH]; cbn [sumn] in *; [ring|rewrite IH; ring]. Qed.
Lemma sumn_0 n f : (forall i, (i < n)%nat -> f i = 0) -> sumn n f = 0.
Proof. induction n as [|n IH]; intros H; cbn [sumn]; [ring|]. rewrite H, IH by (intros; try apply H; lia). ring. Qed.

(** de Boor step: a combination of degree k+1 functions is one of degree k functions *)
Lemma de_boor_step t : sorted t -> forall x k n c, (1 <= n)%nat -> base_fun x k 0 t = 0 -> base_fun x k n t = 0 ->
  sumn n (fun i => c (S i) * base_fun x (S k) i t) =
  sumn (S n) (fun i => (c (S i) * wt x (S k) i t + c i * (1 - wt x (S k) i t)) * base_fun x k i t).
Proof.
  intros Hs x k n c Hn H0 HN.
  rewrite (sumn_ext n _ (fun i => c (S i) * (wt x (S k) i t * base_fun x k i t) + c (S i) * ((1 - wt x (S k) (S i) t) * base_fun x k (S i) t))).
  2:{ intros i _. rewrite base_fun_rec by auto. replace (i + 1)%nat with (S i) by lia. ring. }
  rewrite sumn_plus.
  rewrite (sumn_ext (S n) _ (fun i => c (S i) * (wt x (S k) i t * base_fun x k i t) + c i * ((1 - wt x (S k) i t) * base_fun x k i t))) by (intros; ring).
  rewrite sumn_plus. f_equal.
  - cbn [sumn]. rewrite HN. ring.
  - rewrite (sumn_shift n (fun i => c i * _)). rewrite H0. ring.
Qed.

Lemma cell_sum t : sorted t -> forall x n, sumn n (fun i => cell x i t) = if andb (Rleb (node t 0) x) (Rltb x (node t n)) then 1 else 0.
Proof.
  intros Hs x. induction n as [|n IH].
  - cbn [sumn]. destruct (Rleb _ _) eqn:E1; auto. destruct (Rltb _ _) eqn:E2; auto. apply Rleb_true in E1. apply Rltb_true in E2. lra.
  - cbn [sumn]. rewrite IH. unfold cell. replace (n + 1)%nat with (S n) by lia.
    pose proof (node_mono t Hs 0 n ltac:(lia)). pose proof (node_mono t Hs n (S n) ltac:(lia)).
    unfold Rleb, Rltb. destruct (Rle_dec (node t 0) x), (Rlt_dec x (node t n)), (Rle_dec (node t n) x), (Rlt_dec x (node t (S n))); simpl; lra.
Qed.

(** every combination whose coefficients reduce by a factor at each level *)
Lemma marsden t : sorted t -> forall x y k n, node t k <= x < node t n ->
  let psi := fix psi i k := match k with O => 1 | S m => psi i m * (y - node t (i + S m)) end in
  sumn n (fun i => psi i k * base_fun x k i t) = (y - x) ^ k.
Proof.
  intros Hs x y. set (psi := fix psi i k := match k with O => 1 | S m => psi i m * (y - node t (i + S m)) end).
  assert (Psi : forall k i, psi i (S k) = (y - node t (i + 1)) * psi (i + 1)%nat k).
  { induction k as [|k IH]; intros i; [simpl; ring|].
    change (psi i (S (S k))) with (psi i (S k) * (y - node t (i + S (S k)))).
    change (psi (i + 1)%nat (S k)) with (psi (i + 1)%nat k * (y - node t (i + 1 + S k))).
    rewrite IH. replace (i + 1 + S k)%nat with (i + S (S k))%nat by lia. ring. }
  induction k as [|k IH]; intros n Hx; cbv zeta in *.
  - rewrite (sumn_ext n _ (fun i => cell x i t)) by (intros i _; simpl; unfold cell; ring).
    rewrite cell_sum by auto. rewrite (proj2 (Rleb_true _ _) (proj1 Hx)), (proj2 (Rltb_true _ _) (proj2 Hx)). reflexivity.
  - assert (Hkn : (S k < n)%nat).
    { destruct (Nat.lt_ge_cases (S k) n); auto. pose proof (node_mono t Hs n (S k) ltac:(lia)). lra. }
    pose (c := fun i => match i with O => psi 0%nat k * (y - node t 0) | S j => psi j (S k) end).
    rewrite (sumn_ext n _ (fun i => c (S i) * base_fun x (S k) i t)) by (intros; reflexivity).
    assert (B0 : base_fun x k 0 t = 0).
    { apply base_fun_support; auto. replace (0 + k + 1)%nat with (S k) by lia. lra. }
    rewrite de_boor_step; auto; try lia.
    2:{ apply base_fun_support; auto. lra. }
    rewrite (sumn_ext (S n) _ (fun i => (y - x) * (psi i k * base_fun x k i t))).
    + rewrite sumn_scal, IH; [simpl; ring|]. pose proof (node_mono t Hs k (S k) ltac:(lia)). pose proof (node_mono t Hs n (S n) ltac:(lia)). lra.
    + intros i Hi. destruct (Req_dec (base_fun x k i t) 0) as [->|N]; [ring|].
      assert (HI : node t i <= x < node t (i + k + 1)).
      { destruct (Rle_dec (node t i) x), (Rlt_dec x (node t (i + k + 1))); try tauto; exfalso; apply N, base_fun_support; auto; lra. }
      destruct i as [|i]; [congruence|]. cbn [c]. change (psi (S i) (S k)) with (psi (S i) k * (y - node t (S i + S k))).
      rewrite Psi. replace (i + 1)%nat with (S i) by lia. unfold wt. destruct (Reqb _ _) eqn:E.
      * apply Reqb_true in E. replace (S i + S k)%nat with (S i + k + 1)%nat in E by lia. lra.
      * replace (S i + S k)%nat with (S i + k + 1)%nat in * by lia. field. lra.
Qed.
Lemma level_down t : sorted t -> forall x k n, node t (S k) <= x < node t n ->
  (1 <= n)%nat /\ base_fun x k 0 t = 0 /\ base_fun x k n t = 0 /\ node t k <= x < node t (S n).
Proof.
  intros Hs x k n Hx.
  assert (Hkn : (S k < n)%nat).
  { destruct (Nat.lt_ge_cases (S k) n); auto. pose proof (node_mono t Hs n (S k) ltac:(lia)). lra. }
  pose proof (node_mono t Hs k (S k) ltac:(lia)). pose proof (node_mono t Hs n (S n) ltac:(lia)).
  split; [lia|]. split; [|split; [|lra]]; apply base_fun_support; auto; [replace (0 + k + 1)%nat with (S k) by lia|]; lra.
Qed.
Lemma partition t : sorted t -> forall x k n, node t k <= x < node t n -> sumn n (fun i => base_fun x k i t) = 1.
Proof.
  intros Hs x. induction k as [|k IH]; intros n Hx.
  - rewrite (sumn_ext n _ (fun i => cell x i t)) by (intros; reflexivity).
    rewrite cell_sum by auto. rewrite (proj2 (Rleb_true _ _) (proj1 Hx)), (proj2 (Rltb_true _ _) (proj2 Hx)). reflexivity.
  - destruct (level_down t Hs x k n Hx) as (Hn & H0 & HN & Hx').
    rewrite (sumn_ext n _ (fun i => (fun _ => 1) (S i) * base_fun x (S k) i t)) by (intros; ring).
    rewrite (de_boor_step t Hs x k n (fun _ => 1)) by auto.
    rewrite (sumn_ext (S n) _ (fun i => base_fun x k i t)) by (intros; ring). apply IH; auto.
Qed.
Fixpoint nsum (t : list R) (i k : nat) : R := match k with O => 0 | S m => nsum t i m + node t (i + S m) end.
Lemma nsum_S t k i : nsum t i (S k) = node t (i + 1) + nsum t (i + 1) k.
Proof.
  induction k as [|k IH]; [simpl; ring|]. change (nsum t i (S (S k))) with (nsum t i (S k) + node t (i + S (S k))).
  change (nsum t (i + 1) (S k)) with (nsum t (i + 1) k + node t (i + 1 + S k)). rewrite IH.
  replace (i + 1 + S k)%nat with (i + S (S k))%nat by lia. ring.
Qed.
Lemma linear_precision t : sorted t -> forall x k n, node t k <= x < node t n ->
  sumn n (fun i => nsum t i k * base_fun x k i t) = INR k * x.
Proof.
  intros Hs x. induction k as [|k IH]; intros n Hx.
  - simpl nsum. rewrite sumn_0 by (intros; ring). simpl. ring.
  - destruct (level_down t Hs x k n Hx) as (Hn & H0 & HN & Hx').
    pose (c := fun i => match i with O => node t 0 + nsum t 0 k | S j => nsum t j (S k) end).
    rewrite (sumn_ext n _ (fun i => c (S i) * base_fun x (S k) i t)) by (intros; reflexivity).
    rewrite de_boor_step by auto.
    rewrite (sumn_ext (S n) _ (fun i => x * base_fun x k i t + nsum t i k * base_fun x k i t)).
    + rewrite sumn_plus, sumn_scal, IH, partition by auto. rewrite S_INR. ring.
    + intros i Hi. destruct (Req_dec (base_fun x k i t) 0) as [->|N]; [ring|].
      assert (HI : node t i <= x < node t (i + k + 1)).
      { destruct (Rle_dec (node t i) x), (Rlt_dec x (node t (i + k + 1))); try tauto; exfalso; apply N, base_fun_support; auto; lra. }
      destruct i as [|i]; [congruence|]. cbn [c]. change (nsum t (S i) (S k)) with (nsum t (S i) k + node t (S i + S k)).
      rewrite nsum_S. replace (i + 1)%nat with (S i) by lia. unfold wt. destruct (Reqb _ _) eqn:E.
      * apply Reqb_true in E. replace (S i + S k)%nat with (S i + k + 1)%nat in E by lia. lra.
      * replace (S i + S k)%nat with (S i + k + 1)%nat in * by lia. field. lra.
Qed.
Lemma sum_le_one t : sorted t -> forall x k n, sumn n (fun i => base_fun x k i t) <= 1.
Proof.
  intros Hs x. induction k as [|k IH]; intros n.
  - rewrite (sumn_ext n _ (fun i => cell x i t)) by (intros; reflexivity). rewrite cell_sum by auto. destruct (andb _ _); lra.
  - apply Rle_trans with (sumn (S n) (fun i => base_fun x k i t)); [|auto].
    rewrite (sumn_ext n _ (fun i => wt x (S k) i t * base_fun x k i t + (1 - wt x (S k) (S i) t) * base_fun x k (S i) t)).
    2:{ intros i _. rewrite base_fun_rec by auto. replace (i + 1)%nat with (S i) by lia. reflexivity. }
    rewrite sumn_plus.
    assert (E : sumn n (fun i => wt x (S k) i t * base_fun x k i t) <= sumn (S n) (fun i => wt x (S k) i t * base_fun x k i t)).
    { cbn [sumn]. destruct (Req_dec (base_fun x k n t) 0) as [->|N]; [lra|]. pose proof (wt_range t Hs x k n N).
      pose proof (base_fun_nonneg t Hs x k n). nra. }
    assert (F : sumn n (fun i => (1 - wt x (S k) (S i) t) * base_fun x k (S i) t) <= sumn (S n) (fun i => (1 - wt x (S k) i t) * base_fun x k i t)).
    { rewrite (sumn_shift n (fun i => (1 - wt x (S k) i t) * base_fun x k i t)).
      destruct (Req_dec (base_fun x k 0 t) 0) as [->|N]; [lra|]. pose proof (wt_range t Hs x k 0 N).
      pose proof (base_fun_nonneg t Hs x k 0). nra. }
    eapply Rle_trans; [apply Rplus_le_compat; eassumption|]. rewrite <- sumn_plus. apply sumn_le. intros. lra.
Qed.

(** *** list form *)
Lemma sumn_seq n f : sumR (map f (seq 0 n)) = sumn n f.
Proof.
  induction n as [|n IH]; [reflexivity|]. rewrite seq_S, map_app. simpl map. cbn [sumn]. rewrite <- IH.
  unfold sumR. rewrite fold_right_app. simpl. generalize (f n). intros a. clear. induction (map f (seq 0 n)) as [|b l IH]; simpl; [ring|rewrite IH; ring].
Qed.
Lemma combine_map n (c : nat -> R) f : forall k, combine_with (map c (seq k n)) (map f (seq k n)) = sumR (map (fun i => c i * f i) (seq k n)).
Proof. induction n as [|n IH]; intros k; [reflexivity|]. simpl. rewrite IH. reflexivity. Qed.
Lemma combine_sumn n c f : combine_with (map c (seq 0 n)) (map f (seq 0 n)) = sumn n (fun i => c i * f i).
Proof. rewrite combine_map. apply sumn_seq. Qed.
Lemma basis_ok x t k b : spline_basis x t k = Ok b ->
  t <> [] /\ b = map (fun i => base_fun x k i t) (seq 0 (length t - k - 1)).
Proof. unfold spline_basis. destruct t; [discriminate|]. intros H. assert (E : b = map (fun i => base_fun x k i (r :: t)) (seq 0 (length (r :: t) - k - 1))) by congruence. split; [discriminate|auto]. Qed.
Lemma nth_map_seq {A} (f : nat -> A) n i d : (i < n)%nat -> nth i (map f (seq 0 n)) d = f i.
Proof.
  intros H. rewrite (nth_indep _ d (f 0%nat)) by (rewrite map_length, seq_length; auto).
  rewrite (map_nth f), seq_nth by auto. reflexivity.
Qed.

Lemma basis_defined x t k : t <> [] -> exists b, spline_basis x t k = Ok b /\ length b = (length t - k - 1)%nat.
Proof. intros H. unfold spline_basis. destruct t; [congruence|]. eexists. split; [reflexivity|]. rewrite map_length, seq_length. auto. Qed.
Lemma basis_support x t k b i : sorted t -> spline_basis x t k = Ok b -> (i < length b)%nat ->
  0 <= nth i b 0 /\ (~ (nth i t 0 <= x < nth (i + k + 1) t 0) -> nth i b 0 = 0).
Proof.
  intros Hs H Hi. apply basis_ok in H as (N & ->). rewrite map_length, seq_length in Hi. rewrite nth_map_seq by auto.
  split; [apply base_fun_nonneg; auto|]. intros Hx. apply base_fun_support; auto. rewrite !node_nth by lia. auto.
Qed.
(** a (k+1)-fold node: the function that starts there has value 1 *)
Lemma base_fun_left t : sorted t -> forall x k i, node t i = x -> node t (i + k) <= x < node t (i + k + 1) -> base_fun x k i t = 1.
Proof.
  intros Hs x. induction k as [|k IH]; intros i H1 H2.
  - cbn [base_fun]. fold (cell x i t). apply cell_in. rewrite Nat.add_0_r in H2. lra.
  - rewrite base_fun_rec by auto. pose proof (node_mono t Hs i (i + 1) ltac:(lia)). pose proof (node_mono t Hs (i + 1) (i + S k) ltac:(lia)).
    replace (i + S k + 1)%nat with (i + 1 + S k)%nat in * by lia.
    rewrite (IH (i + 1)%nat) by (replace (i + 1 + k)%nat with (i + S k)%nat by lia; replace (i + S k + 1)%nat with (i + 1 + S k)%nat by lia; lra).
    unfold wt. rewrite (proj2 (Reqb_true (node t (i + S k)) (node t i))) by lra.
    destruct (Reqb _ _) eqn:E; [ring|]. replace (x - node t (i + 1)) with 0 by lra. unfold Rdiv. ring.
Qed.
(** positive inside the open support *)
Lemma base_fun_pos t : sorted t -> forall x k i, node t i < x < node t (i + k + 1) -> 0 < base_fun x k i t.
Proof.
  intros Hs x. induction k as [|k IH]; intros i Hx.
  - cbn [base_fun]. fold (cell x i t). rewrite cell_in; [lra|]. rewrite Nat.add_0_r in Hx. lra.
  - rewrite base_fun_rec by auto.
    assert (W1 : base_fun x k i t <> 0 -> 0 < wt x (S k) i t).
    { intros N. assert (HI : node t i <= x < node t (i + k + 1)).
      { destruct (Rle_dec (node t i) x), (Rlt_dec x (node t (i + k + 1))); try tauto; exfalso; apply N, base_fun_support; auto; lra. }
      unfold wt. replace (i + S k)%nat with (i + k + 1)%nat by lia. destruct (Reqb _ _) eqn:E; [apply Reqb_true in E; lra|].
      apply Rmult_lt_0_compat; [lra|]. apply Rinv_0_lt_compat. lra. }
    assert (W2 : base_fun x k (i + 1) t <> 0 -> 0 < 1 - wt x (S k) (i + 1) t).
    { intros N. assert (HI : node t (i + 1) <= x < node t (i + 1 + k + 1)).
      { destruct (Rle_dec (node t (i + 1)) x), (Rlt_dec x (node t (i + 1 + k + 1))); try tauto; exfalso; apply N, base_fun_support; auto; lra. }
      unfold wt. replace (i + 1 + S k)%nat with (i + 1 + k + 1)%nat by lia. destruct (Reqb _ _) eqn:E; [apply Reqb_true in E; lra|].
      replace (1 - _) with ((node t (i + 1 + k + 1) - x) / (node t (i + 1 + k + 1) - node t (i + 1))) by (field; lra).
      apply Rmult_lt_0_compat; [lra|]. apply Rinv_0_lt_compat. lra. }
    pose proof (base_fun_nonneg t Hs x k i). pose proof (base_fun_nonneg t Hs x k (i + 1)).
    destruct (Rlt_dec x (node t (i + k + 1))) as [L|L].
    + pose proof (IH i ltac:(lra)) as P. assert (0 < wt x (S k) i t) by (apply W1; lra).
      assert (0 <= (1 - wt x (S k) (i + 1) t) * base_fun x k (i + 1) t).
      { destruct (Req_dec (base_fun x k (i + 1) t) 0) as [->|N]; [lra|]. pose proof (W2 N). nra. }
      nra.
    + assert (P : 0 < base_fun x k (i + 1) t).
      { destruct (Req_dec x (node t (i + 1))) as [E|NE].
        - pose proof (node_mono t Hs (i + 1) (i + k + 1) ltac:(lia)). rewrite base_fun_left; auto; [lra|].
          replace (i + 1 + k)%nat with (i + k + 1)%nat by lia. replace (i + k + 1 + 1)%nat with (i + S k + 1)%nat by lia. lra.
        - apply IH. pose proof (node_mono t Hs (i + 1) (i + k + 1) ltac:(lia)). replace (i + 1 + k + 1)%nat with (i + S k + 1)%nat by lia. lra. }
      assert (0 < 1 - wt x (S k) (i + 1) t) by (apply W2; lra).
      assert (0 <= wt x (S k) i t * base_fun x k i t).
      { destruct (Req_dec (base_fun x k i t) 0) as [->|N]; [lra|]. pose proof (W1 N). nra. }
      nra.
Qed.
Lemma basis_positive x t k b i : sorted t -> spline_basis x t k = Ok b -> (i < length b)%nat ->
  nth i t 0 < x < nth (i + k + 1) t 0 -> 0 < nth i b 0.
Proof.
  intros Hs H Hi Hx. apply basis_ok in H as (N & ->). rewrite map_length, seq_length in Hi. rewrite nth_map_seq by auto.
  apply base_fun_pos; auto. rewrite !node_nth by lia. auto.
Qed.
(** only the nodes t_i, ..., t_{i+k+1} matter *)
Lemma base_fun_local t u x : forall k i, (forall j, (i <= j <= i + k + 1)%nat -> node t j = node u j) -> base_fun x k i t = base_fun x k i u.
Proof.
  induction k as [|k IH]; intros i H.
  - cbn [base_fun]. rewrite (H i), (H (i + 1)%nat) by lia. reflexivity.
  - cbn [base_fun]. rewrite (IH i), (IH (i + 1)%nat) by (intros; apply H; lia).
    rewrite (H i), (H (i + S k)%nat), (H (i + 1)%nat), (H (i + S k + 1)%nat) by lia. reflexivity.
Qed.
Lemma basis_local t u x k b c i : spline_basis x t k = Ok b -> spline_basis x u k = Ok c -> (i < length b)%nat -> (i < length c)%nat ->
  (forall j, (i <= j <= i + k + 1)%nat -> nth j t 0 = nth j u 0) -> nth i b 0 = nth i c 0.
Proof.
  intros Hb Hc Lb Lc H. apply basis_ok in Hb as (_ & ->). apply basis_ok in Hc as (_ & ->).
  rewrite map_length, seq_length in *. rewrite !nth_map_seq by auto. apply base_fun_local. intros j Hj. rewrite !node_nth by lia. auto.
Qed.
Lemma basis_partition x t k b : sorted t -> spline_basis x t k = Ok b ->
  (2 * k + 2 <= length t)%nat -> nth k t 0 <= x < nth (length t - k - 1) t 0 -> sumR b = 1.
Proof.
  intros Hs H Hk Hx. apply basis_ok in H as (_ & ->). rewrite sumn_seq. apply partition; auto. rewrite !node_nth by lia. auto.
Qed.
Lemma basis_sum_le x t k b : sorted t -> spline_basis x t k = Ok b -> 0 <= sumR b <= 1.
Proof.
  intros Hs H. apply basis_ok in H as (_ & ->). rewrite sumn_seq. split; [|apply sum_le_one; auto].
  rewrite <- (sumn_0 (length t - k - 1) (fun _ => 0)) by auto. apply sumn_le. intros. apply base_fun_nonneg; auto.
Qed.
Lemma basis_outside x t k b : sorted t -> spline_basis x t k = Ok b -> ~ (nth 0 t 0 <= x < nth (length t - 1) t 0) ->
  b = repeat 0 (length t - k - 1).
Proof.
  intros Hs H Hx. apply basis_ok in H as (N & ->).
  assert (L : (0 < length t)%nat) by (destruct t; [congruence|simpl; lia]).
  assert (E : forall m s, (s + m <= length t - k - 1)%nat -> map (fun i => base_fun x k i t) (seq s m) = repeat 0 m).
  { induction m as [|m IH]; intros s Hm; [reflexivity|]. cbn [seq map repeat]. f_equal; [|apply IH; lia].
    apply base_fun_support; auto. intros [H1 H2]. apply Hx. split.
    - apply Rle_trans with (node t s); auto. rewrite <- node_nth by lia. apply node_mono; auto. lia.
    - eapply Rlt_le_trans; [apply H2|]. rewrite <- (node_nth t (length t - 1)) by lia. apply node_mono; auto. lia. }
  apply E. lia.
Qed.
Lemma dual_poly_node t y : forall k i, (i + k < length t)%nat ->
  (fix psi i k := match k with O => 1 | S m => psi i m * (y - node t (i + S m)) end) i k = dual_poly t y i k.
Proof. induction k as [|k IH]; intros i H; [reflexivity|]. cbn [dual_poly]. rewrite <- IH, node_nth by lia. reflexivity. Qed.
Lemma nsum_node t : forall k i, (i + k < length t)%nat -> nsum t i k = node_sum t i k.
Proof. induction k as [|k IH]; intros i H; [reflexivity|]. cbn [node_sum nsum]. rewrite IH, node_nth by lia. reflexivity. Qed.
Lemma basis_marsden x y t k b : sorted t -> spline_basis x t k = Ok b ->
  (2 * k + 2 <= length t)%nat -> nth k t 0 <= x < nth (length t - k - 1) t 0 ->
  combine_with (map (fun i => dual_poly t y i k) (seq 0 (length t - k - 1))) b = (y - x) ^ k.
Proof.
  intros Hs H Hk Hx. apply basis_ok in H as (_ & ->). rewrite combine_sumn.
  rewrite <- (marsden t Hs x y k (length t - k - 1)) by (rewrite !node_nth by lia; auto). cbv zeta.
  apply sumn_ext. intros i Hi. rewrite dual_poly_node by lia. reflexivity.
Qed.
Lemma basis_linear x t k b : sorted t -> spline_basis x t k = Ok b ->
  (2 * k + 2 <= length t)%nat -> nth k t 0 <= x < nth (length t - k - 1) t 0 ->
  combine_with (map (fun i => node_sum t i k) (seq 0 (length t - k - 1))) b = INR k * x.
Proof.
  intros Hs H Hk Hx. apply basis_ok in H as (_ & ->). rewrite combine_sumn.
  rewrite <- (linear_precision t Hs x k (length t - k - 1)) by (rewrite !node_nth by lia; auto).
  apply sumn_ext. intros i Hi. rewrite nsum_node by lia. reflexivity.
Qed.
