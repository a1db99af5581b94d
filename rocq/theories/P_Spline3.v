(** make_grid and SplineActivation. *)
From Verif Require Import Base BaseFacts P_Vec M_Integrate M_Spline S_Spline P_Integrate3 P_Spline1.

Definition spow (p t : R) : R := if Req_EM_T t 0 then 0 else signR t * Rpower (Rabs t) p.
Lemma signR_opp t : signR (- t) = - signR t.
Proof. unfold signR. destruct (Rlt_dec 0 (- t)), (Rlt_dec 0 t), (Rlt_dec (- t) 0), (Rlt_dec t 0); lra. Qed.
Lemma spow_opp p t : spow p (- t) = - spow p t.
Proof.
  unfold spow. destruct (Req_EM_T (- t) 0), (Req_EM_T t 0); try lra. rewrite signR_opp, Rabs_Ropp. ring.
Qed.
Lemma spow_pos p t : 0 < t -> spow p t = Rpower t p.
Proof. intros H. unfold spow. destruct (Req_EM_T t 0); [lra|]. unfold signR. destruct (Rlt_dec 0 t); [|lra]. rewrite Rabs_right by lra. ring. Qed.
Lemma spow_0 p : spow p 0 = 0. Proof. unfold spow. destruct (Req_EM_T 0 0); lra. Qed.
Lemma spow_1 p : spow p 1 = 1.
Proof. rewrite spow_pos by lra. unfold Rpower. rewrite ln_1, Rmult_0_r. apply exp_0. Qed.
Lemma spow_m1 p : spow p (-1) = -1.
Proof. replace (-1) with (- (1)) by ring. rewrite spow_opp, spow_1. reflexivity. Qed.
Lemma Rpower_pos a b : 0 < Rpower a b. Proof. apply exp_pos. Qed.
Lemma spow_incr p s t : 0 < p -> s < t -> spow p s < spow p t.
Proof.
  intros Hp.
  assert (Pos : forall a b, 0 <= a -> a < b -> spow p a < spow p b).
  { intros a b [Ha|<-] Hab; [|rewrite spow_0, spow_pos by lra; apply Rpower_pos].
    rewrite !spow_pos by lra. unfold Rpower. apply exp_increasing, Rmult_lt_compat_l; auto. apply ln_increasing; auto. }
  intros H. destruct (Rle_dec 0 s); [auto|]. destruct (Rle_dec t 0).
  - rewrite <- (Ropp_involutive s), <- (Ropp_involutive t). rewrite (spow_opp p (- s)), (spow_opp p (- t)).
    apply Ropp_lt_contravar, Pos; lra.
  - apply Rlt_trans with 0.
    + rewrite <- (Ropp_involutive s), spow_opp. rewrite spow_pos by lra. pose proof (Rpower_pos (- s) p). lra.
    + rewrite spow_pos by lra. apply Rpower_pos.
Qed.
Lemma sequence_map_ok {A B} (f : A -> res B) (g : A -> B) l : (forall x, In x l -> f x = Ok (g x)) -> sequence (map f l) = Ok (map g l).
Proof. induction l as [|a l IH]; intros H; [reflexivity|]. cbn [map sequence]. rewrite H by (left; auto). cbn [bind]. rewrite IH by (intros; apply H; right; auto). reflexivity. Qed.
Lemma make_grid_ok a b p num : 0 < p ->
  make_grid a b p num = Ok (map (fun t => (spow p t + 1) / 2 * Rabs (a - b) + a) (linspace (-1) 1 num)).
Proof.
  intros Hp. unfold make_grid. rewrite (sequence_map_ok _ (spow p)).
  - cbn [bind]. rewrite !map_map. reflexivity.
  - intros t _. unfold fpow, spow. pose proof (Rabs_pos t). destruct (Rlt_dec (Rabs t) 0); [lra|].
    destruct (Req_EM_T (Rabs t) 0) as [E|N].
    + assert (t = 0) as -> by (unfold Rabs in E; destruct (Rcase_abs t); lra).
      destruct (Req_EM_T p 0); [lra|]. destruct (Rlt_dec p 0); [lra|]. destruct (Req_EM_T 0 0); [|lra]. cbn [bind]. f_equal. ring.
    + destruct (Req_EM_T t 0) as [->|Nt]; [rewrite Rabs_R0 in N; lra|]. reflexivity.
Qed.
Definition gpos (n i : nat) : R := -1 + INR i * (2 / INR (S n)).
Lemma grid_nth a b p n t i : 0 < p -> make_grid a b p (S (S n)) = Ok t -> (i <= S n)%nat ->
  nth i t 0 = (spow p (gpos n i) + 1) / 2 * Rabs (a - b) + a.
Proof.
  intros Hp H Hi. rewrite make_grid_ok in H by auto.
  assert (E : t = map (fun t => (spow p t + 1) / 2 * Rabs (a - b) + a) (linspace (-1) 1 (S (S n)))) by congruence. rewrite E.
  set (f := fun t => (spow p t + 1) / 2 * Rabs (a - b) + a).
  change (nth i (map f (linspace (-1) 1 (S (S n)))) 0 = f (gpos n i)).
  rewrite (nth_indep _ 0 (f 0)) by (rewrite map_length, linspace_length; lia). rewrite (map_nth f). f_equal.
  rewrite linspace_nth by lia. unfold gpos. f_equal. f_equal. f_equal. ring.
Qed.
Lemma grid_length a b p n t : 0 < p -> make_grid a b p n = Ok t -> length t = n.
Proof. intros Hp H. rewrite make_grid_ok in H by auto. injection H as <-. rewrite map_length. apply linspace_length. Qed.
Lemma gpos_first n : gpos n 0 = -1. Proof. unfold gpos. simpl. ring. Qed.
Lemma gpos_last n : gpos n (S n) = 1. Proof. unfold gpos. field. apply not_0_INR. lia. Qed.
Lemma gpos_sym n i : (i <= S n)%nat -> gpos n (S n - i) = - gpos n i.
Proof. intros H. unfold gpos. rewrite minus_INR by auto. field. apply not_0_INR. lia. Qed.
Lemma gpos_incr n i j : (i < j)%nat -> gpos n i < gpos n j.
Proof.
  intros H. unfold gpos. apply Rplus_lt_compat_l, Rmult_lt_compat_r; [|apply lt_INR; auto].
  apply Rmult_lt_0_compat; [lra|]. apply Rinv_0_lt_compat, lt_0_INR. lia.
Qed.
Lemma grid_spec a b p num : a <= b -> 0 < p -> (2 <= num)%nat -> exists t, make_grid a b p num = Ok t /\ length t = num /\
  nth 0 t 0 = a /\ nth (num - 1) t 0 = b /\ sorted t /\ (a < b -> strictly_sorted t) /\
  (forall i, (i < num)%nat -> nth i t 0 + nth (num - 1 - i) t 0 = a + b).
Proof.
  intros Hab Hp Hn. destruct num as [|[|n]]; try lia. pose proof (make_grid_ok a b p (S (S n)) Hp) as E.
  eexists. split; [exact E|]. pose proof (grid_length _ _ _ _ _ Hp E) as L.
  assert (N : forall i, (i <= S n)%nat -> nth i (map (fun t => (spow p t + 1) / 2 * Rabs (a - b) + a) (linspace (-1) 1 (S (S n)))) 0
     = (spow p (gpos n i) + 1) / 2 * (b - a) + a).
  { intros i Hi. rewrite (grid_nth a b p n _ i Hp E Hi). rewrite (Rabs_left1 (a - b)) by lra. f_equal. f_equal. ring. }
  set (t := map _ _) in *. clearbody t. replace (S (S n) - 1)%nat with (S n) by lia.
  split; [auto|]. split; [rewrite N, gpos_first, spow_m1 by lia; field|]. split; [rewrite N, gpos_last, spow_1 by lia; field|].
  assert (Inc : forall i j, (i < j <= S n)%nat -> spow p (gpos n i) < spow p (gpos n j)) by (intros; apply spow_incr; auto; apply gpos_incr; lia).
  split; [|split].
  - intros i j Hij. rewrite L in Hij. rewrite !N by lia. destruct (Nat.eq_dec i j) as [->|]; [lra|].
    pose proof (Inc i j ltac:(lia)). apply Rplus_le_compat_r, Rmult_le_compat_r; lra.
  - intros Hlt i j Hij. rewrite L in Hij. rewrite !N by lia. pose proof (Inc i j ltac:(lia)). apply Rplus_lt_compat_r, Rmult_lt_compat_r; lra.
  - intros i Hi. rewrite !N by lia. rewrite gpos_sym, spow_opp by lia. field.
Qed.
(** relation to the uniform grid: distances from the centre are powers *)
Lemma grid_power_law a b p num t u i : a < b -> 0 < p -> (2 <= num)%nat -> make_grid a b p num = Ok t -> make_grid a b 1 num = Ok u -> (i < num)%nat ->
  nth i u 0 = a + INR i * ((b - a) / INR (num - 1)) /\
  (nth i u 0 = (a + b) / 2 -> nth i t 0 = (a + b) / 2) /\
  (nth i u 0 <> (a + b) / 2 ->
   Rabs (nth i t 0 - (a + b) / 2) / ((b - a) / 2) = Rpower (Rabs (nth i u 0 - (a + b) / 2) / ((b - a) / 2)) p).
Proof.
  intros Hab Hp Hn Ht Hu Hi. destruct num as [|[|n]]; try lia. replace (S (S n) - 1)%nat with (S n) by lia.
  rewrite (grid_nth a b p n t i Hp Ht), (grid_nth a b 1 n u i Rlt_0_1 Hu) by lia. rewrite (Rabs_left (a - b)) by lra.
  assert (S1 : forall v, spow 1 v = v).
  { intros v. destruct (Rtotal_order v 0) as [H|[->|H]]; [|apply spow_0|rewrite spow_pos by auto; apply Rpower_1; auto].
    rewrite <- (Ropp_involutive v), spow_opp, spow_pos by lra. rewrite Rpower_1; lra. }
  rewrite S1. assert (INR (S n) <> 0) by (apply not_0_INR; lia). split; [|split].
  - unfold gpos. field. auto.
  - intros E. assert (gpos n i = 0) as -> by (assert (gpos n i * (b - a) = 0) as F by lra; apply Rmult_integral in F; lra). rewrite spow_0. field.
  - intros NE. replace ((gpos n i + 1) / 2 * - (a - b) + a - (a + b) / 2) with (gpos n i * ((b - a) / 2)) by field.
    replace ((spow p (gpos n i) + 1) / 2 * - (a - b) + a - (a + b) / 2) with (spow p (gpos n i) * ((b - a) / 2)) by field.
    rewrite !Rabs_mult, (Rabs_right ((b - a) / 2)) by lra. unfold Rdiv at 1. rewrite Rmult_assoc, Rinv_r, Rmult_1_r by lra.
    replace (Rabs (gpos n i) * ((b - a) / 2) / ((b - a) / 2)) with (Rabs (gpos n i)) by (field; lra).
    assert (gpos n i <> 0) by (intros E; apply NE; rewrite E; field).
    unfold spow. destruct (Req_EM_T _ 0); [tauto|]. rewrite Rabs_mult, (Rabs_right (Rpower _ _)) by (left; apply Rpower_pos).
    replace (Rabs (signR (gpos n i))) with 1; [ring|]. unfold signR. destruct (Rlt_dec 0 (gpos n i)), (Rlt_dec (gpos n i) 0); try lra.
    + rewrite Rabs_R1. auto.
    + rewrite Rabs_left; lra.
Qed.
Lemma grid_reversed a b p num t : 0 < p -> (2 <= num)%nat -> make_grid a b p num = Ok t ->
  nth 0 t 0 = a /\ nth (num - 1) t 0 = a + Rabs (a - b).
Proof.
  intros Hp Hn H. destruct num as [|[|n]]; try lia. replace (S (S n) - 1)%nat with (S n) by lia.
  rewrite (grid_nth a b p n t 0 Hp H), (grid_nth a b p n t (S n) Hp H) by lia. rewrite gpos_first, gpos_last, spow_1, spow_m1. split; field.
Qed.
Lemma grid_reversed_refuted : exists start stop power num t, 0 < power /\ (2 <= num)%nat /\
  make_grid start stop power num = Ok t /\ nth (num - 1) t 0 <> stop.
Proof.
  exists 1, 0, 1, 2%nat. eexists. split; [lra|]. split; [lia|]. split; [apply make_grid_ok; lra|].
  rewrite (proj2 (grid_reversed 1 0 1 2 _ Rlt_0_1 (le_n 2) (make_grid_ok 1 0 1 2 Rlt_0_1))). rewrite Rabs_right; lra.
Qed.

(** *** SplineActivation *)
Lemma nth_repeat_lt {A} (a d : A) n i : (i < n)%nat -> nth i (repeat a n) d = a.
Proof. revert i. induction n as [|n IH]; intros [|i] H; simpl; auto; try lia. apply IH. lia. Qed.
Lemma row_call_ok act deg : forall xs grids coefs ys, row_call act deg xs grids coefs = Ok ys ->
  length ys = length xs /\ forall j, (j < length xs)%nat -> exists b, spline_basis (nth j xs 0) (nth j grids []) deg = Ok b /\
    nth j ys 0 = act (nth j xs 0) + combine_with (nth j coefs []) b.
Proof.
  induction xs as [|x xs IH]; intros [|g gs] [|c cs] ys H; try discriminate.
  - injection H as <-. split; auto. simpl. intros; lia.
  - cbn [row_call] in H. apply bind_ok in H as (b & Hb & H). apply bind_ok in H as (rest & Hr & H).
    assert (E : ys = (act x + sumR (map2 Rmult b c)) :: rest) by congruence. rewrite E. clear H E. destruct (IH _ _ _ Hr) as [L I].
    split; [simpl; auto|]. intros [|j] Hj.
    + exists b. split; [auto|]. cbn [nth]. f_equal. clear. revert c. induction b as [|a b IHb]; intros [|d c]; simpl; auto.
      rewrite <- IHb. unfold sumR. simpl. ring.
    + cbn [nth]. apply I. simpl in Hj. lia.
Qed.
Lemma sequence_nth {A} (l : list (res A)) r : sequence l = Ok r -> length r = length l /\ forall i d, (i < length l)%nat -> nth i l (Err ValueError) = Ok (nth i r d).
Proof.
  revert r. induction l as [|a l IH]; intros r H.
  - injection H as <-. split; auto. simpl; intros; lia.
  - cbn [sequence] in H. apply bind_ok in H as (v & -> & H). apply bind_ok in H as (vs & H1 & H2). injection H2 as <-.
    destruct (IH _ H1) as [L I]. split; [simpl; auto|]. intros [|i] d Hi; [reflexivity|]. cbn [nth]. apply I. simpl in Hi; lia.
Qed.
Lemma call_value c act coefs grids x ys : spline_call c act coefs grids x = Ok ys ->
  length ys = length x /\ forall r j, (r < length x)%nat -> (j < length (nth r x []))%nat ->
    length (nth r ys []) = length (nth r x []) /\ length (nth j coefs []) = (nodes c - degree c - 1)%nat /\ (degree c + 1 <= nodes c)%nat /\
    (parameterize_grid c = true -> length (nth j grids []) = nodes c) /\
    exists t b, channel_grid c grids j t /\ spline_basis (at2 x r j) t (degree c) = Ok b /\
      at2 ys r j = act (at2 x r j) + combine_with (nth j coefs []) b.
Proof.
  unfold spline_call. intros H.
  destruct (Nat.ltb_spec (nodes c) (degree c + 1)) as [|Hnd]; [discriminate|].
  destruct (forallb (fun r => Nat.eqb (length r) (length (hd [] x))) x) eqn:Ex; [|discriminate]. cbn [negb] in H.
  destruct (andb _ _) eqn:Ec; [|discriminate]. cbn [negb] in H. apply andb_prop in Ec as [Ec1 Ec2]. apply Nat.eqb_eq in Ec1.
  rewrite forallb_forall in Ex, Ec2. apply bind_ok in H as (gs & Hg & H). apply sequence_nth in H as [L I]. rewrite map_length in L, I.
  split; auto. intros r j Hr Hj. specialize (I r [] Hr).
  rewrite (nth_indep _ _ (row_call act (degree c) [] gs coefs)) in I by (rewrite map_length; auto).
  rewrite (map_nth (fun xs => row_call act (degree c) xs gs coefs)) in I. apply row_call_ok in I as [L2 I].
  assert (HR : length (nth r x []) = length (hd [] x)) by (apply Nat.eqb_eq, Ex, nth_In; auto).
  split; auto. split; [apply Nat.eqb_eq, Ec2, nth_In; lia|]. split; [lia|].
  destruct (I j Hj) as (b & Hb & Hv).
  assert (Hne : nth j gs [] <> []) by (intros E; rewrite E in Hb; discriminate).
  assert (Hj2 : (j < length gs)%nat).
  { destruct (Nat.lt_ge_cases j (length gs)); auto. rewrite nth_overflow in Hne by auto. congruence. }
  split.
  { intros P. rewrite P in Hg. destruct (forallb _ _) eqn:Eg; [|discriminate]. injection Hg as <-. rewrite forallb_forall in Eg.
    apply Nat.eqb_eq, Eg, nth_In. auto. }
  exists (nth j gs []), b. split; [|split; auto].
  unfold channel_grid. destruct (parameterize_grid c).
  - destruct (forallb _ _); [|discriminate]. injection Hg as <-. auto.
  - unfold grid_init in Hg. apply bind_ok in Hg as (t & Ht & Hg). injection Hg as <-. rewrite Ht. rewrite repeat_length in Hj2.
    rewrite nth_repeat_lt by auto. auto.
Qed.
Lemma combine_bound : forall cs b M, length cs = length b -> Forall (fun v => Rabs v <= M) cs -> Forall (fun v => 0 <= v) b ->
  Rabs (combine_with cs b) <= M * sumR b.
Proof.
  induction cs as [|c cs IH]; intros [|v b] M L Hc Hb; try discriminate.
  - simpl. rewrite Rabs_R0. lra.
  - inversion Hc; subst. inversion Hb; subst. simpl in L. cbn [combine_with]. unfold sumR. simpl. fold (sumR b).
    eapply Rle_trans; [apply Rabs_triang|]. rewrite Rmult_plus_distr_l. apply Rplus_le_compat; [|apply IH; auto].
    rewrite Rabs_mult, (Rabs_right v) by lra. apply Rmult_le_compat_r; auto.
Qed.
Lemma combine_zero_r : forall cs n, combine_with cs (repeat 0 n) = 0.
Proof. induction cs as [|c cs IH]; intros [|n]; simpl; auto. rewrite IH. ring. Qed.
Lemma combine_zero_l : forall cs b, Forall (fun v => v = 0) cs -> combine_with cs b = 0.
Proof. induction cs as [|c cs IH]; intros [|v b] H; simpl; auto. inversion H; subst. rewrite IH by auto. ring. Qed.
Lemma combine_const c : forall n b, length b = n -> combine_with (repeat c n) b = c * sumR b.
Proof. induction n as [|n IH]; intros [|v b] L; try discriminate; simpl; [ring|]. rewrite IH by (simpl in L; lia). unfold sumR. simpl. ring. Qed.
Lemma basis_nonneg x t k b : sorted t -> spline_basis x t k = Ok b -> Forall (fun v => 0 <= v) b.
Proof. intros Hs H. apply basis_ok in H as (_ & ->). apply Forall_forall. intros v Hv. apply in_map_iff in Hv as (i & <- & _). apply base_fun_nonneg; auto. Qed.

Lemma call_outside c act coefs grids x ys r j t : spline_call c act coefs grids x = Ok ys ->
  (r < length x)%nat -> (j < length (nth r x []))%nat -> channel_grid c grids j t -> sorted t ->
  ~ (nth 0 t 0 <= at2 x r j < nth (length t - 1) t 0) -> at2 ys r j = act (at2 x r j).
Proof.
  intros H Hr Hj Ht Hs Hx. destruct (call_value _ _ _ _ _ _ H) as [_ V]. destruct (V r j Hr Hj) as (_ & _ & _ & _ & t' & b & Ht' & Hb & ->).
  assert (t' = t) as -> by (unfold channel_grid in *; destruct (parameterize_grid c); congruence).
  rewrite (basis_outside _ _ _ _ Hs Hb Hx), combine_zero_r. ring.
Qed.
Lemma call_zero_coefs c act coefs grids x ys r j : spline_call c act coefs grids x = Ok ys ->
  (r < length x)%nat -> (j < length (nth r x []))%nat -> Forall (fun v => v = 0) (nth j coefs []) -> at2 ys r j = act (at2 x r j).
Proof.
  intros H Hr Hj Hc. destruct (call_value _ _ _ _ _ _ H) as [_ V]. destruct (V r j Hr Hj) as (_ & _ & _ & _ & t' & b & Ht' & Hb & ->).
  rewrite combine_zero_l by auto. ring.
Qed.
Lemma channel_grid_length c grids j t : (parameterize_grid c = true -> length (nth j grids []) = nodes c) ->
  0 < grid_power c -> channel_grid c grids j t -> length t = nodes c.
Proof.
  intros H Hp Ht. unfold channel_grid in Ht. destruct (parameterize_grid c); [subst; auto|]. eapply grid_length; eauto.
Qed.
Lemma call_bound c act coefs grids x ys r j t M : spline_call c act coefs grids x = Ok ys -> 0 < grid_power c ->
  (r < length x)%nat -> (j < length (nth r x []))%nat -> channel_grid c grids j t -> sorted t ->
  0 <= M -> Forall (fun v => Rabs v <= M) (nth j coefs []) -> Rabs (at2 ys r j - act (at2 x r j)) <= M.
Proof.
  intros H Hp Hr Hj Ht Hs HM Hc. destruct (call_value _ _ _ _ _ _ H) as [_ V]. destruct (V r j Hr Hj) as (_ & Lc & _ & Lg & t' & b & Ht' & Hb & ->).
  assert (t' = t) as -> by (unfold channel_grid in *; destruct (parameterize_grid c); congruence).
  pose proof (channel_grid_length _ _ _ _ Lg Hp Ht) as Lt.
  replace (act (at2 x r j) + combine_with (nth j coefs []) b - act (at2 x r j)) with (combine_with (nth j coefs []) b) by ring.
  pose proof (basis_sum_le _ _ _ _ Hs Hb). eapply Rle_trans; [apply combine_bound; eauto|].
  - pose proof Hb as Hb2. apply basis_ok in Hb2 as (_ & ->). rewrite map_length, seq_length. congruence.
  - eapply basis_nonneg; eauto.
  - rewrite <- (Rmult_1_r M) at 2. apply Rmult_le_compat_l; lra.
Qed.
Lemma call_shift c act coefs grids x ys r j t v : spline_call c act coefs grids x = Ok ys -> 0 < grid_power c ->
  (r < length x)%nat -> (j < length (nth r x []))%nat -> channel_grid c grids j t -> sorted t ->
  nth j coefs [] = repeat v (nodes c - degree c - 1) -> (2 * degree c + 2 <= nodes c)%nat ->
  nth (degree c) t 0 <= at2 x r j < nth (nodes c - degree c - 1) t 0 -> at2 ys r j = act (at2 x r j) + v.
Proof.
  intros H Hp Hr Hj Ht Hs Hc Hd Hx. destruct (call_value _ _ _ _ _ _ H) as [_ V]. destruct (V r j Hr Hj) as (_ & Lc & _ & Lg & t' & b & Ht' & Hb & ->).
  assert (t' = t) as -> by (unfold channel_grid in *; destruct (parameterize_grid c); congruence).
  pose proof (channel_grid_length _ _ _ _ Lg Hp Ht) as Lt. rewrite <- Lt in *.
  rewrite Hc, combine_const, (basis_partition _ _ _ _ Hs Hb); auto; [ring|].
  apply basis_ok in Hb as (_ & ->). rewrite map_length, seq_length. auto.
Qed.
(** the shared grid: hypotheses in terms of node_min and node_max *)
Lemma shared_grid c grids j : parameterize_grid c = false -> node_min c <= node_max c -> 0 < grid_power c -> (2 <= nodes c)%nat ->
  exists t, channel_grid c grids j t /\ sorted t /\ length t = nodes c /\ nth 0 t 0 = node_min c /\ nth (length t - 1) t 0 = node_max c.
Proof.
  intros P H Hp Hn. destruct (grid_spec (node_min c) (node_max c) (grid_power c) (nodes c) H Hp Hn) as (t & E & L & F & G & S & _).
  exists t. unfold channel_grid. rewrite P. rewrite L. auto.
Qed.
Lemma shared_outside c act coefs grids x ys r j : spline_call c act coefs grids x = Ok ys ->
  parameterize_grid c = false -> node_min c <= node_max c -> 0 < grid_power c -> (2 <= nodes c)%nat ->
  (r < length x)%nat -> (j < length (nth r x []))%nat -> ~ (node_min c <= at2 x r j < node_max c) -> at2 ys r j = act (at2 x r j).
Proof.
  intros H P Hm Hp Hn Hr Hj Hx. destruct (shared_grid c grids j P Hm Hp Hn) as (t & Ht & S & L & F & G).
  eapply call_outside; eauto. rewrite F, G. auto.
Qed.
Lemma shared_bound c act coefs grids x ys r j M : spline_call c act coefs grids x = Ok ys ->
  parameterize_grid c = false -> node_min c <= node_max c -> 0 < grid_power c -> (2 <= nodes c)%nat ->
  (r < length x)%nat -> (j < length (nth r x []))%nat -> 0 <= M -> Forall (fun v => Rabs v <= M) (nth j coefs []) ->
  Rabs (at2 ys r j - act (at2 x r j)) <= M.
Proof.
  intros H P Hm Hp Hn Hr Hj HM Hc. destruct (shared_grid c grids j P Hm Hp Hn) as (t & Ht & S & L & F & G). eapply call_bound; eauto.
Qed.
(** well-shaped inputs are accepted *)
Lemma row_call_defined act deg : forall xs grids coefs, length grids = length xs -> length coefs = length xs ->
  Forall (fun g => g <> []) grids -> exists ys, row_call act deg xs grids coefs = Ok ys.
Proof.
  induction xs as [|x xs IH]; intros [|g gs] [|c cs] L1 L2 H; try discriminate; [eexists; reflexivity|].
  inversion H; subst. destruct (basis_defined x g deg ltac:(auto)) as (b & Hb & _). destruct (IH gs cs) as (ys & Hy); auto.
  cbn [row_call]. rewrite Hb. cbn [bind]. rewrite Hy. eexists. reflexivity.
Qed.
Lemma sequence_defined {A} (l : list (res A)) : Forall (fun r => exists a, r = Ok a) l -> exists r, sequence l = Ok r.
Proof.
  induction l as [|a l IH]; intros H; [eexists; reflexivity|]. inversion H as [|? ? [v ->] H2]; subst. destruct (IH H2) as (r & Hr).
  cbn [sequence bind]. rewrite Hr. eexists. reflexivity.
Qed.
Lemma call_defined c act coefs x m : parameterize_grid c = false -> 0 < grid_power c -> (degree c + 1 <= nodes c)%nat ->
  x <> [] -> Forall (fun r => length r = m) x -> length coefs = m -> Forall (fun r => length r = (nodes c - degree c - 1)%nat) coefs ->
  exists ys, spline_call c act coefs [] x = Ok ys.
Proof.
  intros P Hp Hn Nx Hx Lc Hc. unfold spline_call.
  assert (Lm : length (hd [] x) = m) by (destruct x; [congruence|]; inversion Hx; auto). rewrite Lm.
  destruct (Nat.ltb_spec (nodes c) (degree c + 1)); [lia|].
  replace (forallb (fun r => Nat.eqb (length r) m) x) with true.
  2:{ symmetry. apply forallb_forall. rewrite Forall_forall in Hx. intros r Hr. apply Nat.eqb_eq. auto. }
  rewrite Lc, Nat.eqb_refl.
  replace (forallb (fun r => Nat.eqb (length r) (nodes c - degree c - 1)) coefs) with true.
  2:{ symmetry. apply forallb_forall. rewrite Forall_forall in Hc. intros r Hr. apply Nat.eqb_eq. auto. }
  cbn [negb andb]. rewrite P. unfold grid_init. pose proof (make_grid_ok (node_min c) (node_max c) (grid_power c) (nodes c) Hp) as E.
  rewrite E. cbn [bind]. apply sequence_defined. apply Forall_forall. intros r Hr. apply in_map_iff in Hr as (xs & <- & Hxs).
  rewrite Forall_forall in Hx. apply row_call_defined.
  - rewrite repeat_length. symmetry. auto.
  - rewrite Lc. symmetry. auto.
  - apply Forall_forall. intros g Hg. apply repeat_spec in Hg. subst. intros Z.
    apply (f_equal (@length R)) in Z. rewrite map_length, linspace_length in Z. simpl in Z. lia.
Qed.
