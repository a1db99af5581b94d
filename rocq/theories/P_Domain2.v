(** Proofs about Hypercube.normal_vec. *)
From Coquelicot Require Import Coquelicot.
From Verif Require Import Base BaseFacts M_RFun S_RFun P_Vec M_Domain S_Domain P_Domain1.

Definition fo (acc : R) (bs : list bool) : list R :=
  map2 (fun c v => if Rlt_dec 1 c then 0 else v) (cumsum_from acc (map b2R bs)) (map b2R bs).
Lemma fo_zero acc bs : 1 <= acc -> fo acc bs = repeat 0 (length bs).
Proof.
  revert acc; induction bs as [|b bs IH]; intros acc H; auto. unfold fo in *. simpl. f_equal.
  - destruct b; simpl; destruct (Rlt_dec 1 _); auto; lra.
  - apply IH. destruct b; simpl; lra.
Qed.
Lemma fo_first bs : fo 0 bs = match find_true bs with Some i => axis_vec (length bs) i 1 | None => repeat 0 (length bs) end.
Proof.
  induction bs as [|b bs IH]; auto. destruct b.
  - unfold fo. simpl. destruct (Rlt_dec 1 (0 + 1)); [lra|]. unfold axis_vec. simpl. f_equal.
    apply (fo_zero (0 + 1)). lra.
  - unfold fo in *. simpl. replace (0 + 0) with 0 by ring. rewrite IH.
    destruct (Rlt_dec 1 0); [lra|]. destruct (find_true bs); reflexivity.
Qed.

Lemma isclose_iff rtol atol a b : 0 < atol -> 0 <= rtol ->
  a = b \/ atol + rtol * Rabs b < Rabs (a - b) -> isclose rtol atol a b = true <-> a = b.
Proof.
  intros Ha Hr H. unfold isclose. rewrite Rleb_true. split.
  - intros L. destruct H as [H|H]; auto. lra.
  - intros ->. rewrite Rminus_diag_eq by auto. rewrite Rabs_R0. pose proof (Rabs_pos b). nra.
Qed.

Section N.
Context (l u x : list R) (rtol atol : R).
Context (Hb : proper_box l u) (Ha : 0 < atol) (Hr : 0 <= rtol) (Hres : resolved l u rtol atol x) (Hx : inside_closed l u x).
Let h := mkHypercube l u.
Let d := length l.

Lemma lens : length u = d /\ length x = d.
Proof. destruct Hx as (H1 & H2 & _). unfold d. lia. Qed.

Definition bitsof (b : list R) : list bool := map2 (isclose rtol atol) x b.
Lemma bits_nth b i : (b = l \/ b = u) -> (i < d)%nat -> nth i (bitsof b) false = true <-> nth i x 0 = nth i b 0.
Proof.
  intros Eb Hi. destruct lens as [L1 L2]. unfold bitsof.
  assert (Lb : length b = d) by (destruct Eb as [-> | ->]; auto).
  rewrite (nth_map2 _ _ _ i 0 0) by lia. apply isclose_iff; auto.
  destruct (Hres i Hi) as [R1 R2]. destruct Eb as [-> | ->]; auto.
Qed.
Lemma bits_len b : (b = l \/ b = u) -> length (bitsof b) = d.
Proof.
  intros Eb. destruct lens as [L1 L2]. unfold bitsof. rewrite map2_length_eq; auto.
  destruct Eb as [-> | ->]; auto; fold d; congruence.
Qed.
Lemma find_id bs i : find_true bs = Some i ->
  (i < length bs)%nat /\ nth i bs false = true /\ forall j, (j < i)%nat -> nth j bs false = false.
Proof. intros H. apply (find_true_some (fun b => b) bs false i). rewrite map_id. auto. Qed.
Lemma find_id_none bs : find_true bs = None -> forall i, (i < length bs)%nat -> nth i bs false = false.
Proof.
  intros H i Hi. apply (find_true_none (fun b => b) bs); [rewrite map_id; auto|]. apply nth_In. auto.
Qed.
Lemma find_bits b : (b = l \/ b = u) ->
  match find_true (bitsof b) with
  | Some i => first_touch b x i
  | None => forall i, ~ touches b x i
  end.
Proof.
  intros Eb. pose proof (bits_len b Eb) as L.
  assert (Lb : length b = d) by (destruct lens; destruct Eb as [-> | ->]; auto).
  destruct (find_true (bitsof b)) as [i|] eqn:E.
  - apply find_id in E as (H1 & H2 & H3). split.
    + split; [lia|]. apply bits_nth; auto. lia.
    + intros j Hj (Hj1 & Hj2). specialize (H3 j Hj).
      assert (T : nth j (bitsof b) false = true) by (apply bits_nth; auto; lia). congruence.
  - intros i (Hi1 & Hi2). pose proof (find_id_none _ E i ltac:(lia)) as N.
    assert (T : nth i (bitsof b) false = true) by (apply bits_nth; auto; lia). congruence.
Qed.

Lemma forallb_map2_true {A B} (P : A -> B -> bool) m n da db : length m = length n ->
  (forall i, (i < length m)%nat -> P (nth i m da) (nth i n db) = true) -> forallb (fun b => b) (map2 P m n) = true.
Proof.
  revert n; induction m as [|a m IH]; intros [|b n] L H; simpl in *; auto; try lia.
  rewrite (H 0%nat) by lia. simpl. apply IH; [lia|]. intros i Hi. apply (H (S i)). lia.
Qed.
Lemma in_domain_true : hc_in_domain h rtol atol x = true.
Proof.
  unfold hc_in_domain, h. cbn [lb ub]. destruct lens as [L1 L2]. destruct Hx as (H1 & H2 & H).
  apply Bool.andb_true_iff. split; apply (forallb_map2_true _ _ _ 0 0); try (unfold d in *; lia); intros i Hi;
    apply Rltb_true; specialize (H i Hi).
  - pose proof (Rabs_pos (nth i l 0)). nra.
  - pose proof (Rabs_pos (nth i u 0)). nra.
Qed.
Definition opt_axis (o : option nat) : list R := match o with Some i => axis_vec d i 1 | None => repeat 0 d end.
Lemma normal_form : hc_normal h rtol atol x = vsub (opt_axis (find_true (bitsof u))) (opt_axis (find_true (bitsof l))).
Proof.
  unfold hc_normal, h, first_only, cumsum. cbn [lb ub]. fold (bitsof l) (bitsof u).
  fold (fo 0 (bitsof l)). fold (fo 0 (bitsof u)). rewrite !fo_first, !bits_len by auto. reflexivity.
Qed.
End N.

Lemma axis_length d i v : length (axis_vec d i v) = d.
Proof. unfold axis_vec. rewrite upd_length. apply repeat_length. Qed.
Lemma axis_nth d i v j : (i < d)%nat -> nth j (axis_vec d i v) 0 = if Nat.eq_dec j i then v else 0.
Proof.
  intros H. unfold axis_vec. destruct (Nat.eq_dec j i) as [->|N].
  - apply upd_nth_same. rewrite repeat_length. auto.
  - rewrite upd_nth_other by auto. apply nth_repeat.
Qed.
Lemma dotR_zero n v : dotR (repeat 0 n) v = 0.
Proof.
  revert v; induction n; intros [|b v]; unfold dotR in *; simpl; auto; try reflexivity.
  unfold sumR in *; simpl. rewrite IHn. ring.
Qed.
Lemma dotR_axis d i v y : (i < d)%nat -> length y = d -> dotR (axis_vec d i v) y = v * nth i y 0.
Proof.
  unfold axis_vec. revert i y; induction d as [|d IH]; intros i y Hi Hy; [lia|].
  destruct y as [|b y]; simpl in Hy; [lia|]. destruct i as [|i]; simpl.
  - rewrite dotR_cons, dotR_zero. ring.
  - rewrite dotR_cons, IH by lia. ring.
Qed.
Lemma norm_axis d i v : (i < d)%nat -> normR (axis_vec d i v) = Rabs v.
Proof.
  intros H. rewrite normR_sumsq, <- dotR_self, dotR_axis by (auto; apply axis_length).
  rewrite axis_nth by auto. destruct (Nat.eq_dec i i); [|congruence]. apply sqrt_Rsqr_abs.
Qed.
Lemma norm_zero n : normR (repeat 0 n) = 0.
Proof. apply normR_0. apply Forall_forall. intros e He. apply repeat_spec in He. auto. Qed.
Lemma repeat_nth0 n j : nth j (repeat 0 n) 0 = 0.
Proof. apply nth_repeat. Qed.

Section Main.
Context (l u x : list R) (rtol atol : R).
Context (Hb : proper_box l u) (Ha : 0 < atol) (Hr : 0 <= rtol) (Hres : resolved l u rtol atol x) (Hx : inside_closed l u x).
Let h := mkHypercube l u.
Let d := length l.

Lemma axis_minus_zero i v : (i < d)%nat -> vsub (axis_vec d i v) (repeat 0 d) = axis_vec d i v.
Proof.
  intros Hi. apply (list_eq_nth _ _ 0).
  - rewrite vsub_length; rewrite axis_length, ?repeat_length; auto.
  - intros j Hj. rewrite nth_vsub by (rewrite axis_length, repeat_length; auto). rewrite repeat_nth0. ring.
Qed.
Lemma zero_minus_axis i v : (i < d)%nat -> vsub (repeat 0 d) (axis_vec d i v) = axis_vec d i (- v).
Proof.
  intros Hi. apply (list_eq_nth _ _ 0).
  - rewrite vsub_length; rewrite ?axis_length, ?repeat_length; auto.
  - intros j Hj. rewrite nth_vsub by (rewrite axis_length, repeat_length; auto). rewrite repeat_nth0.
    rewrite !axis_nth by auto. destruct (Nat.eq_dec j i); ring.
Qed.
Lemma first_unique b i j : first_touch b x i -> first_touch b x j -> i = j.
Proof.
  intros [Ti Fi] [Tj Fj]. destruct (Nat.lt_total i j) as [C|[C|C]]; auto.
  - exfalso. eapply Fj; eauto.
  - exfalso. eapply Fi; eauto.
Qed.

Lemma normal_vec_cases :
  (forall i, first_touch l x i -> (forall j, ~ touches u x j) -> hc_normal_vec h rtol atol x = Some (axis_vec d i (-1))) /\
  (forall i, first_touch u x i -> (forall j, ~ touches l x j) -> hc_normal_vec h rtol atol x = Some (axis_vec d i 1)) /\
  (forall i j, touches l x i -> touches u x j -> hc_normal_vec h rtol atol x = None) /\
  ((forall i, ~ touches l x i) -> (forall i, ~ touches u x i) -> hc_normal_vec h rtol atol x = None).
Proof.
  pose proof (lens l u x Hx) as [L1 L2].
  pose proof (in_domain_true l u x rtol atol Ha Hr Hx) as ID.
  pose proof (normal_form l u x rtol atol Hx) as NF. fold h in ID, NF. fold d in L1, L2.
  pose proof (find_bits l u x rtol atol Ha Hr Hres Hx l (or_introl eq_refl)) as FL.
  pose proof (find_bits l u x rtol atol Ha Hr Hres Hx u (or_intror eq_refl)) as FU.
  unfold hc_normal_vec. rewrite ID, NF.
  destruct (find_true (bitsof x rtol atol l)) as [a|] eqn:EL;
  destruct (find_true (bitsof x rtol atol u)) as [b|] eqn:EU; unfold opt_axis; fold d.
  - assert (Hab : a <> b).
    { intros ->. destruct FL as [[A1 A2] _], FU as [[B1 B2] _]. pose proof (proj2 Hb b A1). lra. }
    destruct FL as [[A1 A2] FL], FU as [[B1 B2] FU]. fold d in A1. rewrite L1 in B1.
    assert (NN : normR (vsub (axis_vec d b 1) (axis_vec d a 1)) <> 1).
    { intros C. apply (f_equal (fun z => z * z)) in C. rewrite normR_sq in C.
      rewrite sumsq_vsub in C by (rewrite !axis_length; auto). rewrite <- !dotR_self in C.
      rewrite !dotR_axis in C by (auto; apply axis_length). rewrite !axis_nth in C by auto.
      destruct (Nat.eq_dec a a); [|congruence]. destruct (Nat.eq_dec b b); [|congruence].
      destruct (Nat.eq_dec b a); [congruence|]. lra. }
    assert (RB : Reqb (normR (vsub (axis_vec d b 1) (axis_vec d a 1))) 1 = false).
    { unfold Reqb. destruct (Req_EM_T _ 1); auto. contradiction. }
    rewrite RB. split; [|split; [|split]]; intros.
    + exfalso. apply (H0 b). split; auto. fold d; lia.
    + exfalso. apply (H0 a). split; auto.
    + reflexivity.
    + reflexivity.
  - destruct FL as [[A1 A2] FL]. fold d in A1. rewrite zero_minus_axis by auto. rewrite norm_axis by auto.
    replace (- (1)) with (-1) by ring. replace (Rabs (-1)) with 1 by (rewrite Rabs_left; lra).
    assert (RB : Reqb 1 1 = true) by (apply Reqb_true; auto). rewrite RB.
    split; [|split; [|split]]; intros.
    + rewrite (first_unique l i a); auto. split; [split; auto|auto].
    + exfalso. apply (H0 a). split; auto.
    + exfalso. apply (FU j). auto.
    + exfalso. apply (H a). split; auto.
  - destruct FU as [[B1 B2] FU]. rewrite L1 in B1. rewrite axis_minus_zero by auto. rewrite norm_axis by auto.
    rewrite Rabs_R1. assert (RB : Reqb 1 1 = true) by (apply Reqb_true; auto). rewrite RB.
    assert (Lu : (b < length u)%nat) by (rewrite L1; auto).
    split; [|split; [|split]]; intros.
    + exfalso. apply (H0 b). split; auto.
    + rewrite (first_unique u i b); auto. split; [split; auto|auto].
    + exfalso. apply (FL i). auto.
    + exfalso. apply (H0 b). split; auto.
  - assert (Z : vsub (repeat 0 d) (repeat 0 d) = repeat 0 d).
    { clear. induction d as [|n IH]; auto. unfold vsub in *. simpl. rewrite IH. f_equal. ring. }
    rewrite Z, norm_zero.
    assert (RB : Reqb 0 1 = false) by (unfold Reqb; destruct (Req_EM_T 0 1); auto; lra). rewrite RB.
    split; [|split; [|split]]; intros; try reflexivity.
    + exfalso. destruct H as [T _]. apply (FL i). auto.
    + exfalso. destruct H as [T _]. apply (FU i). auto.
Qed.

Lemma touch_cases b : (b = l \/ b = u) -> (exists i, first_touch b x i) \/ (forall i, ~ touches b x i).
Proof.
  intros Eb. pose proof (find_bits l u x rtol atol Ha Hr Hres Hx b Eb) as F.
  destruct (find_true (bitsof x rtol atol b)); eauto.
Qed.

Lemma normal_vec_sound n : hc_normal_vec h rtol atol x = Some n -> outward_unit_normal l u x n /\ on_boundary l u x.
Proof.
  intros E. destruct normal_vec_cases as (C1 & C2 & C3 & C4). pose proof (lens l u x Hx) as [L1 L2].
  fold d in L1, L2.
  assert (NO : forall i v, (i < d)%nat -> Rabs v = 1 ->
     (forall y, inside_closed l u y -> v * (nth i y 0 - nth i x 0) <= 0) -> outward_unit_normal l u x (axis_vec d i v)).
  { intros i v Hi Hv H. split; [apply axis_length|]. split; [rewrite norm_axis; auto|].
    intros y Hy. destruct Hy as (Y1 & Y2 & Y3). fold d in Y1. rewrite dotR_axis by (auto; rewrite vsub_length; lia).
    rewrite nth_vsub by lia. apply H. split; [|split]; auto. }
  destruct (touch_cases l (or_introl eq_refl)) as [[i Fi]|Nl];
  destruct (touch_cases u (or_intror eq_refl)) as [[j Fj]|Nu].
  - rewrite (C3 i j) in E by (apply Fi || apply Fj). discriminate.
  - rewrite (C1 i Fi Nu) in E. injection E as <-. destruct Fi as [[T1 T2] _]. split.
    + apply NO; auto; [rewrite Rabs_left; lra|]. intros y (Y1 & Y2 & Y3).
      specialize (Y3 i ltac:(lia)). lra.
    + split; auto. exists i. auto.
  - rewrite (C2 j Fj Nl) in E. injection E as <-. destruct Fj as [[T1 T2] _]. rewrite L1 in T1. split.
    + apply NO; auto; [apply Rabs_R1|]. intros y (Y1 & Y2 & Y3). fold d in Y1.
      specialize (Y3 j ltac:(lia)). lra.
    + split; auto. exists j. fold d. auto.
  - rewrite (C4 Nl Nu) in E. discriminate.
Qed.
Lemma normal_vec_defined :
  (exists n, hc_normal_vec h rtol atol x = Some n) <->
  on_boundary l u x /\ ~ ((exists i, touches l x i) /\ (exists j, touches u x j)).
Proof.
  destruct normal_vec_cases as (C1 & C2 & C3 & C4). pose proof (lens l u x Hx) as [L1 L2]. fold d in L1, L2.
  split.
  - intros [n E]. split; [eapply normal_vec_sound; eauto|]. intros [[i Ti] [j Tj]]. rewrite (C3 i j) in E; auto. discriminate.
  - intros [[_ (i & Hi & HB)] N].
    destruct (touch_cases l (or_introl eq_refl)) as [[a Fa]|Nl];
    destruct (touch_cases u (or_intror eq_refl)) as [[b Fb]|Nu].
    + exfalso. apply N. split; eexists; [apply Fa|apply Fb].
    + eexists. apply (C1 a); auto.
    + eexists. apply (C2 b); auto.
    + exfalso. destruct HB as [B|B].
      * apply (Nl i). split; auto.
      * apply (Nu i). split; auto. rewrite L1. auto.
Qed.
End Main.

(** samples further outside than the tolerance *)
Lemma forallb_map2_false {A B} (P : A -> B -> bool) m n da db i : (i < length m)%nat -> (i < length n)%nat ->
  P (nth i m da) (nth i n db) = false -> forallb (fun b => b) (map2 P m n) = false.
Proof.
  revert n i; induction m as [|a m IH]; intros [|b n] [|i] H1 H2 H; simpl in *; try lia.
  - rewrite H. reflexivity.
  - rewrite (IH n i) by (auto; lia). apply Bool.andb_false_r.
Qed.
Lemma normal_vec_outside l u rtol atol x i : length x = length l -> length u = length l -> (i < length l)%nat ->
  nth i x 0 <= nth i l 0 - (atol + rtol * Rabs (nth i l 0)) \/ nth i u 0 + (atol + rtol * Rabs (nth i u 0)) <= nth i x 0 ->
  hc_normal_vec (mkHypercube l u) rtol atol x = None.
Proof.
  intros Hx Hu Hi H. unfold hc_normal_vec, hc_in_domain. cbn [lb ub].
  destruct H as [H|H].
  - rewrite (forallb_map2_false _ x l 0 0 i) by (try lia; apply Rltb_false; lra). reflexivity.
  - rewrite (forallb_map2_false _ x u 0 0 i) by (try lia; apply Rltb_false; lra). rewrite Bool.andb_false_r. reflexivity.
Qed.

(** batches: when every sample has a normal the batch result is the list of them *)
Lemma batch_pointwise h rtol atol xs ns : xs <> [] ->
  Forall2 (fun x n => hc_normal_vec h rtol atol x = Some n) xs ns -> hc_normal_vec_batch h rtol atol xs = Some ns.
Proof.
  intros Hne H. unfold hc_normal_vec_batch.
  assert (E : map (hc_normal h rtol atol) xs = ns /\ forallb (fun n => Reqb (normR n) 1) ns = true /\
              forallb (hc_in_domain h rtol atol) xs = true).
  { clear Hne. induction H as [|x n xs ns Hn H (IH1 & IH2 & IH3)]; auto. unfold hc_normal_vec in Hn.
    destruct (hc_in_domain h rtol atol x) eqn:D; [|discriminate].
    destruct (Reqb (normR (hc_normal h rtol atol x)) 1) eqn:Q; [|discriminate]. injection Hn as <-.
    simpl. rewrite IH1, IH2, Q, D, IH3. auto. }
  destruct E as (E1 & E2 & E3).
  assert (X : existsb (hc_in_domain h rtol atol) xs = true).
  { destruct xs as [|x xs]; [congruence|]. simpl in E3 |- *. apply Bool.andb_true_iff in E3 as [E3 _]. rewrite E3. auto. }
  rewrite X, E1, E2. reflexivity.
Qed.
