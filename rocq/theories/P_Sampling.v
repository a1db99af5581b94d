(** Proofs about rejection sampling. *)
From Verif Require Import Base BaseFacts M_Key M_XR M_Sampling S_Opt S_Sampling P_Opt.
From Coquelicot Require Import Coquelicot.

Section Facts.
Context {A : Type}.
Variable sample_fn : key -> A.
Variable uniform : key -> R.
Variable pdf : A -> xr.
Variable m : R.

Notation kround k j := (Nat.iter j (fun z => KChild z 3 0) k).
(** is the draw from key k rejected *)
Definition rejected (k : key) : bool :=
  xgtb (Fin (uniform (KChild k 3 2))) (xdiv (pdf (sample_fn (KChild k 3 1))) (Fin m)).

Lemma kround_S k j : kround (KChild k 3 0) j = kround k (S j).
Proof. induction j; [reflexivity|]. change (KChild (kround (KChild k 3 0) j) 3 0 = kround k (S (S j))). rewrite IHj. reflexivity. Qed.

Lemma loop_some fuel : forall k s,
  while_loop sample_fn uniform pdf m fuel (draw sample_fn uniform k) = Some s ->
  exists j, (j < fuel)%nat /\ s = draw sample_fn uniform (kround k j) /\
    rejected (kround k j) = false /\ forall j', (j' < j)%nat -> rejected (kround k j') = true.
Proof.
  induction fuel as [|fuel IH]; intros k s H; cbn [while_loop] in H; [discriminate|].
  change (not_valid pdf m (draw sample_fn uniform k)) with (rejected k) in H.
  destruct (rejected k) eqn:E.
  - change (body sample_fn uniform (draw sample_fn uniform k))
      with (draw sample_fn uniform (KChild k 3 0)) in H.
    destruct (IH _ _ H) as (j & Hj & Hs & Hr & Hb).
    exists (S j). rewrite <- kround_S. repeat split; auto; [lia|].
    intros [|j'] Hj'; [exact E|]. rewrite <- kround_S. apply Hb. lia.
  - exists 0%nat. assert (s = draw sample_fn uniform k) by congruence.
    repeat split; auto; lia.
Qed.

Lemma loop_accepts fuel : forall k j, (j < fuel)%nat -> rejected (kround k j) = false ->
  (forall j', (j' < j)%nat -> rejected (kround k j') = true) ->
  while_loop sample_fn uniform pdf m fuel (draw sample_fn uniform k)
  = Some (draw sample_fn uniform (kround k j)).
Proof.
  induction fuel as [|fuel IH]; intros k j Hj Hr Hb; [lia|]. cbn [while_loop].
  change (not_valid pdf m (draw sample_fn uniform k)) with (rejected k).
  destruct j as [|j].
  - cbn in Hr |- *. rewrite Hr. reflexivity.
  - rewrite (Hb 0%nat ltac:(lia) : rejected k = true).
    change (body sample_fn uniform (draw sample_fn uniform k))
      with (draw sample_fn uniform (KChild k 3 0)).
    rewrite (IH (KChild k 3 0) j); [rewrite kround_S; reflexivity|lia|rewrite kround_S; exact Hr|].
    intros j' Hj'. rewrite kround_S. apply Hb. lia.
Qed.

Lemma draw_sample_some fuel k x :
  draw_sample sample_fn uniform pdf m fuel k = Some x <->
  exists j, (j < fuel)%nat /\ x = sample_fn (KChild (kround k j) 3 1) /\
    rejected (kround k j) = false /\ forall j', (j' < j)%nat -> rejected (kround k j') = true.
Proof.
  unfold draw_sample. split.
  - destruct (while_loop _ _ _ _ _ _) as [s|] eqn:E; [|discriminate].
    destruct (loop_some fuel k s E) as (j & Hj & -> & Hr & Hb). unfold draw. intros H.
    exists j. repeat split; auto. congruence.
  - intros (j & Hj & -> & Hr & Hb). rewrite (loop_accepts fuel k j Hj Hr Hb). reflexivity.
Qed.
End Facts.

Lemma all_some_spec {B} (l : list (option B)) r : all_some l = Some r -> l = map Some r.
Proof.
  revert r; induction l as [|[b|] l IH]; intros r H; cbn in H; [injection H as <-; reflexivity| |discriminate].
  destruct (all_some l) as [t|]; [|discriminate].
  assert (r = b :: t) by congruence. subst. cbn. f_equal. auto.
Qed.

Lemma all_some_map {B} (r : list B) : all_some (map Some r) = Some r.
Proof. induction r; cbn; [|rewrite IHr]; reflexivity. Qed.

Lemma nth_error_ksplit k n i : (i < n)%nat -> nth_error (ksplit k n) i = Some (KChild k n i).
Proof.
  intros H. unfold ksplit. rewrite nth_error_map, nth_error_nth' with (d := 0%nat) by (rewrite seq_length; auto).
  cbn. rewrite seq_nth by auto. reflexivity.
Qed.

Lemma rs_spec {A} sample_fn uniform (pdf : A -> xr) m fuel k n ss :
  rejection_sampling sample_fn uniform pdf m fuel k n = Some ss ->
  length ss = n /\
  forall i, (i < n)%nat -> exists j, (j < fuel)%nat /\
    nth_error ss i = Some (sample_fn (proposal_key k n i j)) /\
    rejected sample_fn uniform pdf m (round_key k n i j) = false /\
    forall j', (j' < j)%nat -> rejected sample_fn uniform pdf m (round_key k n i j') = true.
Proof.
  unfold rejection_sampling. intros H. apply all_some_spec in H.
  assert (L : length ss = n).
  { apply (f_equal (@length _)) in H. rewrite !map_length in H.
    unfold ksplit in H. rewrite map_length, seq_length in H. congruence. }
  split; [exact L|]. intros i Hi.
  assert (E : nth_error (map (draw_sample sample_fn uniform pdf m fuel) (ksplit k n)) i
              = nth_error (map Some ss) i) by (rewrite H; reflexivity).
  rewrite !nth_error_map, nth_error_ksplit in E by auto. cbn in E.
  destruct (nth_error ss i) as [x|]; cbn in E; [|discriminate].
  injection E as E. apply draw_sample_some in E.
  destruct E as (j & Hj & -> & Hr & Hb). exists j. repeat split; auto.
Qed.

(** ** real densities *)
Lemma reject_real u d m : 0 < m -> xgtb (Fin u) (xdiv (Fin d) (Fin m)) = true <-> d / m < u.
Proof.
  intros Hm. unfold xdiv. destruct (Req_EM_T m 0); [lra|]. cbn. unfold xgtb. cbn.
  apply Rltb_true.
Qed.

Lemma accept_real u d m : 0 < m -> xgtb (Fin u) (xdiv (Fin d) (Fin m)) = false <-> u <= d / m.
Proof.
  intros Hm. pose proof (reject_real u d m Hm) as H.
  destruct (xgtb _ _); split; intros; try discriminate; auto.
  - exfalso. destruct H as [H _]. specialize (H eq_refl). lra.
  - destruct H as [_ H]. destruct (Rle_lt_dec u (d / m)); auto. specialize (H r). discriminate.
Qed.

Lemma rs_real {A} sample_fn uniform (pdf : A -> R) m fuel k n ss :
  (forall k, 0 <= uniform k < 1) -> 0 < m ->
  rejection_sampling sample_fn uniform (fun x => Fin (pdf x)) m fuel k n = Some ss ->
  length ss = n /\
  forall i, (i < n)%nat -> exists j x, (j < fuel)%nat /\ nth_error ss i = Some x /\
    x = sample_fn (proposal_key k n i j) /\
    uniform (uniform_key k n i j) <= pdf x / m /\ 0 <= pdf x /\
    (0 < uniform (uniform_key k n i j) -> 0 < pdf x) /\
    forall j', (j' < j)%nat ->
      pdf (sample_fn (proposal_key k n i j')) / m < uniform (uniform_key k n i j').
Proof.
  intros Hu Hm H. apply rs_spec in H. destruct H as (L & H). split; [exact L|].
  intros i Hi. destruct (H i Hi) as (j & Hj & E & Hr & Hb).
  exists j, (sample_fn (proposal_key k n i j)).
  apply accept_real in Hr; [|exact Hm].
  fold (uniform_key k n i j) in Hr. fold (proposal_key k n i j) in Hr.
  pose proof (Hu (uniform_key k n i j)) as Hu'.
  assert (M : forall d, d / m * m = d) by (intros; field; lra).
  repeat split; auto.
  - rewrite <- (M (pdf _)). apply Rmult_le_pos; lra.
  - intros Hp. rewrite <- (M (pdf _)). apply Rmult_lt_0_compat; lra.
  - intros j' Hj'. apply (reject_real _ _ m Hm). apply (Hb j' Hj').
Qed.

(** every sampler that accepts somewhere in each lane terminates *)
Lemma first_true (f : nat -> bool) j : f j = false ->
  exists i, (i <= j)%nat /\ f i = false /\ forall i', (i' < i)%nat -> f i' = true.
Proof.
  induction j as [j IH] using (well_founded_induction lt_wf). intros H.
  destruct (in_dec Bool.bool_dec false (map f (seq 0 j))) as [Hin|Hno].
  - apply in_map_iff in Hin. destruct Hin as (i & E & Hi). apply in_seq in Hi.
    destruct (IH i ltac:(lia) E) as (i' & ? & ? & ?). exists i'. repeat split; auto; lia.
  - exists j. repeat split; auto. intros i' Hi'. destruct (f i') eqn:E; auto.
    exfalso. apply Hno. apply in_map_iff. exists i'. split; auto. apply in_seq. lia.
Qed.

Lemma nth_error_ext_eq {B} (l l' : list B) : (forall i, nth_error l i = nth_error l' i) -> l = l'.
Proof.
  revert l'; induction l as [|a l IH]; intros [|b l'] H; auto.
  - specialize (H 0%nat); discriminate.
  - specialize (H 0%nat); discriminate.
  - pose proof (H 0%nat) as H0. cbn in H0. injection H0 as ->. f_equal.
    apply IH. intros i. apply (H (S i)).
Qed.

Lemma rs_terminates {A} sample_fn uniform (pdf : A -> R) m k n : 0 < m ->
  (forall i, (i < n)%nat -> exists j,
      uniform (uniform_key k n i j) <= pdf (sample_fn (proposal_key k n i j)) / m) ->
  exists fuel ss, rejection_sampling sample_fn uniform (fun x => Fin (pdf x)) m fuel k n = Some ss.
Proof.
  intros Hm H.
  set (rej := rejected sample_fn uniform (fun x => Fin (pdf x)) m).
  assert (HF : forall i, (i < n)%nat -> exists j, rej (round_key k n i j) = false /\
             forall j', (j' < j)%nat -> rej (round_key k n i j') = true).
  { intros i Hi. destruct (H i Hi) as (j & Hj).
    destruct (first_true (fun j => rej (round_key k n i j)) j) as (i' & _ & ? & ?); eauto.
    apply accept_real; auto. }
  assert (HB : forall p, (p <= n)%nat -> exists fuel ss,
     length ss = p /\ forall i x, nth_error ss i = Some x ->
        forall f, (fuel <= f)%nat ->
        draw_sample sample_fn uniform (fun x => Fin (pdf x)) m f (KChild k n i) = Some x).
  { induction p as [|p IH]; intros Hp.
    - exists 0%nat, []. split; auto. intros [|i] x E; discriminate.
    - destruct IH as (fuel & ss & L & G); [lia|].
      destruct (HF p ltac:(lia)) as (j & Hr & Hb).
      exists (Nat.max fuel (S j)), (ss ++ sample_fn (KChild (round_key k n p j) 3 1) :: nil).
      split; [rewrite app_length; cbn; lia|].
      intros i x E f Hf. destruct (Nat.lt_ge_cases i p) as [Hi|Hi].
      + rewrite nth_error_app1 in E by lia. apply G; auto. lia.
      + rewrite nth_error_app2 in E by lia.
        destruct (i - length ss)%nat as [|q] eqn:Eq; [|destruct q; discriminate].
        assert (i = p) by lia. subst i. cbn in E.
        apply draw_sample_some. exists j. repeat split; auto; [lia|injection E as <-; reflexivity]. }
  destruct (HB n (le_n n)) as (fuel & ss & L & G). exists fuel, ss.
  unfold rejection_sampling. rewrite <- (all_some_map ss). f_equal.
  apply nth_error_ext_eq. intros i. rewrite !nth_error_map.
  destruct (Nat.lt_ge_cases i n) as [Hi|Hi].
  - rewrite nth_error_ksplit by auto. cbn.
    destruct (nth_error ss i) as [x|] eqn:E.
    + cbn. rewrite (G i x E fuel (le_n fuel)). reflexivity.
    + apply nth_error_None in E. lia.
  - assert (nth_error (ksplit k n) i = None) as ->.
    { apply nth_error_None. unfold ksplit. rewrite map_length, seq_length. lia. }
    assert (nth_error ss i = None) as -> by (apply nth_error_None; lia). reflexivity.
Qed.

(** ** keys *)
Lemma path_round k n i j : path (round_key k n i j) = path k ++ i :: repeat 0%nat j.
Proof.
  induction j; [reflexivity|].
  change (path (round_key k n i j) ++ 0%nat :: nil = path k ++ i :: repeat 0%nat (S j)).
  rewrite IHj, <- app_assoc. cbn. f_equal. f_equal. clear.
  induction j; cbn; congruence.
Qed.

Lemma rs_keys k n i j c i' j' c' :
  (c = 1 \/ c = 2)%nat -> (c' = 1 \/ c' = 2)%nat ->
  path (KChild (round_key k n i j) 3 c) = path (KChild (round_key k n i' j') 3 c') ->
  i = i' /\ j = j' /\ c = c'.
Proof.
  intros Hc Hc' H. cbn in H. rewrite !path_round, <- !app_assoc in H.
  apply app_inv_head in H. cbn in H. injection H as -> H. split; auto.
  assert (forall j j', repeat 0%nat j ++ c :: nil = repeat 0%nat j' ++ c' :: nil -> j = j' /\ c = c') as G.
  { clear - Hc Hc'. induction j as [|j IH]; intros [|j'] H; cbn in H; injection H; intros; auto; try lia.
    destruct (IH j' H0). auto. }
  apply G. exact H.
Qed.

(** ** distribution *)
Lemma path_iter0 j k : length (path (Nat.iter j (fun k => KChild k 3 0) k)) = (j + length (path k))%nat.
Proof.
  induction j; [reflexivity|].
  change (length (path (Nat.iter j (fun k => KChild k 3 0) k) ++ 0%nat :: nil) = (S j + length (path k))%nat).
  rewrite app_length, IHj. cbn. lia.
Qed.

Section Dist.
Context {A : Type} (eq_dec : forall x y : A, {x = y} + {x <> y}) (d : A).
Variable pdf : A -> R.
Variable m : R.
Hypothesis Hm : 0 < m.

Definition acc (xu : A * R) : bool := negb (xgtb (Fin (snd xu)) (xdiv (Fin (pdf (fst xu))) (Fin m))).

Lemma rejected_from l j : (j < length l)%nat ->
  rejected (sample_from d l) (uniform_from d l) (fun x => Fin (pdf x)) m
    (Nat.iter j (fun k => KChild k 3 0) (KSeed 0)) = negb (acc (nth j l (d, 0))).
Proof.
  intros H. unfold rejected, acc, sample_from, uniform_from, round_of. cbn [path].
  rewrite !app_length, path_iter0. cbn [length path].
  replace (j + 0 + 1 - 1)%nat with j by lia. rewrite Bool.negb_involutive. reflexivity.
Qed.

Lemma find_nth (l : list (A * R)) x : find acc l = Some x <->
  exists j, (j < length l)%nat /\ nth j l (d, 0) = x /\ acc x = true /\
    forall j', (j' < j)%nat -> acc (nth j' l (d, 0)) = false.
Proof.
  induction l as [|a l IH]; cbn [find length].
  - split; [discriminate|]. intros (j & H & _). lia.
  - destruct (acc a) eqn:E.
    + split.
      * intros H. assert (a = x) by congruence. subst. exists 0%nat. repeat split; auto; lia.
      * intros ([|j] & Hj & Hx & Ha & Hb); [cbn in Hx; congruence|].
        specialize (Hb 0%nat ltac:(lia)). cbn in Hb. congruence.
    + rewrite IH. split.
      * intros (j & Hj & Hx & Ha & Hb). exists (S j). repeat split; auto; [lia|].
        intros [|j'] Hj'; [exact E|]. apply Hb. lia.
      * intros ([|j] & Hj & Hx & Ha & Hb); [cbn in Hx; congruence|].
        exists j. repeat split; auto; [lia|]. intros j' Hj'. apply (Hb (S j')). lia.
Qed.

Lemma draw_is_find (l : list (A * R)) :
  draw_sample (sample_from d l) (uniform_from d l) (fun x => Fin (pdf x)) m (length l) (KSeed 0)
  = option_map fst (find acc l).
Proof.
  set (D := draw_sample _ _ _ _ _ _).
  assert (G1 : forall x, find acc l = Some x -> D = Some (fst x)).
  { intros x H. apply find_nth in H. destruct H as (j & Hj & Hx & Ha & Hb).
    apply draw_sample_some. exists j. split; auto. split.
    - unfold sample_from, round_of. cbn [path]. rewrite app_length, path_iter0. cbn [length path].
      replace (j + 0 + 1 - 1)%nat with j by lia. rewrite Hx. reflexivity.
    - split; [rewrite rejected_from by auto; rewrite Hx, Ha; reflexivity|].
      intros j' Hj'. rewrite rejected_from by lia. rewrite Hb by auto. reflexivity. }
  destruct (find acc l) as [x|] eqn:E; cbn; [auto|].
  destruct D as [x|] eqn:ED; auto. exfalso.
  apply draw_sample_some in ED. destruct ED as (j & Hj & _ & Hr & _).
  rewrite rejected_from in Hr by auto.
  rewrite (find_none _ _ E (nth j l (d, 0))) in Hr; [discriminate|apply nth_In; auto].
Qed.

Variable V : list A.
Hypothesis HV : V <> [].
Hypothesis HND : NoDup V.
Hypothesis Hpdf : forall x, In x V -> 0 <= pdf x <= m.

Lemma INR_V : 0 < INR (length V).
Proof. apply lt_0_INR. destruct V; [congruence|cbn; lia]. Qed.

Lemma expect_ext r F G : (forall l, length l = r -> F l = G l) -> expect V r F = expect V r G.
Proof.
  revert F G; induction r as [|r IH]; intros F G H; cbn [expect]; [apply H; reflexivity|].
  f_equal. f_equal. apply map_ext. intros x. apply RInt_ext. intros u _.
  apply IH. intros l Hl. apply H. cbn. lia.
Qed.

Lemma sumR_const {B} (l : list B) c : sumR (map (fun _ => c) l) = INR (length l) * c.
Proof.
  induction l as [|b l IH]; [cbn; ring|].
  cbn [map length]. rewrite S_INR. cbn. fold (sumR (map (fun _ : B => c) l)). rewrite IH. ring.
Qed.

Lemma expect_const r c : expect V r (fun _ => c) = c.
Proof.
  pose proof INR_V as HI.
  induction r as [|r IH]; cbn [expect]; [reflexivity|].
  rewrite (map_ext _ (fun _ => c)).
  - rewrite sumR_const. field. lra.
  - intros x. rewrite (RInt_ext _ (fun _ => c)); [|intros; apply IH].
    rewrite RInt_const. change (scal (1 - 0) c) with ((1 - 0) * c). ring.
Qed.

Lemma RInt_step c a b : 0 <= c <= 1 ->
  RInt (fun u => if Rle_dec u c then a else b) 0 1 = c * a + (1 - c) * b.
Proof.
  intros Hc.
  assert (E1 : forall u, Rmin 0 c < u < Rmax 0 c -> (if Rle_dec u c then a else b) = a).
  { intros u Hu. rewrite Rmin_left, Rmax_right in Hu by lra. destruct (Rle_dec u c); lra. }
  assert (E2 : forall u, Rmin c 1 < u < Rmax c 1 -> (if Rle_dec u c then a else b) = b).
  { intros u Hu. rewrite Rmin_left, Rmax_right in Hu by lra. destruct (Rle_dec u c); lra. }
  rewrite <- (RInt_Chasles (V := R_CompleteNormedModule) _ 0 c 1).
  - rewrite (RInt_ext _ (fun _ => a) 0 c E1), (RInt_ext _ (fun _ => b) c 1 E2).
    rewrite !RInt_const. change (@plus R_AbelianGroup ((c - 0) * a) ((1 - c) * b) = c * a + (1 - c) * b).
    change (@eq R ((c - 0) * a + (1 - c) * b) (c * a + (1 - c) * b)). ring.
  - apply (ex_RInt_ext (fun _ => a)); [intros; symmetry; apply E1; auto|apply ex_RInt_const].
  - apply (ex_RInt_ext (fun _ => b)); [intros; symmetry; apply E2; auto|apply ex_RInt_const].
Qed.

Definition hit (v : A) (l : list (A * R)) : R :=
  match find acc l with Some x => if eq_dec (fst x) v then 1 else 0 | None => 0 end.

Lemma sum_pick (g : A -> R) v : In v V ->
  sumR (map (fun x => g x * (if eq_dec x v then 1 else 0)) V) = g v.
Proof.
  clear HV Hpdf. induction V as [|x W IH]; intros Hv; [destruct Hv|].
  inversion HND; subst. cbn.
  fold (sumR (map (fun x => g x * (if eq_dec x v then 1 else 0)) W)).
  destruct (eq_dec x v) as [->|Hne].
  - rewrite sumR_map_0; [ring|]. intros y Hy. destruct (eq_dec y v) as [->|]; [contradiction|ring].
  - destruct Hv as [->|Hv]; [congruence|]. rewrite IH; auto. ring.
Qed.

Definition rate : R := sumR (map pdf V) / (INR (length V) * m).

Lemma hit_step v r : In v V ->
  expect V (S r) (hit v) = pdf v / (INR (length V) * m) + (1 - rate) * expect V r (hit v).
Proof.
  intros Hv. pose proof INR_V as HI. cbn [expect].
  set (P := expect V r (hit v)).
  rewrite (sumR_map_ext _ (fun x => / m * (pdf x * (if eq_dec x v then 1 else 0)) + (P + - (P / m) * pdf x))).
  - rewrite sumR_map_add, !sumR_map_scal, sumR_map_add, sumR_const, sumR_map_scal, sum_pick by auto.
    unfold rate. field. split; lra.
  - intros x Hx. destruct (Hpdf x Hx) as [H0 H1].
    set (c := pdf x / m).
    assert (Hc : 0 <= c <= 1).
    { unfold c. split; [apply Rdiv_le_0_compat; lra|]. apply (Rdiv_le_1 (pdf x) m); lra. }
    rewrite (RInt_ext _ (fun u => if Rle_dec u c then (if eq_dec x v then 1 else 0) else P)).
    + rewrite RInt_step by exact Hc. unfold c. destruct (eq_dec x v); field; lra.
    + intros u _. assert (EA : acc (x, u) = if Rle_dec u c then true else false).
      { unfold acc. cbn [fst snd]. destruct (xgtb _ _) eqn:E.
        - apply reject_real in E; auto. destruct (Rle_dec u c); auto. unfold c in *. lra.
        - apply accept_real in E; auto. destruct (Rle_dec u c); auto. contradiction. }
      unfold hit at 1. cbn [find]. rewrite EA. destruct (Rle_dec u c); [apply expect_const|reflexivity].
Qed.

Hypothesis Hmass : 0 < sumR (map pdf V).

Lemma rate_pos : 0 < rate.
Proof. pose proof INR_V. apply Rdiv_lt_0_compat; auto. apply Rmult_lt_0_compat; auto. Qed.

Lemma rate_le : rate <= 1.
Proof.
  pose proof INR_V as HI. unfold rate.
  assert (sumR (map pdf V) <= INR (length V) * m).
  { rewrite <- (sumR_const V m). clear - Hpdf. induction V as [|x W IH]; cbn; [lra|].
    fold (sumR (map pdf W)). fold (sumR (map (fun _ => m) W)).
    pose proof (Hpdf x (or_introl eq_refl)). specialize (IH ltac:(intros; apply Hpdf; right; auto)). lra. }
  apply Rle_div_l; [apply Rmult_lt_0_compat; auto|]. lra.
Qed.

Lemma hit_closed v r : In v V ->
  expect V r (hit v) = pdf v / sumR (map pdf V) * (1 - (1 - rate) ^ r).
Proof.
  intros Hv. pose proof INR_V as HI. induction r as [|r IH].
  - cbn. unfold hit. cbn. ring.
  - rewrite hit_step, IH by auto. cbn [pow]. 
    replace (pdf v / (INR (length V) * m)) with (pdf v / sumR (map pdf V) * rate)
      by (unfold rate; field; repeat split; lra).
    ring.
Qed.

Lemma hit_draw v l r : length l = r ->
  match draw_sample (sample_from d l) (uniform_from d l) (fun x => Fin (pdf x)) m r (KSeed 0) with
  | Some x => if eq_dec x v then 1 else 0
  | None => 0
  end = hit v l.
Proof.
  intros L. unfold hit. subst r. rewrite draw_is_find. destruct (find acc l) as [x|]; reflexivity.
Qed.

Notation prob r v := (prob eq_dec d pdf m V r v).

Lemma prob_closed v r : In v V -> prob r v = pdf v / sumR (map pdf V) * (1 - (1 - rate) ^ r).
Proof.
  intros Hv. unfold S_Sampling.prob. rewrite (expect_ext r _ (hit v)); [apply hit_closed; auto|].
  intros l Hl. apply hit_draw. exact Hl.
Qed.

Lemma prob_prop v w r : In v V -> In w V -> prob r v * pdf w = prob r w * pdf v.
Proof. intros Hv Hw. rewrite !prob_closed by auto. field. lra. Qed.

Lemma prob_limit v : In v V -> is_lim_seq (fun r => prob r v) (pdf v / sumR (map pdf V)).
Proof.
  intros Hv. pose proof rate_pos. pose proof rate_le.
  apply (is_lim_seq_ext (fun r => pdf v / sumR (map pdf V) * (1 - (1 - rate) ^ r))).
  { intros r. symmetry. apply prob_closed. auto. }
  evar_last.
  - apply is_lim_seq_mult'; [apply is_lim_seq_const|].
    apply is_lim_seq_minus'; [apply is_lim_seq_const|].
    apply is_lim_seq_geom. rewrite Rabs_pos_eq; lra.
  - f_equal. ring.
Qed.
End Dist.

(** ** extended densities *)
Lemma rs_positive {A} sample_fn uniform (pdf : A -> xr) m fuel k n ss x :
  (forall k, 0 < uniform k < 1) -> 0 < m -> (forall x, pdf x <> NaN) ->
  rejection_sampling sample_fn uniform pdf m fuel k n = Some ss -> In x ss ->
  xgtb (pdf x) (Fin 0) = true.
Proof.
  intros Hu Hm Hn H Hx. apply rs_spec in H. destruct H as (L & H).
  apply In_nth_error in Hx. destruct Hx as (i & Hi).
  assert (i < n)%nat as Hlt by (rewrite <- L; apply nth_error_Some; congruence).
  destruct (H i Hlt) as (j & _ & E & Hr & _).
  assert (x = sample_fn (proposal_key k n i j)) by congruence. subst x.
  unfold rejected in Hr. fold (proposal_key k n i j) in Hr.
  pose proof (Hu (KChild (round_key k n i j) 3 2)) as U.
  specialize (Hn (sample_fn (proposal_key k n i j))).
  destruct (pdf (sample_fn (proposal_key k n i j))) as [d| | |]; try congruence.
  - apply accept_real in Hr; auto. unfold xgtb. cbn. apply Rltb_true.
    replace d with (d / m * m) by (field; lra). apply Rmult_lt_0_compat; lra.
  - reflexivity.
  - cbn in Hr. destruct (Rlt_dec m 0); [lra|]. discriminate.
Qed.

Lemma rs_zero_density : exists (uniform : key -> R),
  (forall k, 0 <= uniform k < 1) /\
  rejection_sampling (fun _ => tt) uniform (fun _ => Fin 0) 1 1 (KSeed 0) 1 = Some (tt :: nil).
Proof.
  exists (fun _ => 0). split; [intros; lra|].
  unfold rejection_sampling, draw_sample. cbn. unfold xgtb. destruct (Req_EM_T 1 0); [lra|]. cbn.
  destruct (Rltb (0 / 1) 0) eqn:E; [apply Rltb_true in E; lra|reflexivity].
Qed.

Lemma rs_nan_density : forall (uniform : key -> R),
  rejection_sampling (fun _ => tt) uniform (fun _ => NaN) 1 1 (KSeed 0) 1 = Some (tt :: nil).
Proof. reflexivity. Qed.
