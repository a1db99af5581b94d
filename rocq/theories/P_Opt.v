(** Proofs about batching and the batch iterator. *)
From Verif Require Import Base BaseFacts M_Key M_Opt S_Opt.
From Coq Require Import Permutation.

Lemma Forall2_length {A B} (P : A -> B -> Prop) l m : Forall2 P l m -> length l = length m.
Proof. induction 1; cbn; congruence. Qed.

(** ** axis_size *)
Lemma shapes_rows {A} n (X : ptree A) : all_rows n X ->
  sequence (map shape0 X) = Ok (repeat n (length X)).
Proof.
  induction X as [|p X IH]; intros H; [reflexivity|].
  destruct (H p (or_introl eq_refl)) as (l & -> & L).
  cbn. rewrite IH by (intros q Hq; apply H; right; exact Hq).
  cbn. rewrite L. reflexivity.
Qed.

Lemma shapes_inv {A} (X : ptree A) ss : sequence (map shape0 X) = Ok ss ->
  Forall2 (fun p s => exists l, p = Rows l /\ length l = s) X ss.
Proof.
  revert ss; induction X as [|p X IH]; intros ss H; cbn in H.
  - assert (ss = []) by congruence. subst. constructor.
  - destruct p as [a|l]; cbn in H; [discriminate|].
    destruct (sequence (map shape0 X)) as [t|e]; cbn in H; [|discriminate].
    assert (ss = length l :: t) by congruence. subst.
    constructor; [exists l; auto|]. apply IH. reflexivity.
Qed.

Lemma forallb_eq_repeat n k : forallb (fun s => Nat.eqb s n) (repeat n k) = true.
Proof. induction k; cbn; [|rewrite Nat.eqb_refl]; auto. Qed.

Lemma axis_size_ok {A} n (X : ptree A) : X <> [] -> all_rows n X -> axis_size X = Ok n.
Proof.
  intros Hne H. unfold axis_size, check_axis_size. rewrite (shapes_rows n X H).
  destruct X as [|p X]; [congruence|]. cbn.
  rewrite Nat.eqb_refl. cbn. rewrite forallb_eq_repeat. reflexivity.
Qed.

Lemma axis_size_inv {A} n (X : ptree A) : axis_size X = Ok n -> X <> [] /\ all_rows n X.
Proof.
  unfold axis_size, check_axis_size. intros H.
  destruct (sequence (map shape0 X)) as [ss|e] eqn:E; cbn in H; [|discriminate].
  pose proof (shapes_inv X ss E) as F.
  destruct ss as [|s ss]; cbn in H; [discriminate|].
  rewrite Nat.eqb_refl in H. cbn in H.
  destruct (forallb (fun s' => Nat.eqb s' s) ss) eqn:Eb; cbn in H; [|discriminate].
  assert (s = n) by congruence. subst s.
  split; [intros ->; inversion F|].
  intros p Hp.
  assert (G : forall q, In q (n :: ss) -> q = n).
  { intros q [<-|Hq]; auto. rewrite forallb_forall in Eb. apply Nat.eqb_eq. auto. }
  revert G. generalize (n :: ss) F. clear - Hp.
  intros ss F G. induction F as [|q s X ss (l & -> & L) F IH]; [destruct Hp|].
  destruct Hp as [<-|Hp].
  - exists l. split; auto. rewrite L. apply G. left; auto.
  - apply IH; auto. intros; apply G; right; auto.
Qed.

Lemma axis_size_mismatch {A} (X : ptree A) l m :
  (forall p, In p X -> exists l, p = Rows l) -> In (Rows l) X -> In (Rows m) X ->
  length l <> length m -> axis_size X = Err AssertionError.
Proof.
  intros HR Hl Hm Hlm.
  assert (exists ss, sequence (map shape0 X) = Ok ss) as (ss & E).
  { clear - HR. induction X as [|p X IH]; [exists []; reflexivity|].
    destruct (HR p (or_introl eq_refl)) as (l & ->).
    destruct IH as (ss & E); [intros; apply HR; right; auto|].
    exists (length l :: ss). cbn. rewrite E. reflexivity. }
  destruct (axis_size X) as [n|e] eqn:EA.
  - apply axis_size_inv in EA. destruct EA as (_ & H).
    destruct (H _ Hl) as (l' & E1 & L1). destruct (H _ Hm) as (m' & E2 & L2).
    congruence.
  - unfold axis_size, check_axis_size in EA. rewrite E in EA. cbn in EA.
    destruct ss as [|s ss].
    + apply shapes_inv in E. inversion E; subst. destruct Hl.
    + cbn in EA. rewrite Nat.eqb_refl in EA. cbn in EA.
      destruct (forallb _ ss); cbn in EA; congruence.
Qed.

(** ** gathering *)
Lemma gather_ok {A} (l : list A) i : (i < length l)%nat ->
  exists a, gather l i = Ok a /\ nth_error l i = Some a.
Proof.
  intros H. unfold gather. replace (Nat.min i (length l - 1)) with i by lia.
  destruct (nth_error l i) as [a|] eqn:E; [eauto|].
  apply nth_error_None in E. lia.
Qed.

Lemma gather_list {A} (l : list A) is : (forall i, In i is -> (i < length l)%nat) ->
  exists row, sequence (map (gather l) is) = Ok row /\
              Forall2 (fun i a => nth_error l i = Some a) is row.
Proof.
  induction is as [|i is IH]; intros H; [exists []; split; [reflexivity|constructor]|].
  destruct (gather_ok l i) as (a & E1 & E2); [apply H; left; auto|].
  destruct IH as (row & E3 & F); [intros; apply H; right; auto|].
  exists (a :: row). cbn. rewrite E1. cbn. rewrite E3. split; [reflexivity|constructor; auto].
Qed.

Lemma gather2_ok {A} idx (l : list A) :
  (forall i, In i (concat idx) -> (i < length l)%nat) ->
  exists m, gather2 idx (Rows l) = Ok (Rows m) /\
    Forall2 (fun is row => Forall2 (fun i a => nth_error l i = Some a) is row) idx m.
Proof.
  intros H. cbn.
  assert (exists m, sequence (map (fun p => sequence (map (gather l) p)) idx) = Ok m /\
    Forall2 (fun is row => Forall2 (fun i a => nth_error l i = Some a) is row) idx m) as (m & E & F).
  { induction idx as [|is idx IH]; [exists []; split; [reflexivity|constructor]|].
    destruct (gather_list l is) as (row & E1 & F1).
    { intros i Hi. apply H. cbn. apply in_or_app. auto. }
    destruct IH as (m & E2 & F2).
    { intros i Hi. apply H. cbn. apply in_or_app. auto. }
    exists (row :: m). cbn. rewrite E1. cbn. rewrite E2. split; [reflexivity|constructor; auto]. }
  rewrite E. exists m. split; auto.
Qed.

Lemma gather_tree_ok {A} n idx (X : ptree A) : all_rows n X ->
  (forall i, In i (concat idx) -> (i < n)%nat) ->
  exists Y, sequence (map (gather2 idx) X) = Ok Y /\ aligned idx X Y.
Proof.
  intros HX Hi. induction X as [|p X IH]; [exists []; split; [reflexivity|constructor]|].
  destruct (HX p (or_introl eq_refl)) as (l & -> & L).
  destruct (gather2_ok idx l) as (m & E1 & F1); [rewrite L; auto|].
  destruct IH as (Y & E2 & F2); [intros q Hq; apply HX; right; auto|].
  exists (Rows m :: Y). cbn [map sequence bind]. rewrite E1. cbn [bind]. rewrite E2.
  split; [reflexivity|]. constructor; [exists l; split; auto; exists m; auto|exact F2].
Qed.

(** ** batches_without_replacement *)
Lemma chunks_length {A} m k (l : list A) : length (chunks m k l) = m.
Proof. revert l; induction m; intros; cbn; auto. Qed.

Lemma chunks_each {A} m k (l : list A) : (m * k <= length l)%nat ->
  Forall (fun c => length c = k) (chunks m k l).
Proof.
  revert l; induction m as [|m IH]; intros l H; cbn; constructor.
  - rewrite firstn_length. cbn in H. lia.
  - apply IH. rewrite skipn_length. cbn in H. lia.
Qed.

Lemma chunks_concat {A} m k (l : list A) : length l = (m * k)%nat -> concat (chunks m k l) = l.
Proof.
  revert l; induction m as [|m IH]; intros l H; cbn.
  - destruct l; [reflexivity|discriminate].
  - rewrite IH; [apply firstn_skipn|]. rewrite skipn_length. cbn in H. lia.
Qed.

Lemma NoDup_firstn {A} n (l : list A) : NoDup l -> NoDup (firstn n l).
Proof.
  revert n; induction l as [|a l IH]; intros [|n] H; cbn; try constructor.
  - inversion H; subst. intros Hin. apply H2.
    rewrite <- (firstn_skipn n l). apply in_or_app. auto.
  - inversion H; subst. auto.
Qed.

Lemma bwor_spec {A} permutation k (X : ptree A) n b : permutes permutation ->
  X <> [] -> all_rows n X -> (1 <= b)%nat ->
  exists idx Y, batches_without_replacement permutation k X b = Ok Y /\
    aligned idx X Y /\
    length idx = (n / b)%nat /\ Forall (fun is => length is = b) idx /\
    NoDup (concat idx) /\ (forall i, In i (concat idx) -> (i < n)%nat) /\
    ((n mod b = 0)%nat -> Permutation (concat idx) (seq 0 n)).
Proof.
  intros HP Hne HX Hb.
  set (p := permutation k n).
  assert (Pp : Permutation p (seq 0 n)) by apply HP.
  assert (Lp : length p = n) by (rewrite (Permutation_length Pp), seq_length; auto).
  set (q := firstn (n / b * b) p).
  assert (Hdiv : (n / b * b <= n)%nat).
  { rewrite Nat.mul_comm. apply Nat.mul_div_le. lia. }
  assert (Lq : length q = (n / b * b)%nat) by (unfold q; rewrite firstn_length; lia).
  set (idx := chunks (n / b) b q).
  assert (Cq : concat idx = q) by (apply chunks_concat; exact Lq).
  assert (Hin : forall i, In i (concat idx) -> (i < n)%nat).
  { rewrite Cq. intros i Hi.
    assert (In i p) as Hp.
    { unfold q in Hi. rewrite <- (firstn_skipn (n / b * b) p). apply in_or_app. auto. }
    apply (Permutation_in _ Pp) in Hp. apply in_seq in Hp. lia. }
  destruct (gather_tree_ok n idx X HX Hin) as (Y & EY & FY).
  exists idx, Y. repeat split; auto.
  - unfold batches_without_replacement. rewrite (axis_size_ok n X Hne HX). cbn [bind].
    unfold pyfloordiv. destruct (Nat.eqb_spec b 0); [lia|]. cbn [bind].
    unfold reshape2. fold p. fold q. rewrite Lq, Nat.eqb_refl. cbn [bind]. exact EY.
  - apply chunks_length.
  - apply chunks_each. lia.
  - rewrite Cq. apply NoDup_firstn. apply (Permutation_NoDup (Permutation_sym Pp)).
    apply seq_NoDup.
  - intros Hm. rewrite Cq.
    assert ((n / b * b)%nat = n) as E.
    { pose proof (Nat.div_mod n b ltac:(lia)). lia. }
    unfold q. rewrite firstn_all2 by lia. exact Pp.
Qed.

Lemma aligned_leaf {A} idx (X : ptree A) Y : aligned idx X Y ->
  forall j l, nth_error X j = Some (Rows l) -> exists m, nth_error Y j = Some (Rows m) /\
    Forall2 (fun is row => Forall2 (fun i a => nth_error l i = Some a) is row) idx m.
Proof.
  induction 1 as [|p q X Y (l & -> & m & -> & F) H IH]; intros j l0 Hj.
  - destruct j; discriminate.
  - destruct j; cbn in Hj.
    + injection Hj as <-. exists m. auto.
    + apply IH. exact Hj.
Qed.

Lemma gathered_concat {A} idx (l : list A) m :
  Forall2 (fun is row => Forall2 (fun i a => nth_error l i = Some a) is row) idx m ->
  Forall2 (fun i a => nth_error l i = Some a) (concat idx) (concat m).
Proof. induction 1; cbn; [constructor|]. apply Forall2_app; auto. Qed.

Lemma seq_gather {A} (l : list A) : Forall2 (fun i a => nth_error l i = Some a) (seq 0 (length l)) l.
Proof.
  assert (G : forall pre, Forall2 (fun i a => nth_error (pre ++ l) i = Some a)
                (seq (length pre) (length l)) l).
  { induction l as [|a l IH]; intros pre; cbn; constructor.
    - rewrite nth_error_app2, Nat.sub_diag by lia. reflexivity.
    - specialize (IH (pre ++ [a])). rewrite app_length, Nat.add_1_r in IH.
      rewrite <- app_assoc in IH. exact IH. }
  apply (G []).
Qed.

Lemma map_Some_perm {A} (ra rb : list A) :
  Permutation (map Some ra) (map Some rb) -> Permutation ra rb.
Proof.
  intros P. destruct (Permutation_map_inv Some _ P) as (rc & E & P').
  assert (rc = ra) as ->; [|apply Permutation_sym; exact P'].
  clear - E. revert rc E. induction ra as [|a ra IH]; intros [|c rc] E; cbn in E;
    try discriminate; [reflexivity|]. injection E as -> E. f_equal. auto.
Qed.

Lemma gathered_map {A} (l : list A) is ra :
  Forall2 (fun i a => nth_error l i = Some a) is ra -> map Some ra = map (nth_error l) is.
Proof. induction 1; cbn; congruence. Qed.

Lemma gathered_perm {A} (l : list A) is js ra rb : Permutation is js ->
  Forall2 (fun i a => nth_error l i = Some a) is ra ->
  Forall2 (fun i a => nth_error l i = Some a) js rb -> Permutation ra rb.
Proof.
  intros HP Ha Hb. apply map_Some_perm.
  rewrite (gathered_map _ _ _ Ha), (gathered_map _ _ _ Hb). apply Permutation_map. exact HP.
Qed.

Lemma NoDup_app_local {A} (l m : list A) : NoDup l -> NoDup m ->
  (forall a, In a l -> ~ In a m) -> NoDup (l ++ m).
Proof.
  induction l as [|a l IH]; intros Hl Hm H; cbn; [exact Hm|].
  inversion Hl; subst. constructor.
  - rewrite in_app_iff. intros [|]; [auto|]. apply (H a); [left; auto|auto].
  - apply IH; auto. intros b Hb. apply H. right; auto.
Qed.

Lemma NoDup_subset_perm n (is : list nat) : NoDup is -> (forall i, In i is -> (i < n)%nat) ->
  exists rest, Permutation (is ++ rest) (seq 0 n).
Proof.
  intros HN Hi.
  exists (filter (fun j => if in_dec Nat.eq_dec j is then false else true) (seq 0 n)).
  apply NoDup_Permutation.
  - apply NoDup_app_local; auto.
    + apply NoDup_filter, seq_NoDup.
    + intros a Ha Hf. apply filter_In in Hf. destruct Hf as (_ & Hf).
      destruct (in_dec Nat.eq_dec a is); [discriminate|contradiction].
  - apply seq_NoDup.
  - intros x. rewrite in_app_iff, filter_In, in_seq. split.
    + intros [H|(H & _)]; [apply Hi in H; lia|exact H].
    + intros H. destruct (in_dec Nat.eq_dec x is); [left; auto|right; auto].
Qed.

Lemma gathered_exists {A} (l : list A) is : (forall i, In i is -> (i < length l)%nat) ->
  exists ra, Forall2 (fun i a => nth_error l i = Some a) is ra.
Proof. intros H. destruct (gather_list l is H) as (ra & _ & F). eauto. Qed.

(** every leaf: the batches hold each data row at most once *)
Lemma bwor_rows {A} permutation k (X : ptree A) n b Y j l : permutes permutation ->
  all_rows n X -> (1 <= b)%nat ->
  batches_without_replacement permutation k X b = Ok Y ->
  nth_error X j = Some (Rows l) ->
  exists m rest, nth_error Y j = Some (Rows m) /\
    length m = (n / b)%nat /\ Forall (fun batch => length batch = b) m /\
    Permutation (concat m ++ rest) l /\ length rest = (n mod b)%nat.
Proof.
  intros HP HX Hb HY Hj.
  assert (Hne : X <> []) by (intros ->; destruct j; discriminate).
  destruct (bwor_spec permutation k X n b HP Hne HX Hb)
    as (idx & Y' & E & HA & L & F & ND & Hi & _).
  assert (Y' = Y) by congruence. subst Y'.
  destruct (aligned_leaf idx X Y HA j l Hj) as (m & Em & Fm).
  assert (Ll : length l = n).
  { destruct (HX (Rows l)) as (l' & E' & L'); [eapply nth_error_In; eauto|]. congruence. }
  destruct (NoDup_subset_perm n (concat idx) ND Hi) as (ir & Pir).
  destruct (gathered_exists l ir) as (rest & Frest).
  { intros i Hin. rewrite Ll.
    assert (In i (seq 0 n)) as H by (apply (Permutation_in _ Pir), in_or_app; auto).
    apply in_seq in H. lia. }
  exists m, rest. split; [exact Em|].
  assert (Lm : length m = (n / b)%nat) by (rewrite <- L; symmetry; eapply Forall2_length; eauto).
  assert (Fb : Forall (fun batch => length batch = b) m).
  { clear - Fm F. induction Fm as [|is row idx m H Fm IH]; constructor.
    - inversion F; subst. symmetry. apply (Forall2_length _ _ _ H).
    - apply IH. inversion F; auto. }
  assert (HPm : Permutation (concat m ++ rest) l).
  { eapply (gathered_perm l (concat idx ++ ir) (seq 0 (length l))).
    - rewrite Ll. exact Pir.
    - apply Forall2_app; [apply gathered_concat; exact Fm|exact Frest].
    - apply seq_gather. }
  repeat split; auto.
  assert (Lc : length (concat m) = (n / b * b)%nat).
  { rewrite <- Lm. clear - Fb. induction Fb; cbn; [reflexivity|].
    rewrite app_length. lia. }
  apply Permutation_length in HPm. rewrite app_length, Lc, Ll in HPm.
  pose proof (Nat.div_mod n b ltac:(lia)). lia.
Qed.

Lemma bwor_zero {A} permutation k (X : ptree A) n : X <> [] -> all_rows n X ->
  batches_without_replacement permutation k X 0 = Err ZeroDivisionError.
Proof.
  intros Hne HX. unfold batches_without_replacement. rewrite (axis_size_ok n X Hne HX). reflexivity.
Qed.

Lemma batches_mismatch {A} permutation choice k (X : ptree A) l m b nb r :
  (forall p, In p X -> exists l, p = Rows l) -> In (Rows l) X -> In (Rows m) X ->
  length l <> length m ->
  batches_without_replacement permutation k X b = Err AssertionError /\
  batches_with_replacement choice k X nb b r = Err AssertionError.
Proof.
  intros HR Hl Hm Hlm.
  unfold batches_without_replacement, batches_with_replacement.
  rewrite (axis_size_mismatch X l m HR Hl Hm Hlm). auto.
Qed.

(** ** batches_with_replacement *)
Lemma sequence_ok_each {A B} (f : A -> res B) (l : list A) :
  (forall a, In a l -> exists b, f a = Ok b) ->
  exists r, sequence (map f l) = Ok r /\ Forall2 (fun a b => f a = Ok b) l r.
Proof.
  induction l as [|a l IH]; intros H; [exists []; split; [reflexivity|constructor]|].
  destruct (H a (or_introl eq_refl)) as (b & E).
  destruct IH as (r & E' & F); [intros; apply H; right; auto|].
  exists (b :: r). cbn. rewrite E. cbn. rewrite E'. split; [reflexivity|constructor; auto].
Qed.

Lemma bwr_spec {A} choice k (X : ptree A) n nb b r : chooses choice ->
  X <> [] -> all_rows n X -> (0 < n)%nat -> (r = true \/ (b <= n)%nat) ->
  exists idx Y, batches_with_replacement choice k X nb b r = Ok Y /\
    aligned idx X Y /\
    length idx = nb /\ Forall (fun is => length is = b) idx /\
    (forall i, In i (concat idx) -> (i < n)%nat) /\
    (r = false -> Forall (fun is => NoDup is) idx).
Proof.
  intros HC Hne HX Hn Hr.
  set (cb := fun k => random_choice choice k n b r).
  assert (Hcb : forall k', exists is, cb k' = Ok is /\ length is = b /\
            (forall i, In i is -> (i < n)%nat) /\ (r = false -> NoDup is)).
  { intros k'. unfold cb, random_choice.
    destruct (Nat.eqb_spec b 0) as [->|Hb].
    { exists []. repeat split; auto; [intros i []|constructor]. }
    destruct (Nat.eqb_spec n 0); [lia|].
    assert (andb (negb r) (Nat.ltb n b) = false) as ->.
    { destruct r; [reflexivity|]. cbn. apply Nat.ltb_ge. destruct Hr; [discriminate|auto]. }
    destruct (HC k' n b r Hn) as (L & I & D).
    exists (choice k' n b r). repeat split; auto.
    intros ->. apply D; auto. destruct Hr; [discriminate|auto]. }
  destruct (sequence_ok_each cb (ksplit k nb)) as (idx & E & F).
  { intros a _. destruct (Hcb a) as (is & H & _). eauto. }
  assert (G : Forall (fun is => length is = b /\ (forall i, In i is -> (i < n)%nat) /\
                                (r = false -> NoDup is)) idx).
  { clear - F Hcb. induction F as [|a is ks idx H F IH]; constructor; auto.
    destruct (Hcb a) as (is' & H' & P). assert (is' = is) by congruence. subst. exact P. }
  assert (Hin : forall i, In i (concat idx) -> (i < n)%nat).
  { intros i Hi. apply in_concat in Hi. destruct Hi as (is & H1 & H2).
    rewrite Forall_forall in G. apply (G is H1). exact H2. }
  destruct (gather_tree_ok n idx X HX Hin) as (Y & EY & FY).
  exists idx, Y. repeat split; auto.
  - unfold batches_with_replacement. rewrite (axis_size_ok n X Hne HX). cbn [bind].
    destruct (Hcb k) as (is & H & _). unfold cb in H. rewrite H. cbn [bind].
    fold cb. rewrite E. cbn [bind]. exact EY.
  - rewrite <- (Forall2_length _ _ _ F). unfold ksplit. rewrite map_length, seq_length. reflexivity.
  - eapply Forall_impl; [|exact G]. intros ? (H & _); exact H.
  - intros Hf. eapply Forall_impl; [|exact G]. intros ? (_ & _ & H); auto.
Qed.

Lemma bwr_rejects {A} choice k (X : ptree A) n nb b : X <> [] -> all_rows n X -> (n < b)%nat ->
  batches_with_replacement choice k X nb b false = Err ValueError.
Proof.
  intros Hne HX Hb. unfold batches_with_replacement. rewrite (axis_size_ok n X Hne HX).
  cbn [bind]. unfold random_choice at 1.
  destruct (Nat.eqb_spec b 0); [lia|]. destruct (Nat.eqb_spec n 0); [reflexivity|].
  destruct (Nat.ltb_spec n b); [reflexivity|lia].
Qed.

Lemma bwr_rejects_empty {A} choice k (X : ptree A) nb b r : X <> [] -> all_rows 0 X -> (0 < b)%nat ->
  batches_with_replacement choice k X nb b r = Err ValueError.
Proof.
  intros Hne HX Hb. unfold batches_with_replacement. rewrite (axis_size_ok 0 X Hne HX).
  cbn [bind]. unfold random_choice at 1. destruct (Nat.eqb_spec b 0); [lia|reflexivity].
Qed.

(** ** make_iterator *)
Definition below (k : key) (p : list nat) (k' : key) : Prop :=
  seed k' = seed k /\ exists q, path k' = (path k ++ p) ++ q.

Lemma below_refl k : below k [] k.
Proof. split; auto. exists []. rewrite !app_nil_r. reflexivity. Qed.

Lemma below_child k n i k' p : below (KChild k n i) p k' -> below k (i :: p) k'.
Proof.
  intros (S & q & E). split; [exact S|]. exists q. rewrite E. cbn. rewrite <- !app_assoc. reflexivity.
Qed.

Lemma below_derived k p k' : below k p k' -> derived k k'.
Proof. intros (S & q & E). split; auto. exists (p ++ q). rewrite E, app_assoc. reflexivity. Qed.

Lemma below_weak k p k' : below k p k' -> below k [] k'.
Proof. intros (S & q & E). split; auto. exists (p ++ q). rewrite E, app_nil_r, app_assoc. reflexivity. Qed.

Lemma below_path_neq k i j p q k1 k2 : i <> j -> below k (i :: p) k1 -> below k (j :: q) k2 ->
  path k1 <> path k2.
Proof.
  intros Hij (_ & r1 & E1) (_ & r2 & E2) E. rewrite E1, E2, <- !app_assoc in E.
  apply app_inv_head in E. cbn in E. congruence.
Qed.

Lemma below_path_neq0 k i p k1 : below k (i :: p) k1 -> path k1 <> path k.
Proof.
  intros (_ & r & E) H. rewrite E, <- app_assoc in H.
  apply (f_equal (@length nat)) in H. rewrite app_length in H. cbn in H. lia.
Qed.

Lemma yield_keys {A} rng (b : ptree A) is : forall bk,
  let c := consumed (fst (yield_batches rng b bk is)) in
  Forall (below bk []) c /\ NoDup (map path c).
Proof.
  induction is as [|i is IH]; intros bk; cbn.
  - split; constructor.
  - destruct (tree_row i b) as [row|e]; cbn; [|split; constructor].
    destruct rng.
    + specialize (IH (KChild bk 2 0)).
      destruct (yield_batches true b (KChild bk 2 0) is) as [ev e]. cbn in *.
      destruct IH as (F & N). split.
      * constructor; [apply below_refl|]. constructor.
        { eapply below_weak, below_child, below_refl. }
        eapply Forall_impl; [|exact F]. intros a Ha. eapply below_weak, below_child, Ha.
      * constructor.
        { cbn. intros [H|H].
          - apply (f_equal (@length nat)) in H. rewrite app_length in H. cbn in H. lia.
          - apply in_map_iff in H. destruct H as (k' & E & H).
            rewrite Forall_forall in F. apply F, below_child in H.
            apply below_path_neq0 in H. congruence. }
        constructor; [|exact N].
        intros H. apply in_map_iff in H. destruct H as (k' & E & H).
        rewrite Forall_forall in F. apply F, below_child in H.
        revert E. apply (below_path_neq bk 0 1 [] [] k' (KChild bk 2 1)); auto.
        apply (below_child bk 2 1). apply below_refl.
    + specialize (IH bk). destruct (yield_batches false b bk is) as [ev e]. exact IH.
Qed.

Lemma consumed_app {B} (l m : list (event B)) : consumed (l ++ m) = consumed l ++ consumed m.
Proof. apply flat_map_app. Qed.

Lemma iter_keys {A} (bf : key -> res (ptree A)) rng n : forall k,
  let c := consumed (fst (make_iterator k n bf rng)) in
  Forall (below k []) c /\ NoDup (map path c).
Proof.
  induction n as [|n IH]; intros k; cbn [make_iterator].
  - cbn. split; constructor.
  - set (sk := KChild k 3 1). set (bk := KChild k 3 2).
    assert (Hsk : below k [1%nat] sk) by (apply (below_child k 3 1), below_refl).
    assert (Hbase : forall c, Forall (fun k' => below k [0%nat] k' \/ below k [2%nat] k') c ->
              NoDup (map path c) ->
              Forall (below k []) (k :: sk :: c) /\ NoDup (map path (k :: sk :: c))).
    { intros c F N. split.
      - constructor; [apply below_refl|]. constructor; [eapply below_weak, Hsk|].
        eapply Forall_impl; [|exact F]. intros a [H|H]; eapply below_weak, H.
      - cbn [map]. rewrite Forall_forall in F. constructor.
        + intros [H|H]; [revert H; eapply below_path_neq0, Hsk|].
          apply in_map_iff in H. destruct H as (k' & E & H).
          destruct (F _ H) as [H'|H']; apply below_path_neq0 in H'; congruence.
        + constructor; [|exact N]. intros H.
          apply in_map_iff in H. destruct H as (k' & E & H). revert E.
          destruct (F _ H) as [H'|H'].
          * apply (below_path_neq k 0 1 [] [] k' sk); auto.
          * apply (below_path_neq k 2 1 [] [] k' sk); auto. }
    destruct (batches <- bf sk ;; n0 <- axis_size batches ;; Ok (batches, n0)) as [[b m]|e].
    2:{ cbn. apply (Hbase []); constructor. }
    pose proof (yield_keys rng b (seq 0 m) bk) as Y.
    destruct (yield_batches rng b bk (seq 0 m)) as [ev e]. cbn in Y. destruct Y as (F1 & N1).
    assert (F1' : Forall (below k [2%nat]) (consumed ev)).
    { eapply Forall_impl; [|exact F1]. intros a Ha. apply (below_child k 3 2). exact Ha. }
    destruct e as [e|].
    + cbn [fst]. apply (Hbase (consumed ev)); auto.
      eapply Forall_impl; [|exact F1']. auto.
    + specialize (IH (KChild k 3 0)).
      destruct (make_iterator (KChild k 3 0) n bf rng) as [ev' e']. cbn in IH.
      destruct IH as (F2 & N2).
      assert (F2' : Forall (below k [0%nat]) (consumed ev')).
      { eapply Forall_impl; [|exact F2]. intros a Ha. apply (below_child k 3 0). exact Ha. }
      cbn [fst]. change (consumed (ESplit k :: EBatchFn sk :: ev ++ ev'))
        with (k :: sk :: consumed (ev ++ ev')). rewrite consumed_app.
      apply Hbase.
      * apply Forall_app. split; (eapply Forall_impl; [|eassumption]); auto.
      * rewrite map_app. apply NoDup_app_local; auto.
        intros q Hq1 Hq2. apply in_map_iff in Hq1. apply in_map_iff in Hq2.
        destruct Hq1 as (k1 & E1 & I1). destruct Hq2 as (k2 & E2 & I2).
        rewrite Forall_forall in F1', F2'.
        apply (below_path_neq k 2 0 [] [] k1 k2); auto. congruence.
Qed.

(** items *)
Lemma tree_row_ok {A} n (b : ptree A) i : all_rows n b -> (i < n)%nat ->
  exists row, tree_row i b = Ok row /\ nth_batch b i row.
Proof.
  intros H Hi. induction b as [|p b IH]; [exists []; split; [reflexivity|constructor]|].
  destruct (H p (or_introl eq_refl)) as (l & -> & L).
  destruct (gather_ok l i) as (a & E1 & E2); [lia|].
  destruct IH as (row & E3 & F); [intros q Hq; apply H; right; auto|].
  exists (a :: row). unfold tree_row in *. cbn. rewrite E1. cbn. rewrite E3.
  split; [reflexivity|]. constructor; [exists l; auto|exact F].
Qed.

Lemma yield_items {A} n (b : ptree A) rng is : all_rows n b -> (forall i, In i is -> (i < n)%nat) ->
  forall bk, let r := yield_batches rng b bk is in snd r = None /\ sample_keys (fst r) = [] /\
  Forall2 (fun i it => nth_batch b i (snd it) /\ (if rng then fst it <> None else fst it = None))
          is (items (fst r)).
Proof.
  intros H. induction is as [|i is IH]; intros Hi bk; cbn [yield_batches].
  - cbn. repeat split; constructor.
  - destruct (tree_row_ok n b i H) as (row & E & F); [apply Hi; left; auto|].
    rewrite E. specialize (IH ltac:(intros; apply Hi; right; auto)).
    destruct rng.
    + specialize (IH (KChild bk 2 0)).
      destruct (yield_batches true b (KChild bk 2 0) is) as [ev e]. cbn in *.
      destruct IH as (-> & S & IH). repeat split; auto.
      constructor; auto. cbn. split; [auto|discriminate].
    + specialize (IH bk). destruct (yield_batches false b bk is) as [ev e]. cbn in *.
      destruct IH as (-> & S & IH). repeat split; auto.
Qed.

Lemma items_app {B} (l m : list (event B)) : items (l ++ m) = items l ++ items m.
Proof. induction l as [|[]]; cbn; auto. f_equal; auto. Qed.

Lemma sample_keys_app {B} (l m : list (event B)) : sample_keys (l ++ m) = sample_keys l ++ sample_keys m.
Proof. apply flat_map_app. Qed.

Lemma iter_items {A} (bf : key -> res (ptree A)) rng n : 
  (forall k, exists b m, bf k = Ok b /\ b <> [] /\ all_rows m b) -> forall k,
  exists es : list (list (option key * list A)),
    let r := make_iterator k n bf rng in
    snd r = None /\ items (fst r) = concat es /\ length es = n /\
    length (sample_keys (fst r)) = n /\
    Forall2 (epoch_items bf rng) (sample_keys (fst r)) es.
Proof.
  intros Hbf. induction n as [|n IH]; intros k.
  - exists []. cbn. repeat split; constructor.
  - destruct (IH (KChild k 3 0)) as (es & H).
    destruct (Hbf (KChild k 3 1)) as (b & m & E & Hne & HR).
    cbn [make_iterator]. rewrite E. cbn [bind]. rewrite (axis_size_ok m b Hne HR). cbn [bind].
    destruct (yield_items m b rng (seq 0 m) HR ltac:(intros i Hi; apply in_seq in Hi; lia)
                (KChild k 3 2)) as (Ye & Ys & Yi).
    destruct (yield_batches rng b (KChild k 3 2) (seq 0 m)) as [ev e]. cbn in Ye, Ys, Yi. subst e.
    destruct (make_iterator (KChild k 3 0) n bf rng) as [ev' e']. cbn in H.
    destruct H as (-> & HI & HL & HS & HF).
    exists (items ev :: es). cbn. rewrite items_app, HI.
    change (flat_map _ (ev ++ ev')) with (sample_keys (ev ++ ev')).
    change (sample_keys ev = []) in Ys. rewrite sample_keys_app, Ys. cbn [app].
    repeat split; auto.
    constructor; [|exact HF].
    exists b, m. auto.
Qed.

Lemma iter_raises {A} (bf : key -> res (ptree A)) rng n k e :
  bf (KChild k 3 1) = Err e ->
  make_iterator k (S n) bf rng = ([ESplit k; EBatchFn (KChild k 3 1)], Some e).
Proof. intros H. cbn [make_iterator]. rewrite H. reflexivity. Qed.

Lemma iter_count {A} (bf : key -> res (ptree A)) rng n m k :
  (forall k, exists b, bf k = Ok b /\ b <> [] /\ all_rows m b) ->
  length (items (fst (make_iterator k n bf rng))) = (n * m)%nat.
Proof.
  intros H. destruct (iter_items bf rng n) with (k := k) as (es & H2).
  { intros k'. destruct (H k') as (b & Hb). eauto. }
  cbn zeta in H2. destruct H2 as (_ & -> & L & _ & F). rewrite <- L. clear L.
  revert F. generalize (sample_keys (fst (make_iterator k n bf rng))).
  induction es as [|its es IH]; intros sk F; [reflexivity|].
  inversion F as [|k' its' sk' es' HE HF]; subst. cbn. rewrite app_length. f_equal.
  - destruct HE as (b & n' & Eb & Hne & HR & F2).
    rewrite <- (Forall2_length _ _ _ F2), seq_length.
    destruct (H k') as (b' & Eb' & _ & HR'). assert (b' = b) by congruence. subst b'.
    destruct b as [|p b]; [congruence|].
    destruct (HR p (or_introl eq_refl)) as (l & -> & <-).
    destruct (HR' (Rows l) (or_introl eq_refl)) as (l' & E & <-). congruence.
  - apply (IH sk' HF).
Qed.

Lemma iter_keys_spec {A} (bf : key -> res (ptree A)) rng n k :
  NoDup (map path (consumed (fst (make_iterator k n bf rng)))) /\
  (forall k', In k' (consumed (fst (make_iterator k n bf rng))) -> derived k k').
Proof.
  destruct (iter_keys bf rng n k) as (F & N). split; [exact N|].
  intros k' H. rewrite Forall_forall in F. apply F in H. eapply below_derived, H.
Qed.

(** ** Instances used for the examples *)
Lemma seq_permutes : permutes (fun _ n => rev (seq 0 n)).
Proof. intros k n. apply Permutation_sym, Permutation_rev. Qed.

Lemma firstn_chooses : chooses (fun _ N n (b : bool) => if b then repeat 0%nat n
                                  else if Nat.leb n N then seq 0 n else repeat 0%nat n).
Proof.
  intros k N n b HN. destruct b; [|destruct (Nat.leb_spec n N)].
  - rewrite repeat_length. repeat split; [intros i Hi; apply repeat_spec in Hi; lia|discriminate].
  - rewrite seq_length. repeat split; [intros i Hi; apply in_seq in Hi; lia|intros; apply seq_NoDup].
  - rewrite repeat_length. repeat split; [intros i Hi; apply repeat_spec in Hi; lia|intros; lia].
Qed.
