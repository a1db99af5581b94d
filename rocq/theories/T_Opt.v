(** Property theorems for opt.py (C58-C60). *)
From Verif Require Import Base M_Key M_Opt S_Opt P_Opt.
From Coq Require Import Permutation.

(** ** C58 *)
Theorem without_replacement_batches {A} (permutation : key -> nat -> list nat) k (X : ptree A) n b :
  permutes permutation -> X <> [] -> all_rows n X -> (1 <= b)%nat ->
  exists idx Y, batches_without_replacement permutation k X b = Ok Y /\
    aligned idx X Y /\
    length idx = (n / b)%nat /\ Forall (fun is => length is = b) idx /\
    NoDup (concat idx) /\ (forall i, In i (concat idx) -> (i < n)%nat) /\
    ((n mod b = 0)%nat -> Permutation (concat idx) (seq 0 n)).
Proof. exact (bwor_spec permutation k X n b). Qed.
Print Assumptions without_replacement_batches.

(** in terms of the rows of one leaf: the batches and [n mod b] left-over rows
    are a rearrangement of the data *)
Theorem without_replacement_rows {A} (permutation : key -> nat -> list nat) k (X : ptree A) n b Y j l :
  permutes permutation -> all_rows n X -> (1 <= b)%nat ->
  batches_without_replacement permutation k X b = Ok Y ->
  nth_error X j = Some (Rows l) ->
  exists m rest, nth_error Y j = Some (Rows m) /\
    length m = (n / b)%nat /\ Forall (fun batch => length batch = b) m /\
    Permutation (concat m ++ rest) l /\ length rest = (n mod b)%nat.
Proof. exact (bwor_rows permutation k X n b Y j l). Qed.
Print Assumptions without_replacement_rows.

Theorem batches_reject_mismatch {A} permutation choice k (X : ptree A) l m b nb r :
  (forall p, In p X -> exists l, p = Rows l) -> In (Rows l) X -> In (Rows m) X ->
  length l <> length m ->
  batches_without_replacement permutation k X b = Err AssertionError /\
  batches_with_replacement choice k X nb b r = Err AssertionError.
Proof. exact (batches_mismatch permutation choice k X l m b nb r). Qed.
Print Assumptions batches_reject_mismatch.

Theorem without_replacement_zero_batch {A} permutation k (X : ptree A) n :
  X <> [] -> all_rows n X ->
  batches_without_replacement permutation k X 0 = Err ZeroDivisionError.
Proof. exact (bwor_zero permutation k X n). Qed.
Print Assumptions without_replacement_zero_batch.

Example without_replacement_case :
  batches_without_replacement (fun _ n => rev (seq 0 n)) (KSeed 0)
    [Rows [10; 11; 12; 13; 14]%nat; Rows [20; 21; 22; 23; 24]%nat] 2
  = Ok [Rows [[14; 13]; [12; 11]]%nat; Rows [[24; 23]; [22; 21]]%nat].
Proof. reflexivity. Qed.
Example without_replacement_hyps :
  permutes (fun _ n => rev (seq 0 n)) /\ all_rows 2 [Rows [7; 8]%nat; Rows [9; 9]%nat].
Proof.
  split; [exact seq_permutes|]. intros p [<-|[<-|[]]]; eexists; split; reflexivity.
Qed.
Example mismatch_case :
  batches_without_replacement (fun _ n => rev (seq 0 n)) (KSeed 0)
    [Rows [10; 11; 12]%nat; Rows [20; 21]%nat] 2 = Err AssertionError.
Proof. reflexivity. Qed.

(** ** C59 *)
Theorem with_replacement_batches {A} choice k (X : ptree A) n nb b r :
  chooses choice -> X <> [] -> all_rows n X -> (0 < n)%nat -> (r = true \/ (b <= n)%nat) ->
  exists idx Y, batches_with_replacement choice k X nb b r = Ok Y /\
    aligned idx X Y /\
    length idx = nb /\ Forall (fun is => length is = b) idx /\
    (forall i, In i (concat idx) -> (i < n)%nat) /\
    (r = false -> Forall (fun is => NoDup is) idx).
Proof. exact (bwr_spec choice k X n nb b r). Qed.
Print Assumptions with_replacement_batches.

(** too large batches without replacement, or no data, raise ValueError *)
Theorem with_replacement_rejects {A} choice k (X : ptree A) n nb b :
  X <> [] -> all_rows n X -> (n < b)%nat ->
  batches_with_replacement choice k X nb b false = Err ValueError.
Proof. exact (bwr_rejects choice k X n nb b). Qed.
Print Assumptions with_replacement_rejects.

Theorem with_replacement_rejects_empty {A} choice k (X : ptree A) nb b r :
  X <> [] -> all_rows 0 X -> (0 < b)%nat ->
  batches_with_replacement choice k X nb b r = Err ValueError.
Proof. exact (bwr_rejects_empty choice k X nb b r). Qed.
Print Assumptions with_replacement_rejects_empty.

Example with_replacement_case :
  batches_with_replacement (fun k N n b => match k with KChild _ _ i => seq i n | _ => seq 0 n end)
    (KSeed 0) [Rows [10; 11; 12; 13]%nat; Rows [20; 21; 22; 23]%nat] 2 3 false
  = Ok [Rows [[10; 11; 12]; [11; 12; 13]]%nat; Rows [[20; 21; 22]; [21; 22; 23]]%nat].
Proof. reflexivity. Qed.
Example with_replacement_hyps : exists choice, chooses choice.
Proof. eexists. exact firstn_chooses. Qed.

(** ** C60 *)
Theorem iterator_yields_batches {A} (batch_fn : key -> res (ptree A)) add_rng epochs k :
  (forall k, exists b m, batch_fn k = Ok b /\ b <> [] /\ all_rows m b) ->
  exists es : list (list (option key * list A)),
    let r := make_iterator k epochs batch_fn add_rng in
    snd r = None /\ items (fst r) = concat es /\ length es = epochs /\
    length (sample_keys (fst r)) = epochs /\
    Forall2 (epoch_items batch_fn add_rng) (sample_keys (fst r)) es.
Proof. intros H. exact (iter_items batch_fn add_rng epochs H k). Qed.
Print Assumptions iterator_yields_batches.

Theorem iterator_count {A} (batch_fn : key -> res (ptree A)) add_rng epochs m k :
  (forall k, exists b, batch_fn k = Ok b /\ b <> [] /\ all_rows m b) ->
  length (items (fst (make_iterator k epochs batch_fn add_rng))) = (epochs * m)%nat.
Proof. exact (iter_count batch_fn add_rng epochs m k). Qed.
Print Assumptions iterator_count.

(** whatever batch_fn does (also if it raises), every key is used once *)
Theorem iterator_keys_used_once {A} (batch_fn : key -> res (ptree A)) add_rng epochs k :
  NoDup (map path (consumed (fst (make_iterator k epochs batch_fn add_rng)))) /\
  (forall k', In k' (consumed (fst (make_iterator k epochs batch_fn add_rng))) -> derived k k').
Proof. exact (iter_keys_spec batch_fn add_rng epochs k). Qed.
Print Assumptions iterator_keys_used_once.

Theorem iterator_propagates_errors {A} (batch_fn : key -> res (ptree A)) add_rng epochs k e :
  batch_fn (KChild k 3 1) = Err e ->
  make_iterator k (S epochs) batch_fn add_rng = ([ESplit k; EBatchFn (KChild k 3 1)], Some e).
Proof. exact (iter_raises batch_fn add_rng epochs k e). Qed.
Print Assumptions iterator_propagates_errors.

Example iterator_case :
  items (fst (make_iterator (KSeed 3) 2 (fun k => Ok [Rows [path k; []]; Rows [[5]; [6]]%nat]) true))
  = [(Some (KChild (KChild (KSeed 3) 3 2) 2 1), [[1]; [5]]%nat);
     (Some (KChild (KChild (KChild (KSeed 3) 3 2) 2 0) 2 1), [[]; [6]]%nat);
     (Some (KChild (KChild (KChild (KSeed 3) 3 0) 3 2) 2 1), [[0; 1]; [5]]%nat);
     (Some (KChild (KChild (KChild (KChild (KSeed 3) 3 0) 3 2) 2 0) 2 1), [[]; [6]]%nat)].
Proof. reflexivity. Qed.
