(** Specification vocabulary for batching and iterating. *)
From Verif Require Import Base M_Key M_Opt.
From Coq Require Import Permutation.

(** Position of a key in the splitting tree of its seed.  Two keys with
    different paths are different derivations even if [split(k, 2)[i]] and
    [split(k, 3)[i]] coincide (as they do with partitionable threefry). *)
Fixpoint path (k : key) : list nat :=
  match k with KSeed _ => [] | KChild k _ i => path k ++ [i] end.

Fixpoint seed (k : key) : nat :=
  match k with KSeed s => s | KChild k _ _ => seed k end.

(** [k'] is a proper or improper derivation of [k]. *)
Definition derived (k k' : key) : Prop :=
  seed k' = seed k /\ exists p, path k' = path k ++ p.

(** The contract of jax.random.permutation. *)
Definition permutes (permutation : key -> nat -> list nat) : Prop :=
  forall k n, Permutation (permutation k n) (seq 0 n).

(** The contract of the sampler inside jax.random.choice. *)
Definition chooses (choice : key -> nat -> nat -> bool -> list nat) : Prop :=
  forall k N n b, (0 < N)%nat ->
    length (choice k N n b) = n /\
    (forall i, In i (choice k N n b) -> (i < N)%nat) /\
    (b = false -> (n <= N)%nat -> NoDup (choice k N n b)).

(** All leaves are arrays with [n] rows. *)
Definition all_rows {A} (n : nat) (X : ptree A) : Prop :=
  forall p, In p X -> exists l, p = Rows l /\ length l = n.

(** [Y] is [X] with the rows rearranged according to the index table [idx], the
    same table for all leaves. *)
Definition aligned {A} (idx : list (list nat)) (X : ptree A) (Y : ptree (list A)) : Prop :=
  Forall2 (fun p q => exists l, p = Rows l /\ exists m, q = Rows m /\
             Forall2 (fun is row => Forall2 (fun i a => nth_error l i = Some a) is row) idx m)
          X Y.

(** The items a generator delivered. *)
Fixpoint items {B} (l : list (event B)) : list (option key * B) :=
  match l with
  | [] => []
  | EYield r b :: l' => (r, b) :: items l'
  | _ :: l' => items l'
  end.

(** The keys consumed: split, given to batch_fn or handed out. *)
Definition consumed {B} (l : list (event B)) : list key :=
  flat_map (fun e => match e with
                     | ESplit k | EBatchFn k | EYield (Some k) _ => [k]
                     | EYield None _ => []
                     end) l.

(** The keys passed to batch_fn. *)
Definition sample_keys {B} (l : list (event B)) : list key :=
  flat_map (fun e => match e with EBatchFn k => [k] | _ => [] end) l.

(** [batch_fn] result [b] has [n] batches; its [i]-th batch. *)
Definition nth_batch {A} (b : ptree A) (i : nat) (row : list A) : Prop :=
  Forall2 (fun p a => exists l, p = Rows l /\ nth_error l i = Some a) b row.

(** one epoch of the specification: the batches of [bf] at the given key, in order *)
Definition epoch_items {A} (bf : key -> res (ptree A)) (rng : bool) (k : key)
  (its : list (option key * list A)) : Prop :=
  exists b n, bf k = Ok b /\ b <> [] /\ all_rows n b /\
    Forall2 (fun i it => nth_batch b i (snd it) /\ (if rng then fst it <> None else fst it = None))
            (seq 0 n) its.
