(** Model of /repo/magpi/opt.py: batching and the batch iterator. *)
From Verif Require Import Base M_Key.

(** A leaf of a pytree of arrays: either a 0-d array or an array seen as the
    list of its rows along axis 0.  Only [axis = 0] is used by the modelled
    callers. *)
Inductive leaf (A : Type) := Scalar (a : A) | Rows (l : list A).
Arguments Scalar {A} a.
Arguments Rows {A} l.

(** A pytree is the list of its leaves in tree order. *)
Definition ptree (A : Type) := list (leaf A).

(** [p.shape[0]], opt.py:24 and :33; IndexError for shape (). *)
Definition shape0 {A} (p : leaf A) : res nat :=
  match p with Scalar _ => Err IndexError | Rows l => Ok (length l) end.

(** [l[0]] of a Python list, opt.py:26 and :35. *)
Definition first_of {A} (l : list A) : res A :=
  match l with [] => Err IndexError | a :: _ => Ok a end.

(** opt.py:23-27 check_axis_size *)
Definition check_axis_size {A} (t : ptree A) : res bool :=
  ss <- sequence (map shape0 t) ;;
  s <- first_of ss ;;
  Ok (forallb (fun s' => Nat.eqb s' s) ss).

(** opt.py:30-35 axis_size *)
Definition axis_size {A} (t : ptree A) : res nat :=
  b <- check_axis_size t ;;
  _ <- assert_ b ;;
  ss <- sequence (map shape0 t) ;;
  first_of ss.

(** [x[i]] for an integer array index in jax: indices past the end are clamped
    to the last row. *)
Definition gather {A} (x : list A) (i : nat) : res A :=
  match nth_error x (Nat.min i (length x - 1)) with
  | Some a => Ok a
  | None => Err IndexError
  end.

(** [x[perms]] for a 2-d integer array [perms], opt.py:46 and :63. *)
Definition gather2 {A} (perms : list (list nat)) (x : leaf A) : res (leaf (list A)) :=
  match x with
  | Scalar _ => Err IndexError
  | Rows l => r <- sequence (map (fun p => sequence (map (gather l) p)) perms) ;; Ok (Rows r)
  end.

(** [l.reshape((m, k))] of a 1-d array, opt.py:45; TypeError if sizes differ. *)
Fixpoint chunks {A} (m k : nat) (l : list A) : list (list A) :=
  match m with
  | O => []
  | S m' => firstn k l :: chunks m' k (skipn k l)
  end.
Definition reshape2 {A} (m k : nat) (l : list A) : res (list (list A)) :=
  if Nat.eqb (length l) (m * k) then Ok (chunks m k l) else Err TypeError.

(** Python [a // b] of non-negative integers. *)
Definition pyfloordiv (a b : nat) : res nat :=
  if Nat.eqb b 0 then Err ZeroDivisionError else Ok (a / b)%nat.

(** opt.py:38-46 batches_without_replacement.  [permutation key N] is
    [jax.random.permutation(key, N)]; batch sizes are non-negative. *)
Definition batches_without_replacement {A} (permutation : key -> nat -> list nat)
  (k : key) (X : ptree A) (batch_size : nat) : res (ptree (list A)) :=
  N <- axis_size X ;;
  batches <- pyfloordiv N batch_size ;;
  let perms := permutation k N in
  let perms := firstn (batches * batch_size) perms in
  perms <- reshape2 batches batch_size perms ;;
  sequence (map (gather2 perms) X).

(** [random.choice(key, N, (n,), replace)]: the argument checks of jax around
    the sampler [choice]. *)
Definition random_choice (choice : key -> nat -> nat -> bool -> list nat)
  (k : key) (N n : nat) (replace : bool) : res (list nat) :=
  if Nat.eqb n 0 then Ok []
  else if Nat.eqb N 0 then Err ValueError
  else if andb (negb replace) (Nat.ltb N n) then Err ValueError
  else Ok (choice k N n replace).

(** opt.py:49-63 batches_with_replacement.  The checks of [random.choice] run
    once at trace time, so they also fire for [batches = 0]; for [batches > 0]
    this is what [sequence] gives. *)
Definition batches_with_replacement {A} (choice : key -> nat -> nat -> bool -> list nat)
  (k : key) (X : ptree A) (batches batch_size : nat) (replace_within_batch : bool)
  : res (ptree (list A)) :=
  N <- axis_size X ;;
  let choose_batch k := random_choice choice k N batch_size replace_within_batch in
  let keys := ksplit k batches in
  _ <- choose_batch k ;;
  perms <- sequence (map choose_batch keys) ;;
  sequence (map (gather2 perms) X).

(** What the generator [make_iterator] does, in order. *)
Inductive event (B : Type) :=
| ESplit (k : key)                       (* random.split(k, ..) *)
| EBatchFn (k : key)                     (* batch_fn(k) *)
| EYield (rng : option key) (batch : B). (* yield batch, or yield rng, batch *)
Arguments ESplit {B} k.
Arguments EBatchFn {B} k.
Arguments EYield {B} rng batch.

(** A run of a generator: the events and, if it raised, the exception. *)
Definition run B : Type := (list (event B) * option exn)%type.

(** [tree_map(lambda b: b[i], batches)], opt.py:74 *)
Definition tree_row {A} (i : nat) (t : ptree A) : res (list A) :=
  sequence (map (fun b => match b with Scalar _ => Err IndexError | Rows l => gather l i end) t).

(** opt.py:73-79, the inner loop over [is = range(num_batches)] *)
Fixpoint yield_batches {A} (add_rng : bool) (batches : ptree A) (batch_key : key)
  (is : list nat) : run (list A) :=
  match is with
  | [] => ([], None)
  | i :: is' =>
      match tree_row i batches with
      | Err e => ([], Some e)
      | Ok batch =>
          if add_rng then
            let batch_key' := KChild batch_key 2 0 in
            let subkey := KChild batch_key 2 1 in
            let '(ev, e) := yield_batches add_rng batches batch_key' is' in
            (ESplit batch_key :: EYield (Some subkey) batch :: ev, e)
          else
            let '(ev, e) := yield_batches add_rng batches batch_key is' in
            (EYield None batch :: ev, e)
      end
  end.

(** opt.py:66-79 make_iterator, all items drawn from the generator *)
Fixpoint make_iterator {A} (k : key) (epochs : nat) (batch_fn : key -> res (ptree A))
  (add_rng : bool) : run (list A) :=
  match epochs with
  | O => ([], None)
  | S epochs' =>
      let key' := KChild k 3 0 in
      let sample_key := KChild k 3 1 in
      let batch_key := KChild k 3 2 in
      match batches <- batch_fn sample_key ;; n <- axis_size batches ;; Ok (batches, n) with
      | Err e => ([ESplit k; EBatchFn sample_key], Some e)
      | Ok (batches, num_batches) =>
          let '(ev, e) := yield_batches add_rng batches batch_key (seq 0 num_batches) in
          match e with
          | Some _ => (ESplit k :: EBatchFn sample_key :: ev, e)
          | None =>
              let '(ev', e') := make_iterator key' epochs' batch_fn add_rng in
              (ESplit k :: EBatchFn sample_key :: ev ++ ev', e')
          end
      end
  end.
