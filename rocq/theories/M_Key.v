(** Random keys as free terms: [KSeed s] is [random.PRNGKey(s)] and
    [KChild k n i] is [random.split(k, n)[i]]. *)
From Verif Require Import Base.

Inductive key := KSeed (s : nat) | KChild (k : key) (n i : nat).

(** random.split(k, n) *)
Definition ksplit (k : key) (n : nat) : list key := map (KChild k n) (seq 0 n).
