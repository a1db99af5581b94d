(** Specification vocabulary for rejection sampling. *)
From Verif Require Import Base M_Key M_XR M_Sampling S_Opt.
From Coquelicot Require Import Coquelicot.

(** the keys of lane [i], round [j]: [c = 1] for the proposal, [c = 2] for the
    uniform number *)
Definition round_key (k : key) (n i j : nat) : key :=
  Nat.iter j (fun k => KChild k 3 0) (KChild k n i).
Definition proposal_key k n i j := KChild (round_key k n i j) 3 1.
Definition uniform_key k n i j := KChild (round_key k n i j) 3 2.

(** Ideal randomness: [rounds] independent pairs of a proposal, uniform on the
    finite list [V], and a number uniform on [0, 1].  Expectation of [F]. *)
Fixpoint expect {A} (V : list A) (rounds : nat) (F : list (A * R) -> R) : R :=
  match rounds with
  | O => F []
  | S r => / INR (length V) *
           sumR (map (fun x => RInt (fun u => expect V r (fun l => F ((x, u) :: l))) 0 1) V)
  end.

(** Samplers that hand out a given sequence of rounds for the key [KSeed 0]: the
    depth of a key in the splitting tree is its round number plus one. *)
Definition round_of (k : key) : nat := length (path k) - 1.
Definition sample_from {A} (d : A) (l : list (A * R)) (k : key) : A := fst (nth (round_of k) l (d, 0)).
Definition uniform_from {A} (d : A) (l : list (A * R)) (k : key) : R := snd (nth (round_of k) l (d, 0)).

(** The probability that [draw_sample] returns [v] within [r] rounds. *)
Definition prob {A} (eq_dec : forall x y : A, {x = y} + {x <> y}) (d : A) (pdf : A -> R) (m : R)
  (V : list A) (r : nat) (v : A) : R :=
  expect V r (fun l =>
    match draw_sample (sample_from d l) (uniform_from d l) (fun x => Fin (pdf x)) m r (KSeed 0) with
    | Some x => if eq_dec x v then 1 else 0
    | None => 0
    end).
