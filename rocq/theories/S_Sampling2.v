(** Specification vocabulary for rejection sampling with any proposal distribution. *)
From Coquelicot Require Import Coquelicot.
From Verif Require Import Base M_Key M_XR M_Sampling S_Opt S_Sampling.

(** A distribution of proposals given by the mean values of functions. *)
Record proposal (A : Type) := mkProposal {
  support : A -> Prop; integrable : (A -> R) -> Prop; mean : (A -> R) -> R }.
Arguments support {A}. Arguments integrable {A}. Arguments mean {A}. Arguments mkProposal {A}.

Record mean_laws {A} (P : proposal A) : Prop := {
  mean_const : forall c, integrable P (fun _ => c) /\ mean P (fun _ => c) = c;
  mean_linear : forall f g a b, integrable P f -> integrable P g ->
    integrable P (fun x => a * f x + b * g x) /\ mean P (fun x => a * f x + b * g x) = a * mean P f + b * mean P g;
  mean_support : forall f g, (forall x, support P x -> f x = g x) -> integrable P f -> integrable P g /\ mean P g = mean P f;
  mean_pos : forall f, integrable P f -> (forall x, support P x -> 0 <= f x) -> 0 <= mean P f }.

(** Uniform on a finite list, uniform on an interval. *)
Definition uniform_list {A} (V : list A) : proposal A :=
  mkProposal (fun x => In x V) (fun _ => True) (fun f => / INR (length V) * sumR (map f V)).
Definition uniform_interval (a b : R) : proposal R :=
  mkProposal (fun x => a < x < b) (fun f => ex_RInt f a b) (fun f => RInt f a b / (b - a)).

(** Expectation over independent rounds, each a proposal and a number uniform on [0, 1]. *)
Fixpoint expectation {A} (P : proposal A) (rounds : nat) (F : list (A * R) -> R) : R :=
  match rounds with
  | O => F []
  | S r => mean P (fun x => RInt (fun u => expectation P r (fun l => F ((x, u) :: l))) 0 1)
  end.

(** draw_sample with the rounds of the list l and the given fuel *)
Definition draw_with {A} (d : A) (pdf : A -> R) (m : R) (l : list (A * R)) (fuel : nat) : option A :=
  draw_sample (sample_from d l) (uniform_from d l) (fun x => Fin (pdf x)) m fuel (KSeed 0).

(** The probability that draw_sample returns an element of B within r rounds. *)
Definition prob_in {A} (P : proposal A) (d : A) (pdf : A -> R) (m : R) (r : nat) (B : A -> bool) : R :=
  expectation P r (fun l => match draw_with d pdf m l r with Some x => if B x then 1 else 0 | None => 0 end).

(** The number of rounds draw_sample uses, at most r: those j for which j rounds are not enough. *)
Definition rounds_used {A} (d : A) (pdf : A -> R) (m : R) (l : list (A * R)) (r : nat) : nat :=
  length (filter (fun j => match draw_with d pdf m l j with None => true | Some _ => false end) (seq 0 r)).
Definition mean_rounds {A} (P : proposal A) (d : A) (pdf : A -> R) (m : R) (r : nat) : R :=
  expectation P r (fun l => INR (rounds_used d pdf m l r)).
