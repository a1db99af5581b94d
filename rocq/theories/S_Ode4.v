(** Specification vocabulary for the order of rk4 on autonomous systems. *)
From Coquelicot Require Import Coquelicot.
From Verif Require Import Base M_Tree M_Ode S_Integrate S_Ode S_OdeErr.

(** Positions of the entries of a state of shape sh; positions outside have entry 0. *)
Definition pos := (nat * nat)%type.
Definition positions (sh : list nat) : list pos :=
  flat_map (fun i => map (pair i) (seq 0 (nth i sh 0%nat))) (seq 0 (length sh)).
Definition at_pos (y : tree) (p : pos) : R := entry y (fst p) (snd p).
Definition over (sh : list nat) (g : pos -> R) : R := sumR (map g (positions sh)).

(** dg p is the partial derivative of g with respect to entry p: the chain rule holds along
    every differentiable curve. *)
Definition has_gradient (sh : list nat) (g : tree -> R) (dg : pos -> tree -> R) : Prop :=
  forall (c : R -> tree) (v : pos -> R) t, (forall s, shape (c s) = sh) ->
    (forall p, is_derive (fun s => at_pos (c s) p) t (v p)) ->
    is_derive (fun s => g (c s)) t (over sh (fun p => dg p (c t) * v p)).

(** df does not depend on time and has the component functions f. *)
Definition components (sh : list nat) (df : dynamics) (f : pos -> tree -> R) : Prop :=
  forall y t, shape y = sh -> exists k, df y t = Ok k /\ shape k = sh /\ forall p, at_pos k p = f p y.

(** f has partial derivatives up to the fourth order, bounded by M; the second ones commute. *)
Definition four_derivatives (sh : list nat) (f : pos -> tree -> R) (M : R) : Prop :=
  exists (d1 : pos -> pos -> tree -> R) (d2 : pos -> pos -> pos -> tree -> R)
         (d3 : pos -> pos -> pos -> pos -> tree -> R) (d4 : pos -> pos -> pos -> pos -> pos -> tree -> R),
  (forall p, has_gradient sh (f p) (d1 p)) /\
  (forall p q, has_gradient sh (d1 p q) (d2 p q)) /\
  (forall p q r, has_gradient sh (d2 p q r) (d3 p q r)) /\
  (forall p q r l, has_gradient sh (d3 p q r l) (d4 p q r l)) /\
  (forall p q r y, shape y = sh -> d2 p q r y = d2 p r q y) /\
  (forall p q r l m y, shape y = sh -> Rabs (d1 p q y) <= M /\ Rabs (d2 p q r y) <= M /\ Rabs (d3 p q r l y) <= M /\ Rabs (d4 p q r l m y) <= M).
