(** Specification vocabulary for the error of odeint. *)
From Coquelicot Require Import Coquelicot.
From Verif Require Import Base M_Tree M_Ode S_Integrate S_Ode.

(** Largest entry of the difference at most e. *)
Definition close (e : R) (y z : tree) : Prop := forall i j, Rabs (entry y i j - entry z i j) <= e.

(** On states of shape sh the right-hand side is defined and Lipschitz: constant L in the
    state, Lt in the time. *)
Definition lipschitz_ode (sh : list nat) (df : dynamics) (L Lt : R) : Prop :=
  (forall y s, shape y = sh -> exists k, df y s = Ok k /\ shape k = sh) /\
  (forall y z s t k m e, shape y = sh -> shape z = sh -> df y s = Ok k -> df z t = Ok m ->
     close e y z -> close (L * e + Lt * Rabs (s - t)) k m).

(** sol solves sol' = df(sol, t) on [t0, T] with slopes at most B. *)
Definition solves (sh : list nat) (df : dynamics) (sol : R -> tree) (t0 T B : R) : Prop :=
  forall t, t0 <= t <= T -> shape (sol t) = sh /\
    exists k, df (sol t) t = Ok k /\
      forall i j, is_derive (fun s => entry (sol s) i j) t (entry k i j) /\ Rabs (entry k i j) <= B.
