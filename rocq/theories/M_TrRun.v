(** Model of TR(...).run, the loop that the class TR of magpi/tr.py inherits from
    jaxopt's IterativeSolver (definitions only). *)
From Verif Require Import Base M_Tree M_XR M_Tr.

(** jaxopt's loop: after the first update, update while [state.error > tol], at most m
    times (a nan error ends the loop). *)
Fixpoint run_loop {A} (c : tr_cfg) (f : objective A) (m : nat) (r : xtree * tr_state A) : res (xtree * tr_state A) :=
  match m with
  | O => Ok r
  | S m' => if xgtb (error (snd r)) (Fin (tol c))
            then r' <- update c f (fst r) (snd r) ;; run_loop c f m' r'
            else Ok r
  end.
(** tr.py:30-75 and IterativeSolver.run(init_params): init_state (tr.py:77-109), one
    update whatever the error is, then the loop with maxiter - 1; the result for
    maxiter = 0 is the initial state. *)
Definition run {A} (c : tr_cfg) (f : objective A) (maxiter : nat) (x : xtree) (prev : option (tr_state A))
  : res (xtree * tr_state A) :=
  let s := init_state c f x prev in
  match maxiter with
  | O => Ok (x, s)
  | S m => r <- update c f x s ;; run_loop c f m r
  end.
