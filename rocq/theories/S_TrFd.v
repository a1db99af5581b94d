(** Specification vocabulary for the trust region solver with difference quotients. *)
From Verif Require Import Base M_Tr S_Calc S_TrFun.
Open Scope R_scope.

(** the Hessian is Lipschitz continuous *)
Definition hessian_lipschitz (n : nat) (phi : list R -> R) (M : R) : Prop :=
  forall X Y V, length X = n -> length Y = n -> length V = n ->
    normR (map2 Rminus (hess_vec n phi Y V) (hess_vec n phi X V)) <= M * normR (map2 Rminus Y X) * normR V.
(** reduction of the objective that a quadratic model predicts for the step [P]: with the
    Hessian, and with difference quotients of the gradient *)
Definition exact_reduction (n : nat) (phi : list R -> R) (X P : list R) : R :=
  - (dotR (gradient n phi X) P + 1 / 2 * dotR P (hess_vec n phi X P)).
Definition fd_reduction (n : nat) (h : R) (phi : list R -> R) (X P : list R) : R :=
  - (dotR (gradient n phi X) P + 1 / 2 * dotR P (diff_vec n h phi X P)).
(** when a step from a point with value [old] to a point with value [new] is accepted, for a
    predicted reduction [pred]; the ratio of 0 and 0 is not a number *)
Definition accept_rule (rho pred old new : R) : Prop :=
  (0 < pred /\ new <= old - rho * pred) \/ (pred = 0 /\ new < old) \/ (pred < 0 /\ old - rho * pred <= new).
(** the subproblem solver uses one direction only, the negative gradient *)
Definition one_direction (c : tr_cfg) (n : nat) : Prop := (exists m, maxiter_steihaug c = Some m /\ (m <= 1)%nat) \/ n = 1%nat.
(** the difference quotients are accurate enough for steps of length up to [D] *)
Definition small_differences (c : tr_cfg) (M D : R) : Prop := M * Rabs (fd_h c) * D * (1 + D / tol c) < 2.
(** the default options with approx_hvp = True *)
Definition approx_tr : tr_cfg := mkTr 1 2 (1 / 10000) (3 / 4) 2 (1 / 4) (1 / 4) (1 / 4) (1 / 2) None (1 / 100) None true (1 / 10000).
