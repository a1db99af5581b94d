(** Specification vocabulary for tr.py. *)
From Verif Require Import Base M_Tree M_XR M_Tr.

(** A pytree of finite numbers, as a pytree of floats. *)
Definition fin (t : tree) : xtree := map (map Fin) t.

(** Euclidean inner product and norm of pytrees: all leaves raveled into one vector. *)
Definition tdot (s t : tree) : R := dotR (concat s) (concat t).
Definition tnorm (t : tree) : R := sqrt (tdot t t).

(** x + a * y entry by entry (trees of the same shape). *)
Definition taxpy (x : tree) (a : R) (y : tree) : tree := map2 (map2 (fun u v => u + a * v)) x y.

(** A Hessian-vector callback that returns finite trees of the right shape. *)
Definition finite_op (H : xtree -> xtree) (sh : list nat) : Prop :=
  forall d, shape d = sh -> exists h, H (fin d) = fin h /\ shape h = sh.

(** H computes the real operator h on trees of shape sh, h is linear and symmetric. *)
Definition computes (H : xtree -> xtree) (h : tree -> tree) (sh : list nat) : Prop :=
  forall d, shape d = sh -> H (fin d) = fin (h d) /\ shape (h d) = sh.
Definition linear_op (h : tree -> tree) (sh : list nat) : Prop :=
  forall u v a, shape u = sh -> shape v = sh -> h (taxpy u a v) = taxpy (h u) a (h v).
Definition symmetric_op (h : tree -> tree) (sh : list nat) : Prop :=
  forall u v, shape u = sh -> shape v = sh -> tdot (h u) v = tdot u (h v).

(** The quadratic model of the objective change at step p. *)
Definition quad_model (g : tree) (h : tree -> tree) (p : tree) : R := tdot g p + tdot p (h p) / 2.

(** Running the solver: n updates, each fed with the previous result. *)
Fixpoint tr_run {A} (c : tr_cfg) (f : objective A) (n : nat) (s : xtree * tr_state A) : res (xtree * tr_state A) :=
  match n with
  | O => Ok s
  | S m => match update c f (fst s) (snd s) with Ok s' => tr_run c f m s' | Err e => Err e end
  end.

(** The state reports value, aux, gradient and gradient norm of the objective at the parameters. *)
Definition describes {A} (f : objective A) (params : xtree) (s : tr_state A) : Prop :=
  vg f params = (value s, aux s, grad s) /\ error s = xt_norm (grad s).

(** At the point x the objective has finite value v and gradient g, and the solver's
    Hessian-vector products are those of a symmetric linear operator h. *)
Definition regular_at {A} (c : tr_cfg) (f : objective A) (x : tree) (v : R) (g : tree) (h : tree -> tree) : Prop :=
  (exists a, vg f (fin x) = (Fin v, a, fin g)) /\ shape g = shape x /\
  computes (tr_hvp c f (fin x)) h (shape x) /\ linear_op h (shape x) /\ symmetric_op h (shape x).

(** Wherever the value is finite the objective is regular; the value is never -inf. *)
Definition regular_obj {A} (c : tr_cfg) (f : objective A) (sh : list nat) : Prop :=
  forall x, shape x = sh ->
    (forall v a g, vg f (fin x) = (Fin v, a, g) -> exists gr h, regular_at c f x v gr h) /\
    (forall a g, vg f (fin x) <> (NInf, a, g)).

(** The inner tolerance stored in a state is inf (after init_state) or a number. *)
Definition eps_ok {A} (s : tr_state A) : Prop := cg_eps (subproblem s) = PInf \/ exists e, cg_eps (subproblem s) = Fin e.

(** update changes something (the radius is above the minimum) and keeps the parameters. *)
Definition rejects {A} (c : tr_cfg) (f : objective A) (x : xtree) (s : tr_state A) (x' : xtree) (s' : tr_state A) : Prop :=
  update c f x s = Ok (x', s') /\ min_tr_radius c < tr_radius s /\ accepted s' = false /\ rho s' <> NaN.

(** The iteration limit of the inner loop: given, or 10 times the number of unknowns. *)
Definition iter_limit (g : tree) (mi : option nat) : nat := match mi with None => (10 * length (concat g))%nat | Some m => m end.

(** Sensible radius options. *)
Definition good_radii (c : tr_cfg) : Prop :=
  0 < min_tr_radius c /\ min_tr_radius c <= init_tr_radius c <= max_tr_radius c /\ 1 <= increase_factor c /\ 0 < decrease_factor c <= 1.

(** a run of n rejections *)
Inductive rejections {A} (c : tr_cfg) (f : objective A) (x : xtree) : nat -> tr_state A -> tr_state A -> Prop :=
| rej0 s : rejections c f x 0 s s
| rejS n s s1 s2 : rejections c f x n s s1 -> rejects c f x s1 x s2 -> rejections c f x (S n) s s2.

(** The trial point of the next update has an undefined (nan) objective value. *)
Definition nan_trial {A} (c : tr_cfg) (f : objective A) (x : xtree) (s : tr_state A) : Prop :=
  min_tr_radius c < tr_radius s /\
  let '(_, _, g) := vg f x in
  let sub := steihaug g (damped c (tr_hvp c f x)) (tr_radius s) (inner_eps c (cg_eps (subproblem s)) (xt_norm g)) (maxiter_steihaug c) in
  exists a' g', vg f (xt_add x (cg_p sub)) = (NaN, a', g').

(** A smooth problem on trees of shape sh: finite value F, gradient G, Hessian h whose
    quadratic form is bounded by B. *)
Definition smooth_problem {A} (c : tr_cfg) (f : objective A) (sh : list nat) (F : tree -> R) (G : tree -> tree) (h : tree -> tree -> tree) (B : R) : Prop :=
  forall x, shape x = sh -> regular_at c f x (F x) (G x) (h x) /\ forall p, shape p = sh -> Rabs (tdot p (h x p)) <= B * tdot p p.
Definition bounded_below (F : tree -> R) (sh : list nat) (L : R) : Prop := forall x, shape x = sh -> L <= F x.
(** The descent inequality of functions with an M-Lipschitz gradient. *)
Definition descent_bound (F : tree -> R) (G : tree -> tree) (sh : list nat) (M : R) : Prop :=
  forall x p, shape x = sh -> shape p = sh -> F (taxpy x 1 p) <= F x + tdot (G x) p + M / 2 * tdot p p.

(** Options under which the solver makes progress. *)
Definition progress_options (c : tr_cfg) : Prop :=
  0 < tol c /\ good_radii c /\ decrease_factor c < 1 /\ 0 < rho_accept c <= rho_decrease c /\
  (forall l, damping_factor c = Some l -> 0 <= l) /\ (forall m, maxiter_steihaug c = Some m -> (1 <= m)%nat) /\
  (approx_hvp c = true -> fd_h c <> 0).
Definition damping (c : tr_cfg) : R := match damping_factor c with None => 0 | Some l => l end.

(** Number of updates after which the solver has stopped, for an objective that is gap
    above its lower bound at the start: accepted steps times rejections between them. *)
Definition least_decrease (c : tr_cfg) (B : R) : R := Rmin (tol c * min_tr_radius c) (tol c * tol c / (B + damping c)) / 2.
Definition shrinks (c : tr_cfg) : R := ln (max_tr_radius c / min_tr_radius c) / ln (/ decrease_factor c).
Definition tr_budget (c : tr_cfg) (B gap : R) : R := gap / (rho_accept c * least_decrease c B) * (shrinks c + 1) + shrinks c.

(** The gradient norm reported by a state is below the tolerance. *)
Definition tr_converged {A} (c : tr_cfg) (s : tr_state A) : Prop := exists e, error s = Fin e /\ e < tol c.
