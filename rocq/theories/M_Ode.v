(** Model of magpi/ode.py (definitions only).  States are pytrees; extra arguments
    [*args] of the dynamics are part of df.  jax.checkpoint is the identity and unroll
    does not change the result of a scan. *)
From Verif Require Import Base M_Tree.

Definition dynamics := tree -> R -> res tree.
Definition stepper := dynamics -> tree -> R -> R -> res tree.

(** ode.py:11-17 rk4 *)
Definition rk4 : stepper := fun df y t dt =>
  k1 <- df y t ;;
  let y1 := tree_scalar_mul dt k1 in
  a1 <- tree_add y (tree_scalar_mul (1 / 2) y1) ;;
  k2 <- df a1 (t + dt / 2) ;;
  let y2 := tree_scalar_mul dt k2 in
  a2 <- tree_add y (tree_scalar_mul (1 / 2) y2) ;;
  k3 <- df a2 (t + dt / 2) ;;
  let y3 := tree_scalar_mul dt k3 in
  a3 <- tree_add y y3 ;;
  k4 <- df a3 (t + dt) ;;
  let y4 := tree_scalar_mul dt k4 in
  s <- tree_add y1 (tree_scalar_mul 2 y2) ;;
  s <- tree_add s (tree_scalar_mul 2 y3) ;;
  s <- tree_add s y4 ;;
  tree_add y (tree_scalar_mul (1 / 6) s).

(** ode.py:20-23 explicit_euler *)
Definition explicit_euler : stepper := fun df y t dt =>
  dy <- df y t ;;
  tree_add y (tree_scalar_mul dt dy).

(** ode.py:52-60 the scan over ts[1:]; lax.scan rejects a step that changes the
    structure of the state (TypeError).  The step is called with the new time t. *)
Fixpoint scan_steps (df : dynamics) (method : stepper) (y : tree) (t_prev : R) (ts : list R) : res (list tree) :=
  match ts with
  | [] => Ok []
  | t :: rest =>
      let dt := t - t_prev in
      y' <- method df y t dt ;;
      if shape_eqb y' y then
        ys <- scan_steps df method y' t rest ;; Ok (y' :: ys)
      else Err TypeError
  end.

(** ode.py:26-61 odeint, _odeint: the stacked result as the list of states *)
Definition odeint (df : dynamics) (y : tree) (ts : list R) (method : stepper) : res (list tree) :=
  match ts with
  | [] => Err IndexError
  | t0 :: rest => ys <- scan_steps df method y t0 rest ;; Ok (y :: ys)
  end.
