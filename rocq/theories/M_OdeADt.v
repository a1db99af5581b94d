(** Reverse-mode derivatives (jax.vjp) of magpi/ode.py with respect to the initial value and the
    times (definitions only).  [vjpt y t c] is the cotangent of the dynamics with respect to t. *)
From Verif Require Import Base M_Tree M_Ode M_OdeAD.

Definition tdynamics := tree -> R -> tree -> res R.
(** cotangents of y, t and dt *)
Definition tstepper := dynamics -> rdynamics -> tdynamics -> tree -> R -> R -> tree -> res (tree * R * R).
(** cotangent of a factor: the sum over all entries (M_Tree.tree_scalar_mul) *)
Definition tsum (a b : tree) : R := sumR (map2 (fun l m => sumR (map2 Rmult l m)) a b).

(** ode.py:11-17 rk4 *)
Definition trk4 : tstepper := fun df vjp vjpt y t dt c =>
  k1 <- df y t ;;
  a1 <- tree_add y (tree_scalar_mul (1 / 2) (tree_scalar_mul dt k1)) ;;
  k2 <- df a1 (t + dt / 2) ;;
  a2 <- tree_add y (tree_scalar_mul (1 / 2) (tree_scalar_mul dt k2)) ;;
  k3 <- df a2 (t + dt / 2) ;;
  a3 <- tree_add y (tree_scalar_mul dt k3) ;;
  k4 <- df a3 (t + dt) ;;
  let c4 := tree_scalar_mul (1 / 6) c in
  b3 <- vjp a3 (t + dt) (tree_scalar_mul dt c4) ;;
  u3 <- vjpt a3 (t + dt) (tree_scalar_mul dt c4) ;;
  c3 <- tree_add (tree_scalar_mul 2 (tree_scalar_mul (1 / 6) c)) b3 ;;
  b2 <- vjp a2 (t + dt / 2) (tree_scalar_mul dt c3) ;;
  u2 <- vjpt a2 (t + dt / 2) (tree_scalar_mul dt c3) ;;
  c2 <- tree_add (tree_scalar_mul 2 (tree_scalar_mul (1 / 6) c)) (tree_scalar_mul (1 / 2) b2) ;;
  b1 <- vjp a1 (t + dt / 2) (tree_scalar_mul dt c2) ;;
  u1 <- vjpt a1 (t + dt / 2) (tree_scalar_mul dt c2) ;;
  c1 <- tree_add (tree_scalar_mul (1 / 6) c) (tree_scalar_mul (1 / 2) b1) ;;
  b0 <- vjp y t (tree_scalar_mul dt c1) ;;
  u0 <- vjpt y t (tree_scalar_mul dt c1) ;;
  r <- tree_add c b3 ;; r <- tree_add r b2 ;; r <- tree_add r b1 ;; r <- tree_add r b0 ;;
  Ok (r, u3 + u2 + u1 + u0,
      tsum c4 k4 + tsum c3 k3 + tsum c2 k2 + tsum c1 k1 + u3 + u2 / 2 + u1 / 2).

(** ode.py:20-23 explicit_euler *)
Definition teuler : tstepper := fun df vjp vjpt y t dt c =>
  k <- df y t ;;
  b <- vjp y t (tree_scalar_mul dt c) ;;
  u <- vjpt y t (tree_scalar_mul dt c) ;;
  r <- tree_add c b ;; Ok (r, u, tsum c k).

(** ode.py:52-60 the reversed scan: cotangents of the carried state and time, and of [ts] *)
Fixpoint tscan_steps (df : dynamics) (vjp : rdynamics) (vjpt : tdynamics) (method : stepper)
    (tmethod : tstepper) (y : tree) (t_prev : R) (ts : list R) (cs : list tree) : res (tree * R * list R) :=
  match ts, cs with
  | [], [] => Ok (tree_scalar_mul 0 y, 0, [])
  | t :: rest, c :: cs' =>
      let dt := t - t_prev in
      y' <- method df y t dt ;;
      z <- tscan_steps df vjp vjpt method tmethod y' t rest cs' ;;
      let '(l, lt, ls) := z in
      c' <- tree_add c l ;;
      w <- tmethod df vjp vjpt y t dt c' ;;
      let '(b, ut, ud) := w in
      Ok (b, - ud, (ut + ud + lt) :: ls)
  | _, _ => Err ValueError
  end.
(** ode.py:60-61 *)
Definition odeint_vjp_times (df : dynamics) (vjp : rdynamics) (vjpt : tdynamics) (method : stepper)
    (tmethod : tstepper) (y : tree) (ts : list R) (cs : list tree) : res (tree * list R) :=
  match ts, cs with
  | t0 :: rest, c :: cs' =>
      z <- tscan_steps df vjp vjpt method tmethod y t0 rest cs' ;;
      let '(l, lt, ls) := z in
      b <- tree_add c l ;; Ok (b, lt :: ls)
  | [], _ => Err IndexError
  | _, [] => Err ValueError
  end.
