(** Reverse-mode derivatives (jax.vjp) of magpi/ode.py with respect to the initial value and the
    additional arguments [*args] (definitions only).  [vjpp y t c] is the cotangent of the dynamics
    with respect to the arguments, which are one tree. *)
From Verif Require Import Base M_Tree M_Ode M_OdeAD.

(** cotangents of y and of the arguments *)
Definition pstepper := dynamics -> rdynamics -> rdynamics -> tree -> R -> R -> tree -> res (tree * tree).

(** ode.py:11-17 rk4 *)
Definition prk4 : pstepper := fun df vjp vjpp y t dt c =>
  k1 <- df y t ;;
  a1 <- tree_add y (tree_scalar_mul (1 / 2) (tree_scalar_mul dt k1)) ;;
  k2 <- df a1 (t + dt / 2) ;;
  a2 <- tree_add y (tree_scalar_mul (1 / 2) (tree_scalar_mul dt k2)) ;;
  k3 <- df a2 (t + dt / 2) ;;
  a3 <- tree_add y (tree_scalar_mul dt k3) ;;
  let c4 := tree_scalar_mul (1 / 6) c in
  b3 <- vjp a3 (t + dt) (tree_scalar_mul dt c4) ;;
  w3 <- vjpp a3 (t + dt) (tree_scalar_mul dt c4) ;;
  c3 <- tree_add (tree_scalar_mul 2 (tree_scalar_mul (1 / 6) c)) b3 ;;
  b2 <- vjp a2 (t + dt / 2) (tree_scalar_mul dt c3) ;;
  w2 <- vjpp a2 (t + dt / 2) (tree_scalar_mul dt c3) ;;
  c2 <- tree_add (tree_scalar_mul 2 (tree_scalar_mul (1 / 6) c)) (tree_scalar_mul (1 / 2) b2) ;;
  b1 <- vjp a1 (t + dt / 2) (tree_scalar_mul dt c2) ;;
  w1 <- vjpp a1 (t + dt / 2) (tree_scalar_mul dt c2) ;;
  c1 <- tree_add (tree_scalar_mul (1 / 6) c) (tree_scalar_mul (1 / 2) b1) ;;
  b0 <- vjp y t (tree_scalar_mul dt c1) ;;
  w0 <- vjpp y t (tree_scalar_mul dt c1) ;;
  r <- tree_add c b3 ;; r <- tree_add r b2 ;; r <- tree_add r b1 ;; r <- tree_add r b0 ;;
  w <- tree_add w3 w2 ;; w <- tree_add w w1 ;; w <- tree_add w w0 ;;
  Ok (r, w).

(** ode.py:20-23 explicit_euler *)
Definition peuler : pstepper := fun df vjp vjpp y t dt c =>
  b <- vjp y t (tree_scalar_mul dt c) ;;
  w <- vjpp y t (tree_scalar_mul dt c) ;;
  r <- tree_add c b ;; Ok (r, w).

(** ode.py:52-60 the reversed scan: cotangents of the carried state and of the arguments *)
Fixpoint pscan_steps (df : dynamics) (vjp vjpp : rdynamics) (method : stepper) (pmethod : pstepper)
    (args y : tree) (t_prev : R) (ts : list R) (cs : list tree) : res (tree * tree) :=
  match ts, cs with
  | [], [] => Ok (tree_scalar_mul 0 y, tree_scalar_mul 0 args)
  | t :: rest, c :: cs' =>
      let dt := t - t_prev in
      y' <- method df y t dt ;;
      z <- pscan_steps df vjp vjpp method pmethod args y' t rest cs' ;;
      c' <- tree_add c (fst z) ;;
      bw <- pmethod df vjp vjpp y t dt c' ;;
      w <- tree_add (snd z) (snd bw) ;;
      Ok (fst bw, w)
  | _, _ => Err ValueError
  end.
(** ode.py:60-61 *)
Definition odeint_vjp_args (df : dynamics) (vjp vjpp : rdynamics) (method : stepper) (pmethod : pstepper)
    (args y : tree) (ts : list R) (cs : list tree) : res (tree * tree) :=
  match ts, cs with
  | t0 :: rest, c :: cs' =>
      z <- pscan_steps df vjp vjpp method pmethod args y t0 rest cs' ;;
      b <- tree_add c (fst z) ;; Ok (b, snd z)
  | [], _ => Err IndexError
  | _, [] => Err ValueError
  end.
