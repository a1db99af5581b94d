(** Forward-mode derivatives (jax.jvp) of magpi/ode.py (definitions only): states, times and
    step widths are pairs (value, tangent); the rules are those of add, sub and mul.  Additional
    arguments [*args] are part of the dynamics; jax.checkpoint does not change derivatives. *)
From Verif Require Import Base M_Tree M_Ode M_RDual.

Definition dtree := list (list du).
Definition dshape (t : dtree) : list nat := map (@length du) t.

(** M_Tree.tree_map2 on pairs, with the broadcasting of the leaves (Base.bcast1) *)
Definition dbcast1 (f : du -> du -> du) (l m : list du) : res (list du) :=
  if Nat.eqb (length l) (length m) then Ok (map2 f l m)
  else match l, m with
       | [a], _ => Ok (map (f a) m)
       | _, [b] => Ok (map (fun a => f a b) l)
       | _, _ => Err TypeError
       end.
Definition dtree_map2 (f : du -> du -> du) (s t : dtree) : res dtree :=
  if Nat.eqb (length s) (length t) then sequence (map2 (dbcast1 f) s t) else Err ValueError.
Definition dtree_add := dtree_map2 dadd.
Definition dtree_scal (c : du) (t : dtree) : dtree := map (map (dmul c)) t.

Definition ddynamics := dtree -> du -> res dtree.
Definition dstepper := ddynamics -> dtree -> du -> du -> res dtree.
Definition dhalf (a : du) : du := (fst a / 2, snd a / 2).

(** ode.py:11-17 rk4 *)
Definition drk4 : dstepper := fun df y t dt =>
  k1 <- df y t ;;
  let y1 := dtree_scal dt k1 in
  a1 <- dtree_add y (dtree_scal (dconst (1 / 2)) y1) ;;
  k2 <- df a1 (dadd t (dhalf dt)) ;;
  let y2 := dtree_scal dt k2 in
  a2 <- dtree_add y (dtree_scal (dconst (1 / 2)) y2) ;;
  k3 <- df a2 (dadd t (dhalf dt)) ;;
  let y3 := dtree_scal dt k3 in
  a3 <- dtree_add y y3 ;;
  k4 <- df a3 (dadd t dt) ;;
  let y4 := dtree_scal dt k4 in
  s <- dtree_add y1 (dtree_scal (dconst 2) y2) ;;
  s <- dtree_add s (dtree_scal (dconst 2) y3) ;;
  s <- dtree_add s y4 ;;
  dtree_add y (dtree_scal (dconst (1 / 6)) s).

(** ode.py:20-23 explicit_euler *)
Definition deuler : dstepper := fun df y t dt =>
  dy <- df y t ;;
  dtree_add y (dtree_scal dt dy).

(** ode.py:52-60 the scan over ts[1:] *)
Fixpoint dscan_steps (df : ddynamics) (method : dstepper) (y : dtree) (t_prev : du) (ts : list du) : res (list dtree) :=
  match ts with
  | [] => Ok []
  | t :: rest =>
      let dt := dsub t t_prev in
      y' <- method df y t dt ;;
      if (if list_eq_dec Nat.eq_dec (dshape y') (dshape y) then true else false) then
        ys <- dscan_steps df method y' t rest ;; Ok (y' :: ys)
      else Err TypeError
  end.
(** ode.py:26-61 odeint *)
Definition dodeint (df : ddynamics) (y : dtree) (ts : list du) (method : dstepper) : res (list dtree) :=
  match ts with
  | [] => Err IndexError
  | t0 :: rest => ys <- dscan_steps df method y t0 rest ;; Ok (y :: ys)
  end.

(** jax.jvp of odeint with respect to the initial value and the times *)
Definition pair_tree (y dy : tree) : dtree := map2 (fun l d => combine l d) y dy.
Definition odeint_jvp (df : ddynamics) (y dy : tree) (ts dts : list R) (method : dstepper) : res (list dtree) :=
  dodeint df (pair_tree y dy) (combine ts dts) method.

(** ** Reverse mode (jax.vjp) with respect to the initial value.  [df] are the dynamics, [vjp y t c]
    their cotangent with respect to y.  The steps below are the transposed operations of the
    functions above in reverse order; jax.checkpoint recomputes the intermediate values. *)
Definition rdynamics := tree -> R -> tree -> res tree.
Definition rstepper := dynamics -> rdynamics -> tree -> R -> R -> tree -> res tree.

(** ode.py:11-17 rk4 *)
Definition rrk4 : rstepper := fun df vjp y t dt c =>
  k1 <- df y t ;;
  a1 <- tree_add y (tree_scalar_mul (1 / 2) (tree_scalar_mul dt k1)) ;;
  k2 <- df a1 (t + dt / 2) ;;
  a2 <- tree_add y (tree_scalar_mul (1 / 2) (tree_scalar_mul dt k2)) ;;
  k3 <- df a2 (t + dt / 2) ;;
  a3 <- tree_add y (tree_scalar_mul dt k3) ;;
  let s := tree_scalar_mul (1 / 6) c in
  let c1 := s in
  let c2 := tree_scalar_mul 2 s in
  let c3 := tree_scalar_mul 2 s in
  let c4 := s in
  b3 <- vjp a3 (t + dt) (tree_scalar_mul dt c4) ;;
  c3 <- tree_add c3 b3 ;;
  b2 <- vjp a2 (t + dt / 2) (tree_scalar_mul dt c3) ;;
  c2 <- tree_add c2 (tree_scalar_mul (1 / 2) b2) ;;
  b1 <- vjp a1 (t + dt / 2) (tree_scalar_mul dt c2) ;;
  c1 <- tree_add c1 (tree_scalar_mul (1 / 2) b1) ;;
  b0 <- vjp y t (tree_scalar_mul dt c1) ;;
  r <- tree_add c b3 ;; r <- tree_add r b2 ;; r <- tree_add r b1 ;; tree_add r b0.

(** ode.py:20-23 explicit_euler *)
Definition reuler : rstepper := fun df vjp y t dt c =>
  b <- vjp y t (tree_scalar_mul dt c) ;; tree_add c b.

(** ode.py:52-60 the reversed scan: cotangent of the state before the steps to [ts], given the
    cotangents [cs] of the states after them *)
Fixpoint rscan_steps (df : dynamics) (vjp : rdynamics) (method : stepper)
    (rmethod : rstepper) (y : tree) (t_prev : R) (ts : list R) (cs : list tree) : res tree :=
  match ts, cs with
  | [], [] => Ok (tree_scalar_mul 0 y)
  | t :: rest, c :: cs' =>
      let dt := t - t_prev in
      y' <- method df y t dt ;;
      l <- rscan_steps df vjp method rmethod y' t rest cs' ;;
      c' <- tree_add c l ;;
      rmethod df vjp y t dt c'
  | _, _ => Err ValueError
  end.
(** ode.py:60-61 the first state is the initial value *)
Definition odeint_vjp (df : dynamics) (vjp : rdynamics) (method : stepper)
    (rmethod : rstepper) (y : tree) (ts : list R) (cs : list tree) : res tree :=
  match ts, cs with
  | t0 :: rest, c :: cs' => l <- rscan_steps df vjp method rmethod y t0 rest cs' ;; tree_add c l
  | [], _ => Err IndexError
  | _, [] => Err ValueError
  end.
