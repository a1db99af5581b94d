(** Model of the Hessian vector products of /repo/magpi/calc.py for several primals that
    are pytrees.  A pytree is the list of its leaves; its structure is fixed. *)
From Coquelicot Require Import Coquelicot.
From Verif Require Import Base M_Tensor M_Calc.
Import ListNotations.
Open Scope R_scope.

(** primals and tangents of jax.jvp must agree in structure and shapes *)
Definition same_trees (ps vs : list (list tensor)) : bool :=
  andb (Nat.eqb (length ps) (length vs)) (forallb (fun b => b) (map2 same_shapes ps vs)).
Definition move (t : R) (ps vs : list (list tensor)) : list (list tensor) := map2 (map2 (taxpy t)) ps vs.
(** the i-th leaf of a result *)
Definition leafL (r : res (list tensor)) (i : nat) : res tensor :=
  y <- r ;; match nth_error y i with Some a => Ok a | None => Err TypeError end.
(** jax.jvp *)
Definition jvpL (G : list (list tensor) -> res (list tensor)) (ps vs : list (list tensor))
  : res (list tensor * list tensor) :=
  if same_trees ps vs then
    y <- G ps ;;
    d <- sequence (map (fun i => tderive (fun t => leafL (G (move t ps vs)) i)) (seq 0 (length y))) ;;
    Ok (y, d)
  else Err TypeError.
(** jax.jacfwd with respect to a pytree: one Jacobian per leaf *)
Definition jacfwdL (h : list tensor -> res tensor) (p : list tensor) : res (list tensor) :=
  y <- h p ;;
  let k := length (shape y) in
  Ok (map2 (fun l a => mkT (shape y ++ shape a)
        (fun pq => Derive (fun t => entry_of (h (upd p l (taxpy t a (tunit (shape a) (skipn k pq))))) (firstn k pq)) 0))
      (seq 0 (length p)) p).
(** jax.grad *)
Definition jgradL (h : list tensor -> res tensor) (p : list tensor) : res (list tensor) :=
  y <- h p ;; match shape y with [] => jacfwdL h p | _ => Err TypeError end.
(** a function applied to the first of several positional arguments *)
Definition on_first {A} (f : list (list tensor) -> res A) (G : (list tensor -> res A) -> list tensor -> res (list tensor))
  (ps : list (list tensor)) : res (list tensor) :=
  match ps with p :: rest => G (fun p => f (p :: rest)) p | [] => Err TypeError end.
(** calc.py:205-208 hvp of a function with array results *)
Definition hvpL (f : list (list tensor) -> res tensor) (ps vs : list (list tensor)) : res (list tensor) :=
  yd <- jvpL (on_first f jacfwdL) ps vs ;; Ok (snd yd).

(** results of the objective: v, (v, aux), (v, g) and ((v, aux), g) *)
Inductive outL :=
| LVal (v : tensor) | LAux (v : tensor) (aux : nat)
| LGrad (v : tensor) (g : list tensor) | LAuxGrad (v : tensor) (aux : nat) (g : list tensor).
Definition val_partL (f : list (list tensor) -> res outL) (has_aux : bool) (ps : list (list tensor)) : res tensor :=
  o <- f ps ;;
  match o, has_aux with
  | LVal v, false => Ok v
  | LAux v _, true => Ok v
  | _, _ => Err TypeError
  end.
(** calc.py:232-237, 294-299, 318-323 grad_f: the value (with aux) and the gradient *)
Definition grad_fL (f : list (list tensor) -> res outL) (value_and_grad has_aux : bool) (ps : list (list tensor))
  : res ((tensor * option nat) * list tensor) :=
  o <- f ps ;;
  if value_and_grad then
    match o with
    | LGrad v g => Ok ((v, None), g)
    | LAuxGrad v a g => Ok ((v, Some a), g)
    | LVal _ | LAux _ _ => Err TypeError
    end
  else
    g <- on_first (val_partL f has_aux) jgradL ps ;;
    Ok ((match o with LVal v | LAux v _ | LGrad v _ | LAuxGrad v _ _ => v end,
         match o with LAux _ a => if has_aux then Some a else None | _ => None end), g).
Definition grad_onlyL f vag aux ps := r <- grad_fL f vag aux ps ;; Ok (snd r).
(** calc.py:211-243 hvp_forward_over_reverse *)
Definition hvp_forL (f : list (list tensor) -> res outL) (ps vs : list (list tensor)) (alpha : option R)
  (value_and_grad has_aux : bool) : res (list tensor) :=
  yd <- jvpL (grad_onlyL f value_and_grad has_aux) ps vs ;;
  match alpha, vs with
  | None, _ => Ok (snd yd)
  | Some a, v :: _ => sequence (map2 (fun h v => tbop Rplus h (tmap (fun r => a * r) v)) (snd yd) v)
  | Some _, [] => Err IndexError
  end.
(** jnp.vdot flattens both arrays; jaxopt's tree_vdot adds the leaves *)
Definition vdotN (a b : tensor) : res R :=
  if Nat.eqb (nprod (shape a)) (nprod (shape b)) then
    Ok (sumR (map (fun k => entry (travel a) [k] * entry (travel b) [k]) (seq 0 (nprod (shape a)))))
  else Err TypeError.
Definition tree_vdotL (g v : list tensor) : res tensor :=
  if Nat.eqb (length g) (length v) then
    ds <- sequence (map2 vdotN g v) ;;
    match ds with [] => Err TypeError | _ => Ok (tsc (sumR ds)) end
  else Err ValueError.
(** calc.py:309-327 hvp_reverse_over_reverse: [(x,) = primals] *)
Definition hvp_rorL (f : list (list tensor) -> res outL) (ps vs : list (list tensor))
  (value_and_grad has_aux : bool) : res (list tensor) :=
  match ps, vs with
  | [x], [v] => jgradL (fun x => g <- grad_onlyL f value_and_grad has_aux [x] ;; tree_vdotL g v) x
  | _, _ => Err ValueError
  end.
(** calc.py:271-306 value_grad_hvp *)
Definition value_grad_hvpL (f : list (list tensor) -> res outL) (x : list tensor) (value_and_grad has_aux : bool)
  : res ((tensor * option nat) * list tensor * (list tensor -> res (list tensor)) * option nat) :=
  r <- grad_fL f value_and_grad has_aux [x] ;;
  let lin v := yd <- jvpL (grad_onlyL f value_and_grad has_aux) [x] [v] ;; Ok (snd yd) in
  let '(value, g) := r in
  if has_aux then
    match value with
    | (v, Some a) => Ok ((v, None), g, lin, Some a)
    | (_, None) => Err TypeError
    end
  else Ok (value, g, lin, None).
