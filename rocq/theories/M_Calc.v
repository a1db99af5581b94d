(** Model of /repo/magpi/calc.py for array-valued functions of arrays.  Integer inputs
    are not modelled; flax modules are in M_Jac, pytree outputs in M_CalcTree, pytree
    and several primals of the Hessian vector products in M_HvpTree. *)
From Coq Require Import String.
From Coquelicot Require Import Coquelicot.
From Verif Require Import Base M_Tensor.
Import ListNotations.
Open Scope R_scope.

(** A Python function with the names of its positional parameters. *)
Definition kwargs := list (string * tensor).
Record pyfun := mkF { params : list string; call : list tensor -> kwargs -> res tensor }.

(** [wrt: int | str]; anything else is used as the list of tangents, calc.py:65-66 *)
Inductive sel := SInt (i : Z) | SStr (s : string) | STan (l : list tensor).

Fixpoint index_of (s : string) (l : list string) : res nat :=
  match l with
  | [] => Err AssertionError
  | a :: l' => if String.eqb a s then Ok 0%nat else i <- index_of s l' ;; Ok (S i)
  end.

(** calc.py:50-55: names are resolved to positions *)
Definition resolve (f : pyfun) (w : sel) : res sel :=
  match w with
  | SStr s => i <- index_of s (params f) ;; Ok (SInt (Z.of_nat i))
  | _ => Ok w
  end.

(** [ei[argnum].at[wrt].set(1.0)]: negative indices wrap, writes out of range are
    dropped, too many indices for a 0-d array *)
Definition at_set (x : tensor) (k : Z) : res tensor :=
  match shape x with
  | [] => Err IndexError
  | n :: _ =>
      let j := if Z.ltb k 0 then (k + Z.of_nat n)%Z else k in
      Ok (mkT (shape x) (fun p => match p with
                                  | i :: _ => if Z.eqb (Z.of_nat i) j then 1 else entry x p
                                  | [] => entry x p
                                  end))
  end.

(** [l[i] = v] for a Python list *)
Definition pyset {A} (l : list A) (i : Z) (v : A) : list A :=
  upd l (Z.to_nat (if Z.ltb i 0 then (i + Z.of_nat (length l))%Z else i)) v.

(** calc.py:58-66: the tangents *)
Definition tangents (w : sel) (argnum : option Z) (args : list tensor) : res (list tensor) :=
  match w, argnum with
  | SInt i, None =>
      Ok (map2 (fun j x => if Z.eqb (Z.of_nat j) i then tones x else tzeros x)
               (seq 0 (List.length args)) args)
  | SInt i, Some a =>
      let ei := map tzeros args in
      x <- pyget ei a ;;
      x' <- at_set x i ;;
      Ok (pyset ei a x')
  | SStr _, _ => Err TypeError
  | STan l, _ => Ok l
  end.

(** calc.py:40-71 value_and_derivative: assertions first, then the function [df] *)
Definition value_and_derivative (f : pyfun) (w : sel) (argnum : option Z)
  : res (list tensor -> kwargs -> res (tensor * tensor)) :=
  _ <- match argnum, w with
       | None, _ => Ok tt
       | Some _, SInt _ => Ok tt
       | Some _, _ => Err AssertionError
       end ;;
  w <- resolve f w ;;
  Ok (fun args kw =>
        ei <- tangents w argnum args ;;
        jvp (fun a => call f a kw) args ei).

(** calc.py:141-146 (and :126-130): keep the derivative, keep the signature *)
Definition df_of (f : pyfun) (w : sel) (argnum : option Z) : res pyfun :=
  df <- value_and_derivative f w argnum ;;
  Ok (mkF (params f) (fun args kw => yd <- df args kw ;; Ok (snd yd))).

(** the first argument of [derivative] when it is not a function *)
Inductive wrt_arg := WInt (i : Z) | WStr (s : string) | WSeq (l : list sel).
(** [argnums] *)
Inductive argnums_arg := ANone | AInt (i : Z) | ASeq (l : list (option Z)).

(** iterating over a Python string yields its characters *)
Fixpoint chars (s : string) : list sel :=
  match s with
  | EmptyString => []
  | String c s' => SStr (String c EmptyString) :: chars s'
  end.

(** calc.py:115-130 derivative, called with a function: [derivative(f, argnums)] *)
Definition derivative_fun (f : pyfun) (a : argnums_arg) : res pyfun :=
  match a with
  | ASeq _ => Err AssertionError
  | ANone => df_of f (SInt 0) None
  | AInt i => df_of f (SInt i) None
  end.

(** calc.py:148-153: the loop over the selectors *)
Fixpoint derive_all (f : pyfun) (l : list (sel * option Z)) : res pyfun :=
  match l with
  | [] => Ok f
  | (w, a) :: l' => g <- df_of f w a ;; derive_all g l'
  end.

(** calc.py:132-155 derivative, called with selectors: [derivative(wrt, argnums)(f)] *)
Definition derivative (w : wrt_arg) (a : argnums_arg) (f : pyfun) : res pyfun :=
  let ws := match w with WInt i => [SInt i] | WStr s => chars s | WSeq l => l end in
  let args := match a with
              | ANone => map (fun _ => None) ws
              | AInt i => map (fun _ => Some i) ws
              | ASeq l => l
              end in
  _ <- assert_ (Nat.eqb (List.length args) (List.length ws)) ;;
  derive_all f (combine ws args).

(** ** Jacobian based operators *)

(** calc.py:158-178 value_and_jacfwd (has_aux=False) of a function of several
    positional arguments; jax rejects argnums out of range *)
Definition value_and_jacfwd (f : list tensor -> res tensor) (argnum : Z) (args : list tensor)
  : res (tensor * tensor) :=
  match pyget args argnum with
  | Err _ => Err ValueError
  | Ok x =>
      let g x := f (pyset args argnum x) in
      y <- g x ;; J <- jacfwd g x ;; Ok (y, J)
  end.

(** calc.py:205-208 hvp for one primal *)
Definition hvp (f : tensor -> res tensor) (x v : tensor) : res tensor :=
  yd <- jvp (fun l => match l with [x] => jacfwd f x | _ => Err TypeError end) [x] [v] ;;
  Ok (snd yd).

Definition nprod (s : list nat) : nat := fold_right Nat.mul 1%nat s.
(** index of the k-th entry in row-major order *)
Fixpoint unravel (s : list nat) (k : nat) : list nat :=
  match s with
  | [] => []
  | _ :: s' => (k / nprod s')%nat :: unravel s' (k mod nprod s')%nat
  end.
(** primals.ravel() *)
Definition travel (x : tensor) : tensor :=
  mkT [nprod (shape x)] (fun p => entry x (unravel (shape x) (hd 0%nat p))).

(** calc.py:343 [a @ v] for a vector v: contraction over the last axis of a *)
Definition tmatvec (a v : tensor) : res tensor :=
  match rev (shape a), shape v with
  | n :: s, [m] => if Nat.eqb n m then
        Ok (mkT (rev s) (fun p => sumR (map (fun k => entry a (p ++ [k]) * entry v [k]) (seq 0 n))))
      else Err TypeError
  | _, _ => Err TypeError
  end.

(** calc.py:330-346 hessian_diag; the result has the diagonal as leading axis *)
Definition hessian_diag (f : tensor -> res tensor) (x : tensor) : res tensor :=
  match shape x with
  | [] =>
      t <- hvp f x (tsc 1) ;;
      Ok (mkT (1%nat :: shape t) (fun p => entry t (tl p)))
  | _ =>
      let x := travel x in
      let n := nprod (shape x) in
      rows <- sequence (map (fun i => a <- hvp f x (tunit [n] [i]) ;; tmatvec a (tunit [n] [i])) (seq 0 n)) ;;
      Ok (mkT (n :: match rows with r :: _ => shape r | [] => [] end)
              (fun p => match nth_error rows (hd 0%nat p) with Some r => entry r (tl p) | None => 0 end))
  end.

(** calc.py:349-364 laplace: sum over the leading axis *)
Definition laplace (f : tensor -> res tensor) (x : tensor) : res tensor :=
  d <- hessian_diag f x ;;
  Ok (mkT (tl (shape d)) (fun p => sumR (map (fun i => entry d (i :: p)) (seq 0 (hd 0%nat (shape d)))))).

(** calc.py:397-401 _compute_div: [diag] of a matrix takes its diagonal, of a
    vector builds a matrix; other ranks raise ValueError *)
Definition compute_div (J : tensor) : res tensor :=
  match shape J with
  | [] => Err ValueError
  | [n] => Ok (tsc (sumR (map (fun i => entry J [i]) (seq 0 n))))
  | [m; n] => Ok (tsc (sumR (map (fun i => entry J [i; i]) (seq 0 (Nat.min m n)))))
  | [k; m; n] => Ok (mkT [k] (fun p => sumR (map (fun i => entry J (p ++ [i; i])) (seq 0 (Nat.min m n)))))
  | _ => Err ValueError
  end.

(** calc.py:383-405 value_and_divergence *)
Definition value_and_divergence (f : list tensor -> res tensor) (argnum : Z) (args : list tensor)
  : res (tensor * tensor) :=
  yJ <- value_and_jacfwd f argnum args ;;
  d <- compute_div (snd yJ) ;;
  Ok (fst yJ, d).

(** calc.py:367-380 divergence *)
Definition divergence (f : list tensor -> res tensor) (argnum : Z) (args : list tensor) : res tensor :=
  yd <- value_and_divergence f argnum args ;; Ok (snd yd).

(** the last axis of an array; IndexError for 0-d *)
Definition last_dim (s : list nat) : res nat :=
  match rev s with [] => Err IndexError | n :: _ => Ok n end.

(** calc.py:428-446 curl3d; [J[..., a, b]] addresses the last two axes *)
Definition curl3d (f : tensor -> res tensor) (x : tensor) : res tensor :=
  v <- f x ;; J <- jacfwd f x ;;
  n <- last_dim (shape v) ;; _ <- assert_ (Nat.eqb n 3) ;;
  Ok (mkT (shape v)
        (fun p => let q := removelast p in
           match last p 0%nat with
           | O => entry J (q ++ [2; 1]%nat) - entry J (q ++ [1; 2]%nat)
           | S O => entry J (q ++ [0; 2]%nat) - entry J (q ++ [2; 0]%nat)
           | _ => entry J (q ++ [1; 0]%nat) - entry J (q ++ [0; 1]%nat)
           end)).

(** calc.py:449-464 curl2d *)
Definition curl2d (f : tensor -> res tensor) (x : tensor) : res tensor :=
  v <- f x ;; J <- jacfwd f x ;;
  n <- last_dim (shape v) ;; _ <- assert_ (Nat.eqb n 2) ;;
  Ok (mkT (removelast (shape v))
        (fun q => entry J (q ++ [1; 0]%nat) - entry J (q ++ [0; 1]%nat))).

(** calc.py:408-425 curl, for 1-d points *)
Definition curl (f : tensor -> res tensor) (x : tensor) : res tensor :=
  match shape x with
  | [] => Err IndexError
  | n :: _ => if Nat.eqb n 2 then curl2d f x else if Nat.eqb n 3 then curl3d f x else Err ValueError
  end.

(** ** Hessian vector products of scalar functions *)

(** jax.grad: the gradient in reverse mode has the shape of the input and is the
    same as the Jacobian of a scalar function; non-scalar outputs raise TypeError *)
Definition jgrad (f : tensor -> res tensor) (x : tensor) : res tensor :=
  y <- f x ;;
  match shape y with [] => jacfwd f x | _ => Err TypeError end.

(** What the user's function returns: a value, a value with aux, or (when
    [value_and_grad] is set) a gradient as well. *)
Inductive out :=
| OVal (v : tensor)                       (* f(p) -> v *)
| OAux (v : tensor) (aux : nat)           (* f(p) -> v, aux *)
| OGrad (v g : tensor)                    (* f(p) -> v, g *)
| OAuxGrad (v : tensor) (aux : nat) (g : tensor).  (* f(p) -> (v, aux), g *)

(** the value part of a plain objective *)
Definition val_part (f : tensor -> res out) (has_aux : bool) (x : tensor) : res tensor :=
  o <- f x ;;
  match o, has_aux with
  | OVal v, false => Ok v
  | OAux v _, true => Ok v
  | _, _ => Err TypeError
  end.

(** calc.py:232-237, :318-323 and :294-299: [_, _grad_f = ...] with the value
    part ([v] or [(v, aux)]) kept for value_grad_hvp *)
Definition grad_f (f : tensor -> res out) (value_and_grad has_aux : bool) (p : tensor)
  : res ((tensor * option nat) * tensor) :=
  if value_and_grad then
    o <- f p ;;
    match o with
    | OGrad v g => Ok ((v, None), g)
    | OAuxGrad v a g => Ok ((v, Some a), g)
    | OVal _ => Err TypeError
    | OAux _ _ => Err TypeError
    end
  else
    o <- f p ;;
    g <- jgrad (val_part f has_aux) p ;;
    Ok ((match o with OVal v | OAux v _ | OGrad v _ | OAuxGrad v _ _ => v end,
         match o with OAux _ a => if has_aux then Some a else None | _ => None end), g).

Definition grad_only f vag aux p := r <- grad_f f vag aux p ;; Ok (snd r).

(** calc.py:211-243 hvp_forward_over_reverse for one primal *)
Definition hvp_forward_over_reverse (f : tensor -> res out) (x v : tensor) (alpha : option R)
  (value_and_grad has_aux : bool) : res tensor :=
  yd <- jvp (fun l => match l with [x] => grad_only f value_and_grad has_aux x | _ => Err TypeError end)
            [x] [v] ;;
  match alpha with
  | None => Ok (snd yd)
  | Some a => tbop Rplus (snd yd) (tmap (fun r => a * r) v)
  end.

(** jaxopt's tree_vdot for two 1-d arrays *)
Definition tvdot (a b : tensor) : res tensor :=
  match shape a, shape b with
  | [n], [m] => if Nat.eqb n m then Ok (tsc (sumR (map (fun i => entry a [i] * entry b [i]) (seq 0 n))))
                else Err TypeError
  | _, _ => Err TypeError
  end.

(** calc.py:309-327 hvp_reverse_over_reverse *)
Definition hvp_reverse_over_reverse (f : tensor -> res out) (x v : tensor)
  (value_and_grad has_aux : bool) : res tensor :=
  jgrad (fun x => g <- grad_only f value_and_grad has_aux x ;; tvdot g v) x.

(** calc.py:271-306 value_grad_hvp; [jax.linearize] returns the gradient, the
    linear map and (as aux) the value *)
Definition value_grad_hvp (f : tensor -> res out) (x : tensor) (value_and_grad has_aux : bool)
  : res ((tensor * option nat) * tensor * (tensor -> res tensor) * option nat) :=
  r <- grad_f f value_and_grad has_aux x ;;
  let lin v :=
    yd <- jvp (fun l => match l with [x] => grad_only f value_and_grad has_aux x | _ => Err TypeError end)
              [x] [v] ;; Ok (snd yd) in
  let '(value, g) := r in
  if has_aux then
    match value with
    | (v, Some a) => Ok ((v, None), g, lin, Some a)
    | (_, None) => Err TypeError           (* a scalar cannot be unpacked *)
    end
  else Ok (value, g, lin, None).
