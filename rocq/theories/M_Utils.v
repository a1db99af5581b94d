(** Model of /repo/magpi/utils.py. *)
From Coquelicot Require Import Coquelicot.
From Verif Require Import Base M_Opt.

(** Python values that objectives return. *)
Inductive pyval :=
| VNum (r : R)            (* scalar *)
| VNone
| VArr (l : list R)       (* 1-d array, e.g. a flattened gradient *)
| VTup (l : list pyval).  (* tuple *)

(** [v[0]] *)
Definition get0 (v : pyval) : res pyval :=
  match v with
  | VTup (a :: _) => Ok a
  | VTup [] => Err IndexError
  | VArr (a :: _) => Ok (VNum a)
  | VArr [] => Err IndexError
  | VNum _ | VNone => Err TypeError
  end.

(** [a, b = v] *)
Definition unpack2 (v : pyval) : res (pyval * pyval) :=
  match v with
  | VTup [a; b] => Ok (a, b)
  | VArr [a; b] => Ok (VNum a, VNum b)
  | VTup _ | VArr _ => Err ValueError
  | VNum _ | VNone => Err TypeError
  end.

Definition num_of (r : res pyval) : R :=
  match r with Ok (VTup (VNum v :: _)) => v | _ => 0 end.

(** gradient of a function of a 1-d array *)
Definition gradR (f : list R -> R) (x : list R) : list R :=
  map (fun i => Derive (fun t => f (upd x i t)) (nth i x 0)) (seq 0 (length x)).

Section Funs.
(** further positional and keyword arguments *)
Context {K : Type}.
Definition pyfun1 : Type := list R -> K -> res pyval.

(** jax.value_and_grad(f, has_aux=True): f must return a pair of a scalar and aux *)
Definition jax_value_and_grad (f : pyfun1) : pyfun1 := fun p k =>
  o <- f p k ;;
  match o with
  | VTup [VNum v; aux] =>
      Ok (VTup [VTup [VNum v; aux]; VArr (gradR (fun q => num_of (f q k)) p)])
  | _ => Err TypeError
  end.

(** utils.py:9-30: fun_ and value_and_grad_fun *)
Definition fun_ (f : pyfun1) (value_and_grad has_aux : bool) : pyfun1 :=
  if value_and_grad then
    if has_aux then fun p k => o <- f p k ;; get0 o                              (* :14 *)
    else fun p k => o <- f p k ;; v <- get0 o ;; Ok (VTup [v; VNone])            (* :17 *)
  else
    if has_aux then f                                                            (* :26 *)
    else fun p k => v <- f p k ;; Ok (VTup [v; VNone]).                          (* :28 *)

Definition value_and_grad_fun (f : pyfun1) (value_and_grad has_aux : bool) : pyfun1 :=
  if value_and_grad then
    if has_aux then f                                                            (* :15 *)
    else fun p k => o <- f p k ;; vg <- unpack2 o ;;
                    Ok (VTup [VTup [fst vg; VNone]; snd vg])                     (* :19-21 *)
  else jax_value_and_grad (fun_ f value_and_grad has_aux).                       (* :30 *)

(** utils.py:32-34 *)
Definition grad_fun (f : pyfun1) (value_and_grad has_aux : bool) : pyfun1 := fun p k =>
  o <- value_and_grad_fun f value_and_grad has_aux p k ;;
  vag <- unpack2 o ;;
  va <- unpack2 (fst vag) ;;
  Ok (VTup [snd vag; snd va]).

(** utils.py:9-36 *)
Definition make_funs_with_aux (f : pyfun1) (value_and_grad has_aux : bool)
  : pyfun1 * pyfun1 * pyfun1 :=
  (fun_ f value_and_grad has_aux, grad_fun f value_and_grad has_aux,
   value_and_grad_fun f value_and_grad has_aux).
End Funs.

(** utils.py:39-46 tree_single_dtype: leaves are arrays of some dtype (a number) or
    other objects; the result is None or the dtype *)
Definition tree_single_dtype (leaves : list (option nat)) : res (option nat) :=
  let dtypes := nodup Nat.eq_dec (flat_map (fun d => match d with Some d => [d] | None => [] end) leaves) in
  match dtypes with
  | [] => Ok None
  | [d] => Ok (Some d)
  | _ => Err ValueError
  end.

(** utils.py:49-55 tree_dim with axis = 0 *)
Definition tree_dim {A} (t : ptree A) : res nat :=
  ss <- sequence (map shape0 t) ;;
  match nodup Nat.eq_dec ss with
  | [d] => Ok d
  | _ => Err AssertionError
  end.
