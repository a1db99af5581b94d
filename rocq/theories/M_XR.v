(** Floats without rounding: reals, the two infinities and nan (definitions only).
    There is one zero; x/0 takes the sign of x (a negative zero is not modelled). *)
From Verif Require Import Base.

Inductive xr := Fin (r : R) | PInf | NInf | NaN.

Definition xneg (a : xr) : xr := match a with Fin r => Fin (- r) | PInf => NInf | NInf => PInf | NaN => NaN end.
Definition xadd (a b : xr) : xr :=
  match a, b with
  | NaN, _ | _, NaN => NaN
  | Fin x, Fin y => Fin (x + y)
  | PInf, NInf | NInf, PInf => NaN
  | PInf, _ | _, PInf => PInf
  | NInf, _ | _, NInf => NInf
  end.
Definition xsub (a b : xr) : xr := xadd a (xneg b).
(** an infinity with the sign of r, nan for r = 0 *)
Definition xinf (r : R) : xr := if Rlt_dec 0 r then PInf else if Rlt_dec r 0 then NInf else NaN.
Definition xmul (a b : xr) : xr :=
  match a, b with
  | NaN, _ | _, NaN => NaN
  | Fin x, Fin y => Fin (x * y)
  | PInf, Fin y | Fin y, PInf => xinf y
  | NInf, Fin y | Fin y, NInf => xinf (- y)
  | PInf, PInf | NInf, NInf => PInf
  | PInf, NInf | NInf, PInf => NInf
  end.
Definition xdiv (a b : xr) : xr :=
  match a, b with
  | NaN, _ | _, NaN => NaN
  | Fin x, Fin y => if Req_EM_T y 0 then xinf x else Fin (x / y)
  | Fin _, _ => Fin 0
  | PInf, Fin y => if Rlt_dec y 0 then NInf else PInf
  | NInf, Fin y => if Rlt_dec y 0 then PInf else NInf
  | _, _ => NaN
  end.
Definition xsqrt (a : xr) : xr :=
  match a with
  | Fin x => if Rlt_dec x 0 then NaN else Fin (sqrt x)
  | PInf => PInf
  | _ => NaN
  end.
(** a ** p for a >= 0 and a finite exponent *)
Definition xpow (a : xr) (p : R) : xr :=
  if Req_EM_T p 0 then Fin 1 else
  match a with
  | Fin x => if Rlt_dec x 0 then NaN
             else if Req_EM_T x 0 then (if Rlt_dec p 0 then PInf else Fin 0)
             else Fin (Rpower x p)
  | PInf => if Rlt_dec p 0 then Fin 0 else PInf
  | _ => NaN
  end.
(** comparisons: false if an operand is nan *)
Definition xltb (a b : xr) : bool :=
  match a, b with
  | NaN, _ | _, NaN => false
  | Fin x, Fin y => Rltb x y
  | NInf, NInf => false
  | NInf, _ => true
  | Fin _, PInf => true
  | _, _ => false
  end.
Definition xleb (a b : xr) : bool :=
  match a, b with
  | NaN, _ | _, NaN => false
  | Fin x, Fin y => Rleb x y
  | NInf, _ => true
  | _, PInf => true
  | _, _ => false
  end.
Definition xgeb a b := xleb b a.
Definition xgtb a b := xltb b a.
(** jnp.minimum, jnp.maximum: nan if an operand is nan *)
Definition xmin (a b : xr) : xr :=
  match a, b with NaN, _ | _, NaN => NaN | _, _ => if xleb a b then a else b end.
Definition xmax (a b : xr) : xr :=
  match a, b with NaN, _ | _, NaN => NaN | _, _ => if xleb a b then b else a end.
(** jnp.isclose with the default rtol = 1e-5, atol = 1e-8 *)
Definition xisclose (a b : xr) : bool :=
  match a, b with
  | Fin x, Fin y => Rleb (Rabs (x - y)) (1 / 100000000 + 1 / 100000 * Rabs y)
  | PInf, PInf | NInf, NInf => true
  | _, _ => false
  end.

(** Pytrees with such entries.  The operations of jaxopt.tree_util (prelude.py:135-149) on
    trees of the same structure; structure mismatches (errors in jax) are not modelled. *)
Definition xtree := list (list xr).
Definition xt_map1 (f : xr -> xr) (t : xtree) : xtree := map (map f) t.
Definition xt_map2 (f : xr -> xr -> xr) (s t : xtree) : xtree := map2 (map2 f) s t.
Definition xt_add := xt_map2 xadd.
Definition xt_sub := xt_map2 xsub.
Definition xt_scal (c : xr) (t : xtree) : xtree := xt_map1 (xmul c) t.
Definition xt_neg (t : xtree) : xtree := xt_map1 xneg t.
(** tree_add_scalar_mul(x, s, y) = x + s * y *)
Definition xt_axpy (x : xtree) (s : xr) (y : xtree) : xtree := xt_map2 (fun a b => xadd a (xmul s b)) x y.
Definition xt_zeros (t : xtree) : xtree := xt_map1 (fun _ => Fin 0) t.
Definition xsum (l : list xr) : xr := fold_right xadd (Fin 0) l.
Definition xt_vdot (s t : xtree) : xr := xsum (map2 (fun u v => xsum (map2 xmul u v)) s t).
Definition xt_norm (t : xtree) : xr := xsqrt (xt_vdot t t).
(** tr.py:238-240 tree_size *)
Definition xt_size (t : xtree) : nat := fold_right Nat.add 0%nat (map (@length xr) t).
