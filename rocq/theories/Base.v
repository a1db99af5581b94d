(** Shared vocabulary of the models: exceptions as values, extended reals,
    and the small part of numpy/jax array semantics the models need.
    Definitions only; facts are in BaseFacts.v. *)
From Coq Require Export Reals List ZArith Lia Lra.
Export ListNotations.
Open Scope R_scope.

(** Python exceptions that the modelled code can raise.  [NonFinite] is not an
    exception: it marks a float result that is nan or +-inf. *)
Inductive exn :=
| AssertionError | ValueError | TypeError | IndexError | ZeroDivisionError
| NotADirectoryError | NonFinite.

Inductive res (A : Type) := Ok (a : A) | Err (e : exn).
Arguments Ok {A} a.
Arguments Err {A} e.

Definition bind {A B} (r : res A) (k : A -> res B) : res B :=
  match r with Ok a => k a | Err e => Err e end.
Notation "x <- r ;; k" := (bind r (fun x => k))
  (at level 100, r at next level, right associativity).

(** Evaluate a list of computations left to right, stop at the first error. *)
Fixpoint sequence {A} (l : list (res A)) : res (list A) :=
  match l with
  | [] => Ok []
  | r :: rs => a <- r ;; t <- sequence rs ;; Ok (a :: t)
  end.

(** [assert c, msg] *)
Definition assert_ (c : bool) : res unit := if c then Ok tt else Err AssertionError.

(** Boolean comparisons of reals. *)
Definition Rltb (a b : R) : bool := if Rlt_dec a b then true else false.
Definition Rleb (a b : R) : bool := if Rle_dec a b then true else false.
Definition Reqb (a b : R) : bool := if Req_EM_T a b then true else false.

(** Float division (jax): by zero the result is nan or +-inf. *)
Definition fdiv (a b : R) : res R := if Req_EM_T b 0 then Err NonFinite else Ok (a / b).
(** Python division of Python numbers: by zero raises. *)
Definition pydiv (a b : R) : res R :=
  if Req_EM_T b 0 then Err ZeroDivisionError else Ok (a / b).
(** jnp.sqrt: nan on negative arguments. *)
Definition fsqrt (a : R) : res R := if Rlt_dec a 0 then Err NonFinite else Ok (sqrt a).
(** jnp.log: -inf at 0, nan below. *)
Definition flog (a : R) : res R := if Rlt_dec 0 a then Ok (ln a) else Err NonFinite.
(** x ** y for float y: 0**0 = 1, 0**y = 0 for y > 0, 0**y = inf for y < 0,
    nan for negative base (the code never uses a negative base with float y). *)
Definition fpow (x y : R) : res R :=
  if Rlt_dec x 0 then Err NonFinite
  else if Req_EM_T x 0 then
         (if Req_EM_T y 0 then Ok 1 else if Rlt_dec y 0 then Err NonFinite else Ok 0)
       else Ok (Rpower x y).
(** x ** p for integer p: 0 ** p = inf for p < 0. *)
Definition zpow (x : R) (p : Z) : res R :=
  if Req_EM_T x 0 then
    (if Z_lt_dec p 0 then Err NonFinite else Ok (powerRZ x p))
  else Ok (powerRZ x p).

(** ** Lists of reals as 1-d arrays *)
Definition sumR (l : list R) : R := fold_right Rplus 0 l.
Definition prodR (l : list R) : R := fold_right Rmult 1 l.

Fixpoint map2 {A B C} (f : A -> B -> C) (l : list A) (m : list B) : list C :=
  match l, m with
  | a :: l', b :: m' => f a b :: map2 f l' m'
  | _, _ => []
  end.

Definition dotR (u v : list R) : R := sumR (map2 Rmult u v).
(** jnp.linalg.norm of a 1-d array *)
Definition normR (u : list R) : R := sqrt (sumR (map (fun x => x * x) u)).

(** Replace the [i]-th entry ([x.at[i].set(v)]; out of range writes are dropped). *)
Fixpoint upd {A} (l : list A) (i : nat) (v : A) : list A :=
  match l, i with
  | [], _ => []
  | _ :: t, O => v :: t
  | a :: t, S j => a :: upd t j v
  end.

(** ** Arrays of shape () and (n,) with numpy broadcasting *)
Inductive arr := A0 (r : R) | A1 (l : list R).

Definition ravel (a : arr) : list R := match a with A0 r => [r] | A1 l => l end.

Definition amap (f : R -> R) (a : arr) : arr :=
  match a with A0 r => A0 (f r) | A1 l => A1 (map f l) end.

(** Broadcast two 1-d arrays: equal lengths, or one of length 1. *)
Definition bcast1 {C} (f : R -> R -> C) (l m : list R) : res (list C) :=
  if Nat.eqb (length l) (length m) then Ok (map2 f l m)
  else match l, m with
       | [x], _ => Ok (map (f x) m)
       | _, [y] => Ok (map (fun x => f x y) l)
       | _, _ => Err TypeError
       end.

(** Elementwise binary operation with broadcasting. *)
Definition bop (f : R -> R -> R) (a b : arr) : res arr :=
  match a, b with
  | A0 x, A0 y => Ok (A0 (f x y))
  | A0 x, A1 m => Ok (A1 (map (f x) m))
  | A1 l, A0 y => Ok (A1 (map (fun x => f x y) l))
  | A1 l, A1 m => r <- bcast1 f l m ;; Ok (A1 r)
  end.

(** Elementwise operation that may produce non-finite entries. *)
Definition bopf (f : R -> R -> res R) (a b : arr) : res arr :=
  match a, b with
  | A0 x, A0 y => r <- f x y ;; Ok (A0 r)
  | A0 x, A1 m => r <- sequence (map (f x) m) ;; Ok (A1 r)
  | A1 l, A0 y => r <- sequence (map (fun x => f x y) l) ;; Ok (A1 r)
  | A1 l, A1 m => rs <- bcast1 f l m ;; r <- sequence rs ;; Ok (A1 r)
  end.

(** jnp.linalg.norm(x) with ord=None flattens its argument first. *)
Definition anorm (a : arr) : R := normR (ravel a).

(** x @ y for 1-d arrays (0-d operands and unequal lengths are rejected). *)
Definition amatmul (a b : arr) : res R :=
  match a, b with
  | A1 l, A1 m => if Nat.eqb (length l) (length m) then Ok (dotR l m) else Err TypeError
  | _, _ => Err TypeError
  end.

(** functools.reduce(func, d): left fold, TypeError on an empty sequence. *)
Fixpoint reduce_from {A} (func : A -> A -> res A) (acc : A) (l : list A) : res A :=
  match l with
  | [] => Ok acc
  | x :: t => acc' <- func acc x ;; reduce_from func acc' t
  end.
Definition reduce {A} (func : A -> A -> res A) (l : list A) : res A :=
  match l with
  | [] => Err TypeError
  | x :: t => reduce_from func x t
  end.

(** Python's [x % 1.0] for floats (sign of the divisor): x - floor(x). *)
Definition mod1 (x : R) : R := x - IZR (Int_part x).

(** ** Three-dimensional vectors *)
Record vec3 := mk3 { v1 : R; v2 : R; v3 : R }.
Definition vadd3 (u v : vec3) := mk3 (v1 u + v1 v) (v2 u + v2 v) (v3 u + v3 v).
Definition vsub3 (u v : vec3) := mk3 (v1 u - v1 v) (v2 u - v2 v) (v3 u - v3 v).
Definition vneg3 (u : vec3) := mk3 (- v1 u) (- v2 u) (- v3 u).
Definition vscal3 (c : R) (u : vec3) := mk3 (c * v1 u) (c * v2 u) (c * v3 u).
Definition vadds3 (u : vec3) (c : R) := mk3 (v1 u + c) (v2 u + c) (v3 u + c).
Definition vsubs3 (u : vec3) (c : R) := mk3 (v1 u - c) (v2 u - c) (v3 u - c).
Definition dot3 (u v : vec3) := v1 u * v1 v + v2 u * v2 v + v3 u * v3 v.
Definition cross3 (u v : vec3) :=
  mk3 (v2 u * v3 v - v3 u * v2 v) (v3 u * v1 v - v1 u * v3 v) (v1 u * v2 v - v2 u * v1 v).
Definition norm3 (u : vec3) := sqrt (dot3 u u).
Definition zero3 := mk3 0 0 0.
Definition list3 (u : vec3) : list R := [v1 u; v2 u; v3 u].
(** asarray + shape == (3,) check *)
Definition as_vec3 (a : arr) : res vec3 :=
  match a with A1 [x; y; z] => Ok (mk3 x y z) | _ => Err AssertionError end.
