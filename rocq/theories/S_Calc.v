(** Specification vocabulary for calc.py: partial derivatives of real functions
    of n real variables, smoothness on an open set. *)
From Coquelicot Require Import Coquelicot.
From Verif Require Import Base M_Tensor M_Calc.

(** i-th partial derivative of [f] at [x] *)
Definition pd (i : nat) (f : list R -> R) (x : list R) : R :=
  Derive (fun t => f (upd x i t)) (nth i x 0).

(** [y] is within [d] of [x] in every coordinate *)
Definition near (d : R) (x y : list R) : Prop :=
  length y = length x /\ forall i, Rabs (nth i y 0 - nth i x 0) < d.

Definition openset (n : nat) (D : list R -> Prop) : Prop :=
  forall x, D x -> length x = n /\ exists d, 0 < d /\ forall y, near d x y -> D y.

Definition cont_at (g : list R -> R) (x : list R) : Prop :=
  forall eps, 0 < eps -> exists d, 0 < d /\ forall y, near d x y -> Rabs (g y - g x) < eps.

(** continuously differentiable, once and twice *)
Definition C1 (n : nat) (D : list R -> Prop) (f : list R -> R) : Prop :=
  forall i x, (i < n)%nat -> D x ->
    ex_derive (fun t => f (upd x i t)) (nth i x 0) /\ cont_at (pd i f) x.
Definition C2 (n : nat) (D : list R -> Prop) (f : list R -> R) : Prop :=
  C1 n D f /\ forall i, (i < n)%nat -> C1 n D (pd i f).

(** [x + t v] *)
Definition axpy (t : R) (x v : list R) : list R := map2 (fun a b => a + t * b) x v.

(** An array function of one 1-d argument of length [n] that computes the real
    function [f] (0-d result) or the vector of real functions [f 0 .. f (m-1)]. *)
Definition rep0 (n : nat) (F : tensor -> res tensor) (f : list R -> R) : Prop :=
  forall t, shape t = [n] -> exists y, F t = Ok y /\ shape y = [] /\ entry y [] = f (tlist t).
Definition rep1 (n m : nat) (F : tensor -> res tensor) (f : nat -> list R -> R) : Prop :=
  forall t, shape t = [n] -> exists y, F t = Ok y /\ shape y = [m] /\
    forall i, (i < m)%nat -> entry y [i] = f i (tlist t).
Definition rep2 (n m k : nat) (F : tensor -> res tensor) (f : nat -> nat -> list R -> R) : Prop :=
  forall t, shape t = [n] -> exists y, F t = Ok y /\ shape y = [m; k] /\
    forall i j, (i < m)%nat -> (j < k)%nat -> entry y [i; j] = f i j (tlist t).

(** the same for a 0-d argument *)
Definition repS (F : tensor -> res tensor) (g : R -> R) : Prop :=
  forall t, shape t = [] -> exists y, F t = Ok y /\ shape y = [] /\ entry y [] = g (entry t []).

(** A one-argument array function in the calling convention of several arguments. *)
Definition unary (F : tensor -> res tensor) (l : list tensor) : res tensor :=
  match l with [x] => F x | _ => Err TypeError end.

(** ** differential operators *)
Definition total (n : nat) (g : nat -> R) : R := sumR (map g (seq 0 n)).
Definition div_ (n : nat) (f : nat -> list R -> R) (x : list R) : R := total n (fun i => pd i (f i) x).
Definition lap_ (n : nat) (f : list R -> R) (x : list R) : R := total n (fun i => pd i (pd i f) x).
Definition curl3_ (f : nat -> list R -> R) (i : nat) (x : list R) : R :=
  match i with
  | O => pd 1 (f 2%nat) x - pd 2 (f 1%nat) x
  | S O => pd 2 (f 0%nat) x - pd 0 (f 2%nat) x
  | _ => pd 0 (f 1%nat) x - pd 1 (f 0%nat) x
  end.
Definition curl2_ (f : nat -> list R -> R) (x : list R) : R := pd 0 (f 1%nat) x - pd 1 (f 0%nat) x.
(** Hessian times vector *)
Definition hv_ (n : nat) (f : list R -> R) (x v : list R) (i : nat) : R :=
  total n (fun j => pd i (pd j f) x * nth j v 0).

(** ** iterated partial derivatives *)
Fixpoint smooth (n : nat) (D : list R -> Prop) (k : nat) (f : list R -> R) : Prop :=
  match k with
  | O => True
  | S k' => C1 n D f /\ forall i, (i < n)%nat -> smooth n D k' (pd i f)
  end.
Definition pds (l : list nat) (f : list R -> R) : list R -> R := fold_left (fun g i => pd i g) l f.

(** A function of [n] 0-d arguments that computes [g]. *)
Definition repA (n : nat) (F : list tensor -> res tensor) (g : list R -> R) : Prop :=
  forall args, length args = n -> Forall (fun t => shape t = []) args ->
    exists y, F args = Ok y /\ shape y = [] /\ entry y [] = g (map (fun t => entry t []) args).
(** A function of vector arguments of sizes [ns] that computes [g]. *)
Definition repL (ns : list nat) (F : list tensor -> res tensor) (g : list (list R) -> R) : Prop :=
  forall args, map shape args = map (fun n => [n]) ns ->
    exists y, F args = Ok y /\ shape y = [] /\ entry y [] = g (map tlist args).
(** partial derivative with respect to component [k] of argument [j] *)
Definition pdL (jk : nat * nat) (g : list (list R) -> R) (X : list (list R)) : R :=
  let (j, k) := jk in
  Derive (fun t => g (upd X j (upd (nth j X []) k t))) (nth k (nth j X []) 0).

(** ** objectives in the four calling conventions of value_grad_hvp *)
Definition objective (n : nat) (f : list R -> R) (aux : list R -> nat)
  (value_and_grad has_aux : bool) (F : tensor -> res out) : Prop :=
  forall t, shape t = [n] -> exists v, shape v = [] /\ entry v [] = f (tlist t) /\
    if value_and_grad then
      exists g, shape g = [n] /\ (forall i, (i < n)%nat -> entry g [i] = pd i f (tlist t)) /\
        F t = Ok (if has_aux then OAuxGrad v (aux (tlist t)) g else OGrad v g)
    else F t = Ok (if has_aux then OAux v (aux (tlist t)) else OVal v).

(** valid Python indices for position [i] in a sequence of length [n] *)
Definition pyidx (n i : nat) (k : Z) : Prop := (i < n)%nat /\ (k = Z.of_nat i \/ k = (Z.of_nat i - Z.of_nat n)%Z).
