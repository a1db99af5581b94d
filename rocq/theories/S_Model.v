(** Specification vocabulary for model.py. *)
From Coquelicot Require Import Coquelicot.
From Verif Require Import Base M_Tensor S_Calc.

(** [p] is an index of an array of shape [s] *)
Definition inside (s p : list nat) : Prop := Forall2 lt p s.

(** An array function of one 1-d argument of length [n] with results of shape [s]
    whose entry at [p] is the real function [f p]. *)
Definition repT (n : nat) (s : list nat) (F : tensor -> res tensor) (f : list nat -> list R -> R) : Prop :=
  forall t, shape t = [n] -> exists y, F t = Ok y /\ shape y = s /\
    forall p, inside s p -> entry y p = f p (tlist t).

(** squared length of the gradient *)
Definition grad_sq (n : nat) (f : list R -> R) (x : list R) : R := total n (fun i => pd i f x * pd i f x).
(** unit vector pointing out of the domain [f > 0] where the gradient has length 1 *)
Definition outward (n : nat) (f : list R -> R) (x : list R) : list R := map (fun i => - pd i f x) (seq 0 n).

(** continuity at 0 along the line [x + t v] *)
Definition cont_along (g : list R -> R) (x v : list R) : Prop :=
  continuous (fun t => g (axpy t x v)) 0.

(** A feed-forward network on one row of features: affine maps, activation between them. *)
Definition affine (K : list (list R)) (b x : list R) : list R :=
  map (fun k => sumR (map (fun i => nth i x 0 * nth k (nth i K []) 0) (seq 0 (length K))) + nth k b 0)
      (seq 0 (length b)).
Fixpoint net (act : R -> R) (ps : list (list (list R) * list R)) (x : list R) : list R :=
  match ps with
  | [] => x
  | (K, b) :: [] => affine K b x
  | (K, b) :: ps' => net act ps' (map act (affine K b x))
  end.
(** features at batch index [p] *)
Definition row (x : tensor) (n : nat) (p : list nat) : list R := map (fun i => entry x (p ++ [i])) (seq 0 n).
(** parameters of the layer sizes [n -> layers] *)
Fixpoint fits (n : nat) (layers : list nat) (ps : list (list (list R) * list R)) : Prop :=
  match layers, ps with
  | [], [] => True
  | m :: layers', (K, b) :: ps' =>
      length K = n /\ Forall (fun r => length r = m) K /\ length b = m /\ fits m layers' ps'
  | _, _ => False
  end.
