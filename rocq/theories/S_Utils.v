(** Specification vocabulary for utils.py. *)
From Coquelicot Require Import Coquelicot.
From Verif Require Import Base S_Calc M_Utils.

(** the vector of all partial derivatives *)
Definition gradient (f : list R -> R) (x : list R) : list R := map (fun i => pd i f x) (seq 0 (length x)).

(** How a user's objective reports value [v], auxiliary output [a] and gradient
    [g] under the two flags: (v, a), v, ((v, a), g) or (v, g). *)
Definition returned (value_and_grad has_aux : bool) (v : R) (a : pyval) (g : list R) : pyval :=
  match value_and_grad, has_aux with
  | false, false => VNum v
  | false, true => VTup [VNum v; a]
  | true, false => VTup [VNum v; VArr g]
  | true, true => VTup [VTup [VNum v; a]; VArr g]
  end.
