(** Specification vocabulary for quadrature errors in several dimensions. *)
From Coquelicot Require Import Coquelicot.
From Verif Require Import Base M_Integrate S_Integrate.

(** The iterated integral over a product of intervals, first coordinate outermost. *)
Fixpoint iterated_RInt (box : list (R * R)) (f : list R -> R) : R :=
  match box with
  | [] => f []
  | (a, b) :: rest => RInt (fun x => iterated_RInt rest (fun p => f (x :: p))) a b
  end.

Definition in_box (box : list (R * R)) (p : list R) : Prop := Forall2 (fun ab x => fst ab <= x <= snd ab) box p.

(** Lipschitz with respect to the sum of the coordinate distances. *)
Definition lipschitz_box (box : list (R * R)) (L : R) (f : list R -> R) : Prop :=
  forall p q, in_box box p -> in_box box q -> Rabs (f p - f q) <= L * sumR (map2 (fun x y => Rabs (x - y)) p q).

Definition volume (box : list (R * R)) : R := prodR (map (fun ab => snd ab - fst ab) box).

(** The box covered by a list of grids. *)
Definition covered (ds : list (list R)) : list (R * R) := map (fun d => (first d, final d)) ds.
