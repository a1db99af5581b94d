(** Specification vocabulary for spline.py. *)
From Verif Require Import Base M_Spline.

(** Node sequences. *)
Definition sorted (t : list R) : Prop := forall i j, (i <= j < length t)%nat -> nth i t 0 <= nth j t 0.
Definition strictly_sorted (t : list R) : Prop := forall i j, (i < j < length t)%nat -> nth i t 0 < nth j t 0.

(** Linear combination of basis values. *)
Fixpoint combine_with (c b : list R) : R :=
  match c, b with
  | x :: c', y :: b' => x * y + combine_with c' b'
  | _, _ => 0
  end.

(** Product (y - t_{i+1}) ... (y - t_{i+k}) of Marsden's identity and the mean of
    t_{i+1}, ..., t_{i+k} (Greville abscissa). *)
Fixpoint dual_poly (t : list R) (y : R) (i k : nat) : R :=
  match k with O => 1 | S m => dual_poly t y i m * (y - nth (i + S m) t 0) end.
Fixpoint node_sum (t : list R) (i k : nat) : R :=
  match k with O => 0 | S m => node_sum t i m + nth (i + S m) t 0 end.

(** Entry (r, j) of a table. *)
Definition at2 (m : list (list R)) (r j : nat) : R := nth j (nth r m []) 0.

(** The grid used for channel j. *)
Definition channel_grid (c : spline_cfg) (grids : list (list R)) (j : nat) (t : list R) : Prop :=
  if parameterize_grid c then nth j grids [] = t
  else make_grid (node_min c) (node_max c) (grid_power c) (nodes c) = Ok t.
