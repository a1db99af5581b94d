(** Specification of the example notebooks. *)
From Coquelicot Require Import Coquelicot.
From Verif Require Import Base M_Tensor S_Calc.

(** the open ball and the points beyond the closed ball of radius [r] about [c] *)
Definition in_ball (r : R) (c x : R * R * R) : Prop :=
  let '(c1, c2, c3) := c in let '(x1, x2, x3) := x in
  (x1 - c1) ^ 2 + (x2 - c2) ^ 2 + (x3 - c3) ^ 2 < r ^ 2.
Definition off_ball (r : R) (c x : R * R * R) : Prop :=
  let '(c1, c2, c3) := c in let '(x1, x2, x3) := x in
  r ^ 2 < (x1 - c1) ^ 2 + (x2 - c2) ^ 2 + (x3 - c3) ^ 2.
(** the wedge of the open mouth *)
Definition in_mouth (x : R * R * R) : Prop := let '(x1, x2, x3) := x in 9 / 5 * Rabs x3 < x1.
Definition off_mouth (x : R * R * R) : Prop := let '(x1, x2, x3) := x in x1 < 9 / 5 * Rabs x3.
(** head without mouth, two eyes, two balls in front of the mouth *)
Definition in_pacman (x : R * R * R) : Prop :=
  (in_ball 1 (0, 0, 0) x /\ off_mouth x) \/
  in_ball (1 / 4) (2 / 5, - (1 / 2), 3 / 5) x \/ in_ball (1 / 4) (2 / 5, 1 / 2, 3 / 5) x \/
  in_ball (3 / 20) (1, 0, 0) x \/ in_ball (3 / 20) (2, 0, 0) x.
Definition off_pacman (x : R * R * R) : Prop :=
  (off_ball 1 (0, 0, 0) x \/ in_mouth x) /\
  off_ball (1 / 4) (2 / 5, - (1 / 2), 3 / 5) x /\ off_ball (1 / 4) (2 / 5, 1 / 2, 3 / 5) x /\
  off_ball (3 / 20) (1, 0, 0) x /\ off_ball (3 / 20) (2, 0, 0) x.

(** the unit square *)
Definition in_square (x : list R) : Prop := exists a b, x = [a; b] /\ 0 < a < 1 /\ 0 < b < 1.
Definition on_square (x : list R) : Prop :=
  exists a b, x = [a; b] /\ 0 <= a <= 1 /\ 0 <= b <= 1 /\ (a = 0 \/ a = 1 \/ b = 0 \/ b = 1).

(** the objective of the ridge regression of [laplace u = laplace g] at the points [X] *)
Definition ridge_objective (X : list tensor) (l2 : R) (g : list R -> R) (u : list R -> R) (q : list R) : R :=
  sumR (map (fun x => (lap_ 2 u (tlist x) - lap_ 2 g (tlist x)) ^ 2) X) + l2 * sumR (map (fun e => e ^ 2) q).

(** the smooth points of the surface of pacman *)
Definition on_ball (r : R) (c x : R * R * R) : Prop :=
  let '(c1, c2, c3) := c in let '(x1, x2, x3) := x in
  (x1 - c1) ^ 2 + (x2 - c2) ^ 2 + (x3 - c3) ^ 2 = r ^ 2.
Definition on_mouth (x : R * R * R) : Prop := let '(x1, x2, x3) := x in x1 = 9 / 5 * Rabs x3 /\ x3 <> 0.
Definition balls : list (R * (R * R * R)) :=
  [(1 / 4, (2 / 5, - (1 / 2), 3 / 5)); (1 / 4, (2 / 5, 1 / 2, 3 / 5)); (3 / 20, (1, 0, 0)); (3 / 20, (2, 0, 0))].
Definition smooth_pacman (x : R * R * R) : Prop :=
  (((on_ball 1 (0, 0, 0) x /\ off_mouth x) \/ (in_ball 1 (0, 0, 0) x /\ on_mouth x)) /\
     forall b, In b balls -> off_ball (fst b) (snd b) x) \/
  ((off_ball 1 (0, 0, 0) x \/ in_mouth x) /\
     exists b, In b balls /\ on_ball (fst b) (snd b) x /\
       forall c, In c balls -> c <> b -> off_ball (fst c) (snd c) x).
