(** Specification vocabulary for ode.py. *)
From Verif Require Import Base M_Tree M_Ode S_Integrate.

Definition same_shape (s t : tree) : Prop := shape s = shape t.

(** Entry j of leaf i. *)
Definition entry (t : tree) (i j : nat) : R := nth j (nth i t []) 0.

(** The dynamics y' = lambda y. *)
Definition linear_ode (lam : R) : dynamics := fun y _ => Ok (map (map (fun v => lam * v)) y).
(** The dynamics y' = q(t) with a polynomial for every entry of the state. *)
Definition poly_ode (q : list (list (list R))) : dynamics := fun _ t => Ok (map (map (fun c => peval c t)) q).

(** Times t0, t0+h, t0+2h, ... *)
Definition uniform_grid (t0 h : R) (n : nat) : list R := map (fun i => t0 + INR i * h) (seq 0 n).

(** Amplification factor of the rk4 scheme. *)
Definition rk4_factor (z : R) : R := 1 + z + z ^ 2 / 2 + z ^ 3 / 6 + z ^ 4 / 24.

Definition autonomous (df : dynamics) : Prop := forall y s t, df y s = df y t.
