(** Properties C40-C43: ode.py. *)
From Coquelicot Require Import Coquelicot.
From Verif Require Import Base M_Tree M_Ode S_Integrate S_Ode P_Ode.

(** ** C40 *)
Theorem odeint_output_structure : forall df y ts method ys, odeint df y ts method = Ok ys ->
  length ys = length ts /\ nth 0 ys [] = y /\ Forall (fun z => same_shape z y) ys.
Proof. exact odeint_structure. Qed.
Print Assumptions odeint_output_structure.
Theorem odeint_causal : forall df y t0 pre post method ys, odeint df y (t0 :: pre ++ post) method = Ok ys ->
  odeint df y (t0 :: pre) method = Ok (firstn (S (length pre)) ys).
Proof. exact odeint_prefix. Qed.
Print Assumptions odeint_causal.
Theorem odeint_restarts : forall df y t0 pre t post method ys, odeint df y (t0 :: pre ++ t :: post) method = Ok ys ->
  odeint df (nth (S (length pre)) ys []) (t :: post) method = Ok (skipn (S (length pre)) ys).
Proof. exact odeint_restart. Qed.
Print Assumptions odeint_restarts.
Theorem odeint_empty_ts : forall df y method, odeint df y [] method = Err IndexError.
Proof. reflexivity. Qed.
Print Assumptions odeint_empty_ts.
(** dynamics that return another number of leaves *)
Theorem odeint_structure_mismatch : forall df y t0 t ts k, df y t = Ok k -> length k <> length y ->
  odeint df y (t0 :: t :: ts) rk4 = Err ValueError /\ odeint df y (t0 :: t :: ts) explicit_euler = Err ValueError.
Proof. exact odeint_mismatch. Qed.
Print Assumptions odeint_structure_mismatch.
Example odeint_structure_mismatch_example : odeint (fun _ _ => Ok [[1]]) [[1]; [2]] [0; 1] rk4 = Err ValueError.
Proof. apply (odeint_structure_mismatch (fun _ _ => Ok [[1]]) [[1]; [2]] 0 1 [] [[1]]); [reflexivity|discriminate]. Qed.
Example odeint_structure_example :
  odeint (linear_ode 2) [[1]; [3; -1]] [0; 1; 2] explicit_euler = Ok [[[1]; [3; -1]]; [[1 + (1 - 0) * (2 * 1)]; [3 + (1 - 0) * (2 * 3); -1 + (1 - 0) * (2 * -1)]];
    [[1 + (1 - 0) * (2 * 1) + (2 - 1) * (2 * (1 + (1 - 0) * (2 * 1)))];
     [3 + (1 - 0) * (2 * 3) + (2 - 1) * (2 * (3 + (1 - 0) * (2 * 3))); -1 + (1 - 0) * (2 * -1) + (2 - 1) * (2 * (-1 + (1 - 0) * (2 * -1)))]]].
Proof. reflexivity. Qed.

(** ** C41 *)
Theorem rk4_exact_for_cubics : forall q y t dt,
  map (@length (list R)) q = shape y -> (forall i j, (length (nth j (nth i q []) []) <= 4)%nat) ->
  exists r, rk4 (poly_ode q) y t dt = Ok r /\ same_shape r y /\
    forall i j, entry r i j = entry y i j + RInt (peval (nth j (nth i q []) [])) t (t + dt).
Proof. exact rk4_poly. Qed.
Print Assumptions rk4_exact_for_cubics.
Theorem rk4_amplification : forall lam y t dt,
  rk4 (linear_ode lam) y t dt = Ok (map (map (fun v => rk4_factor (lam * dt) * v)) y).
Proof. exact rk4_linear. Qed.
Print Assumptions rk4_amplification.
Theorem euler_amplification : forall lam y t dt,
  explicit_euler (linear_ode lam) y t dt = Ok (map (map (fun v => (1 + lam * dt) * v)) y).
Proof. exact euler_linear. Qed.
Print Assumptions euler_amplification.
Theorem constant_rhs_exact : forall df y t dt k, same_shape k y -> (forall z s, same_shape z y -> df z s = Ok k) ->
  exists r, rk4 df y t dt = Ok r /\ explicit_euler df y t dt = Ok r /\ same_shape r y /\
    forall i j, entry r i j = entry y i j + dt * entry k i j.
Proof. exact constant_exact. Qed.
Print Assumptions constant_rhs_exact.
Theorem equilibria_fixed : forall df y t dt k, same_shape k y -> (forall i j, entry k i j = 0) -> (forall s, df y s = Ok k) ->
  rk4 df y t dt = Ok y /\ explicit_euler df y t dt = Ok y.
Proof. exact equilibrium_fixed. Qed.
Print Assumptions equilibria_fixed.
Example rk4_cubic_example : map (@length (list R)) [[[1; 2; 3; 4]; [5]]; [[0; 0; 0; 1]]] = shape [[7; 8]; [9]].
Proof. reflexivity. Qed.
Example equilibrium_example : forall s, poly_ode [[[]; []]] [[1; 2]] s = Ok [[0; 0]].
Proof. reflexivity. Qed.

(** ** C42 *)
(** The step is started at the new time: y' = t on [0,1] gives 3/2 instead of 1/2. *)
Theorem odeint_exact_for_cubics_refuted : exists q y ts ys,
  map (@length (list R)) q = shape y /\ (forall i j, (length (nth j (nth i q []) []) <= 4)%nat) /\
  odeint (poly_ode q) y ts rk4 = Ok ys /\
  exists k i j, (k < length ts)%nat /\
    entry (nth k ys []) i j <> entry y i j + RInt (peval (nth j (nth i q []) [])) (nth 0 ts 0) (nth k ts 0).
Proof. exact odeint_time_refuted. Qed.
Print Assumptions odeint_exact_for_cubics_refuted.
(** On a uniform grid the result is the integral over the interval shifted by one step. *)
Theorem odeint_exact_for_cubics_partial : forall q y t0 h n,
  map (@length (list R)) q = shape y -> (forall i j, (length (nth j (nth i q []) []) <= 4)%nat) ->
  exists ys, odeint (poly_ode q) y (uniform_grid t0 h (S n)) rk4 = Ok ys /\
  forall k i j, (k <= n)%nat ->
    entry (nth k ys []) i j = entry y i j + RInt (peval (nth j (nth i q []) [])) (t0 + h) (t0 + INR k * h + h).
Proof. exact odeint_shifted. Qed.
Print Assumptions odeint_exact_for_cubics_partial.

(** ** C43 *)
Theorem odeint_rk4_autonomous : forall df y ts ss, autonomous df -> length ts = length ss ->
  (forall i, (S i < length ts)%nat -> nth (S i) ts 0 - nth i ts 0 = nth (S i) ss 0 - nth i ss 0) ->
  odeint df y ts rk4 = odeint df y ss rk4.
Proof. exact odeint_rk4_widths. Qed.
Print Assumptions odeint_rk4_autonomous.
Theorem odeint_euler_autonomous : forall df y ts ss, autonomous df -> length ts = length ss ->
  (forall i, (S i < length ts)%nat -> nth (S i) ts 0 - nth i ts 0 = nth (S i) ss 0 - nth i ss 0) ->
  odeint df y ts explicit_euler = odeint df y ss explicit_euler.
Proof. exact odeint_euler_widths. Qed.
Print Assumptions odeint_euler_autonomous.
Theorem odeint_rk4_stable : forall lam y ts, ts <> [] ->
  (forall i, (S i < length ts)%nat -> - (5 / 2) <= lam * (nth (S i) ts 0 - nth i ts 0) <= 0) ->
  exists ys, odeint (linear_ode lam) y ts rk4 = Ok ys /\
    forall n i j, (S n < length ts)%nat -> Rabs (entry (nth (S n) ys []) i j) <= Rabs (entry (nth n ys []) i j).
Proof. exact odeint_decay. Qed.
Print Assumptions odeint_rk4_stable.
Theorem odeint_euler_stable : forall lam y ts, ts <> [] ->
  (forall i, (S i < length ts)%nat -> - 2 <= lam * (nth (S i) ts 0 - nth i ts 0) <= 0) ->
  exists ys, odeint (linear_ode lam) y ts explicit_euler = Ok ys /\
    forall n i j, (S n < length ts)%nat -> Rabs (entry (nth (S n) ys []) i j) <= Rabs (entry (nth n ys []) i j).
Proof. exact odeint_euler_decay. Qed.
Print Assumptions odeint_euler_stable.
Theorem rk4_factor_near_exp : forall z, Rabs z <= 1 -> Rabs (rk4_factor z - exp z) <= Rabs z ^ 5 / 100.
Proof. exact rk4_factor_exp. Qed.
Print Assumptions rk4_factor_near_exp.
(** Fourth order convergence to the exact solution of y' = lambda y, y(t0) = y. *)
Theorem odeint_rk4_fourth_order : forall lam h y n, Rabs (lam * h) <= 1 -> forall t0, exists ys,
  odeint (linear_ode lam) y (uniform_grid t0 h (S n)) rk4 = Ok ys /\
  forall k i j, (k <= n)%nat ->
    Rabs (entry (nth k ys []) i j - exp (lam * (INR k * h)) * entry y i j) <=
    Rabs (lam * (INR k * h)) * exp (Rabs (lam * (INR k * h))) * (Rabs (lam * h) ^ 4 / 100) * Rabs (entry y i j).
Proof. exact odeint_linear_error. Qed.
Print Assumptions odeint_rk4_fourth_order.
Example autonomous_example : autonomous (linear_ode 3).
Proof. intros y s t. reflexivity. Qed.
Example stable_example : forall i, (S i < length [0; 1; 2])%nat -> - (5 / 2) <= -2 * (nth (S i) [0; 1; 2] 0 - nth i [0; 1; 2] 0) <= 0.
Proof. intros [|[|i]] H; simpl in *; try lia; lra. Qed.
