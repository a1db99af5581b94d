(** Property C105: convergence of odeint. *)
From Coquelicot Require Import Coquelicot.
From Verif Require Import Base M_Tree M_Ode S_Integrate S_Ode S_OdeErr P_Ode P_Ode2.

(** ** C105 *)
(** Explicit Euler: first order on any grid; an error e0 of the initial state is amplified
    by at most exp(L (t - t0)). *)
Theorem odeint_euler_error : forall sh df sol t0 T B L Lt ts h e0 y, lipschitz_ode sh df L Lt -> 0 <= L -> 0 <= Lt ->
  solves sh df sol t0 T B -> nondecreasing (t0 :: ts) -> steps_at_most h (t0 :: ts) -> 0 <= h -> final (t0 :: ts) <= T ->
  shape y = sh -> close e0 y (sol t0) ->
  exists ys, odeint df y (t0 :: ts) explicit_euler = Ok ys /\ forall n t, nth_error (t0 :: ts) n = Some t ->
    close (exp (L * (t - t0)) * (e0 + (L * B + Lt) * h * (t - t0))) (nth n ys []) (sol t).
Proof. exact euler_error. Qed.
Print Assumptions odeint_euler_error.

(** rk4 converges as well, although odeint hands it the wrong time (C42). *)
Theorem odeint_rk4_error : forall sh df sol t0 T B L Lt ts h e0 y, lipschitz_ode sh df L Lt -> 0 <= L -> 0 <= Lt ->
  solves sh df sol t0 T B -> nondecreasing (t0 :: ts) -> steps_at_most h (t0 :: ts) -> 0 <= h -> L * h <= 1 / 2 -> final (t0 :: ts) <= T ->
  shape y = sh -> close e0 y (sol t0) ->
  exists ys, odeint df y (t0 :: ts) rk4 = Ok ys /\ forall n t, nth_error (t0 :: ts) n = Some t ->
    close (exp (L * (t - t0)) * (e0 + 4 * (L * B + Lt) * h * (t - t0))) (nth n ys []) (sol t).
Proof. exact rk4_error. Qed.
Print Assumptions odeint_rk4_error.

(** With a right-hand side that depends on time the first order is sharp: no bound by
    C h^2 holds for rk4 inside odeint. *)
Theorem odeint_rk4_second_order_refuted : exists df sol, lipschitz_ode [1%nat] df 0 2 /\ solves [1%nat] df sol 0 1 2 /\
  ~ exists C, forall n, exists ys, odeint df (sol 0) (uniform_grid 0 (1 / INR (S n)) (S (S n))) rk4 = Ok ys /\
      Rabs (entry (nth (S n) ys []) 0 0 - entry (sol 1) 0 0) <= C * (1 / INR (S n)) ^ 2.
Proof. exact rk4_not_second_order. Qed.
Print Assumptions odeint_rk4_second_order_refuted.

Example ode_error_case : lipschitz_ode [1%nat] (linear_ode 1) 1 0 /\ solves [1%nat] (linear_ode 1) (fun t => [[exp t]]) 0 1 (exp 1) /\
  nondecreasing [0; 1 / 2; 1] /\ steps_at_most (1 / 2) [0; 1 / 2; 1] /\ 1 * (1 / 2) <= 1 / 2 /\ close (1 / 10) [[11 / 10]] [[exp 0]].
Proof.
  split; [|split; [|split; [|split; [|split]]]].
  - split.
    + intros y s Hy. eexists. split; [reflexivity|]. rewrite <- Hy. unfold shape. rewrite map_map. apply map_ext. intros; apply map_length.
    + intros y z s t k m e _ _ Ek Em Hc. injection Ek as <-. injection Em as <-. intros i j.
      change (map (map (fun v => 1 * v)) y) with (M_Tree.tree_map1 (Rmult 1) y). change (map (map (fun v => 1 * v)) z) with (M_Tree.tree_map1 (Rmult 1) z).
      rewrite !P_Tree.entry_map1 by ring. rewrite !Rmult_1_l. specialize (Hc i j). lra.
  - intros t Ht. split; [reflexivity|]. eexists. split; [reflexivity|].
    assert (exp t <= exp 1) by (apply exp_mono; lra). pose proof (exp_pos t). pose proof (exp_pos 1).
    intros [|[|i]] [|[|j]]; unfold entry; simpl; try (split; [apply @is_derive_const|rewrite Rabs_R0; lra]).
    rewrite Rmult_1_l. split; [apply is_derive_exp|rewrite Rabs_right; lra].
  - simpl; repeat split; lra.
  - simpl; repeat split; lra.
  - lra.
  - intros [|[|i]] [|[|j]]; unfold entry; simpl; rewrite ?exp_0, ?Rminus_diag_eq, ?Rabs_R0 by auto; try lra.
    rewrite Rabs_right; lra.
Qed.
