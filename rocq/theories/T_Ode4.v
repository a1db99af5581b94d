(** Property C105, continued: order four of rk4 on autonomous systems. *)
From Coquelicot Require Import Coquelicot.
From Verif Require Import Base M_Tree M_Ode S_Integrate S_Ode S_OdeErr S_Ode4 P_Ode4.

(** ** C105 *)
(** The constant K depends on the right-hand side and the solution on [t0, T] only. *)
Theorem odeint_rk4_order_four : forall sh df f M sol t0 T B, components sh df f -> four_derivatives sh f M -> (forall t, shape (sol t) = sh) ->
  solves sh df sol t0 T B -> exists K, 0 <= K /\ forall ts h e0 y,
  nondecreasing (t0 :: ts) -> steps_at_most h (t0 :: ts) -> 0 <= h <= 1 -> final (t0 :: ts) <= T ->
  shape y = sh -> close e0 y (sol t0) ->
  exists ys, odeint df y (t0 :: ts) rk4 = Ok ys /\ forall n t, nth_error (t0 :: ts) n = Some t ->
    close (exp (INR (length (positions sh)) * M * (t - t0)) * (e0 + K * h ^ 4 * (t - t0))) (nth n ys []) (sol t).
Proof. exact rk4_fourth_order. Qed.
Print Assumptions odeint_rk4_order_four.

(** y' = sin y with the solution 2 atan (exp t) *)
Definition sine_ode : dynamics := fun y _ => Ok (map (map sin) y).
Definition is0 (p : pos) : bool := (Nat.eqb (fst p) 0 && Nat.eqb (snd p) 0)%bool.
Lemma gradient1 (b : bool) (phi psi : R -> R) : (forall x, is_derive phi x (psi x)) ->
  has_gradient [1%nat] (fun y => if b then phi (at_pos y (0, 0)%nat) else 0) (fun q y => if (b && is0 q)%bool then psi (at_pos y (0, 0)%nat) else 0).
Proof.
  intros H c v t _ Hv. unfold over, positions, sumR. cbn -[at_pos is0]. destruct b; cbn [andb].
  - change (is0 (0, 0)%nat) with true. cbn beta iota.
    replace (psi (at_pos (c t) (0, 0)%nat) * v (0, 0)%nat + 0) with (v (0, 0)%nat * psi (at_pos (c t) (0, 0)%nat)) by ring.
    apply (is_derive_comp phi (fun s => at_pos (c s) (0, 0)%nat)); auto.
  - replace (0 * v (0, 0)%nat + 0) with 0 by ring. apply @is_derive_const.
Qed.
Example fourth_order_case : components [1%nat] sine_ode (fun p y => if is0 p then sin (at_pos y (0, 0)%nat) else 0) /\
  four_derivatives [1%nat] (fun p y => if is0 p then sin (at_pos y (0, 0)%nat) else 0) 1 /\
  solves [1%nat] sine_ode (fun t => [[2 * atan (exp t)]]) 0 1 1.
Proof.
  split; [|split].
  - intros y t Sy. destruct y as [|[|a [|]] [|]]; try discriminate Sy. eexists. split; [reflexivity|]. split; [reflexivity|].
    intros [[|i] [|j]]; unfold at_pos, entry; cbn; auto; try (destruct j; reflexivity); destruct i; cbn; auto; destruct j; auto.
  - exists (fun p q y => if (is0 p && is0 q)%bool then cos (at_pos y (0, 0)%nat) else 0),
      (fun p q r y => if (is0 p && is0 q && is0 r)%bool then - sin (at_pos y (0, 0)%nat) else 0),
      (fun p q r l y => if (is0 p && is0 q && is0 r && is0 l)%bool then - cos (at_pos y (0, 0)%nat) else 0),
      (fun p q r l m y => if (is0 p && is0 q && is0 r && is0 l && is0 m)%bool then sin (at_pos y (0, 0)%nat) else 0).
    split; [intros; apply (gradient1 _ sin cos); intros; apply is_derive_sin|].
    split; [intros; apply (gradient1 _ cos (fun x => - sin x)); intros; apply is_derive_cos|].
    split; [intros; apply (gradient1 _ (fun x => - sin x) (fun x => - cos x)); intros; auto_derive; auto; ring|].
    split; [intros; apply (gradient1 _ (fun x => - cos x) sin); intros; auto_derive; auto; ring|].
    split; [intros p q r y _; destruct (is0 p), (is0 q), (is0 r); reflexivity|].
    assert (S1 : forall x, Rabs (sin x) <= 1) by (intros x; apply Rabs_le; apply SIN_bound).
    assert (C1 : forall x, Rabs (cos x) <= 1) by (intros x; apply Rabs_le; apply COS_bound).
    intros p q r l m y _. repeat split; match goal with |- context [if ?b then _ else _] => destruct b end;
      rewrite ?Rabs_R0, ?Rabs_Ropp; auto; lra.
  - intros t Ht. split; [reflexivity|]. eexists. split; [reflexivity|].
    assert (S1 : forall x, Rabs (sin x) <= 1) by (intros x; apply Rabs_le; apply SIN_bound).
    intros [|[|i]] [|[|j]]; unfold entry; cbn [nth map]; try (split; [apply @is_derive_const|rewrite Rabs_R0; lra]).
    split; [|apply S1].
    replace (sin (2 * atan (exp t))) with (2 * (exp t * (1 / (1 + exp t ^ 2)))).
    + auto_derive; auto. field. pose proof (exp_pos t). nra.
    + rewrite sin_2a, sin_atan, cos_atan. pose proof (exp_pos t) as P. unfold Rsqr.
      assert (Q : 0 < 1 + exp t * exp t) by nra.
      pose proof (sqrt_sqrt (1 + exp t * exp t) ltac:(lra)) as W. assert (sqrt (1 + exp t * exp t) <> 0) by (apply Rgt_not_eq, sqrt_lt_R0; auto).
      replace (1 + exp t ^ 2) with (sqrt (1 + exp t * exp t) * sqrt (1 + exp t * exp t)) by (rewrite W; ring). field. auto.
Qed.
