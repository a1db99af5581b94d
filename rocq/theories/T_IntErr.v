(** Property C104: order of convergence of integrate.py. *)
From Coquelicot Require Import Coquelicot.
From Verif Require Import Base BaseFacts S_RFun P_Vec M_Integrate S_Integrate S_IntErr P_Integrate1 P_Integrate2 P_Integrate3 P_Integrate4 T_Integrate.

(** ** C104 *)
(** A rule made for polynomials of degree K has order K + 1 on integrands with K + 1
    derivatives, on any grid with steps at most h. *)
Theorem quadrature_order : forall rule K f d h lo hi M, library_rule rule K -> (2 <= length d)%nat ->
  nondecreasing d -> steps_at_most h d -> lo < first d -> final d < hi ->
  (forall x k, lo < x < hi -> (k <= S K)%nat -> ex_derive_n f k x) ->
  (forall x, first d <= x <= final d -> Rabs (Derive_n f (S K) x) <= M) ->
  exists v, integrate (pointwise f) [d] rule = Ok (A0 v) /\
    Rabs (v - RInt f (first d) (final d)) <= 2 * M / INR (fact (S K)) * (h / 2) ^ S K * (final d - first d).
Proof.
  intros rule K f d h lo hi M H. destruct (library_sound rule K H) as (n & w & S & HK & Hw & Hn & S2).
  apply (composite_order rule n w K); auto. apply S.
Qed.
Print Assumptions quadrature_order.

(** Continuous integrands: the result tends to the integral as the steps tend to 0. *)
Theorem quadrature_converges : forall rule K f a b eps, library_rule rule K -> a <= b ->
  (forall x, a <= x <= b -> continuous f x) -> 0 < eps ->
  exists delta, 0 < delta /\ forall d, (2 <= length d)%nat -> nondecreasing d -> first d = a -> final d = b -> steps_at_most delta d ->
  exists v, integrate (pointwise f) [d] rule = Ok (A0 v) /\ Rabs (v - RInt f a b) < eps.
Proof.
  intros rule K f a b eps H. destruct (library_sound rule K H) as (n & w & S & HK & Hw & Hn & S2).
  apply (composite_small rule n w); auto; [apply S|]. destruct HK as [L HK]. split; auto. intros k Hk. apply HK. lia.
Qed.
Print Assumptions quadrature_converges.

(** Several dimensions: the iterated integral over the box covered by the grids. *)
Theorem quadrature_error_nd : forall rule K ds f F h L, library_rule rule K -> (2 <= length ds)%nat ->
  Forall (fun d => (2 <= length d)%nat /\ nondecreasing d /\ steps_at_most h d) ds ->
  (forall p, length p = length ds -> f p = Ok (A0 (F p))) -> 0 <= L -> lipschitz_box (covered ds) L F ->
  exists v, integrate f ds rule = Ok (A0 v) /\
    Rabs (v - iterated_RInt (covered ds) F) <= INR (length ds) * (L * h * volume (covered ds)).
Proof.
  intros rule K ds f F h L H Hk HD Hf HL HF. destruct (library_sound rule K H) as (n & w & S & HK & Hw & Hn & S2).
  destruct (sound_rules_of _ _ _ ds S) as [rs HR]; [eapply Forall_impl; [|exact HD]; simpl; intros; tauto|].
  exists (iterated rs F). split.
  - apply integrate_nd; auto. intros p Hp. apply Hf. apply Forall2_length in Hp. rewrite Hp. eapply rules_of_length; eauto.
  - apply (iterated_error rule n w K h ds rs); auto.
Qed.
Print Assumptions quadrature_error_nd.

Example quadrature_order_case : exists v, integrate (pointwise exp) [[0; 1; 3]] simpson = Ok (A0 v) /\
  Rabs (v - RInt exp 0 3) <= 2 * exp 3 / INR (fact 4) * (2 / 2) ^ 4 * (3 - 0).
Proof.
  apply (quadrature_order simpson 3 exp [0; 1; 3] 2 (-1) 4 (exp 3)); [apply lib_simpson|simpl; lia|simpl; repeat split; lra|simpl; repeat split; lra|unfold first; simpl; lra|unfold final; simpl; lra| |].
  - intros x k _ _. assert (E : forall k x, Derive_n exp k x = exp x).
    { clear. induction k as [|k IH]; intros x; [reflexivity|]. simpl. rewrite (Derive_ext _ exp) by auto. apply is_derive_unique, is_derive_exp. }
    destruct k as [|k]; [exact I|]. simpl. apply (ex_derive_ext exp); [intros; symmetry; apply E|]. eexists; apply is_derive_exp.
  - intros x [_ Hx]. assert (E : forall k x, Derive_n exp k x = exp x).
    { clear. induction k as [|k IH]; intros x; [reflexivity|]. simpl. rewrite (Derive_ext _ exp) by auto. apply is_derive_unique, is_derive_exp. }
    rewrite E, Rabs_right by (apply Rle_ge, Rlt_le, exp_pos). unfold final in Hx; simpl in Hx.
    destruct Hx as [Hx|Hx]; [apply Rlt_le, exp_increasing; auto|rewrite Hx; lra].
Qed.
Example quadrature_nd_case : lipschitz_box (covered [[0; 1; 2]; [0; 1]]) 1 (fun p => Rabs (nth 0 p 0) + nth 1 p 0) /\
  Forall (fun d => (2 <= length d)%nat /\ nondecreasing d /\ steps_at_most 1 d) [[0; 1; 2]; [0; 1]].
Proof.
  split.
  - intros p q Hp Hq. inversion Hp as [|? x ? ? H1 Hp1]; subst. inversion Hp1 as [|? y ? ? H2 Hp2]; subst. inversion Hp2; subst.
    inversion Hq as [|? x' ? ? H3 Hq1]; subst. inversion Hq1 as [|? y' ? ? H4 Hq2]; subst. inversion Hq2; subst.
    unfold sumR. simpl. rewrite Rmult_1_l, Rplus_0_r.
    replace (Rabs x + y - (Rabs x' + y')) with ((Rabs x - Rabs x') + (y - y')) by ring.
    eapply Rle_trans; [apply Rabs_triang|]. apply Rplus_le_compat_r, Rabs_triang_inv2.
  - repeat constructor; simpl; try lra; lia.
Qed.
