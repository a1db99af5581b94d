(** Property C104 (continued): order of integrate.py in several dimensions. *)
From Coquelicot Require Import Coquelicot.
From Verif Require Import Base BaseFacts S_RFun P_Vec M_Integrate S_Integrate S_IntErr P_Integrate1 P_Integrate2 P_Integrate3 P_Integrate4 T_Integrate.
From Verif Require Import S_IntOrder P_IntOrder P_SurfErr4.

(** ** C104 *)
Theorem quadrature_order_nd : forall rule K ds f F h M, library_rule rule K -> (2 <= length ds)%nat ->
  Forall (fun d => (2 <= length d)%nat /\ nondecreasing d /\ steps_at_most h d) ds ->
  (forall p, length p = length ds -> f p = Ok (A0 (F p))) -> smooth_box (covered ds) K M F ->
  exists v, integrate f ds rule = Ok (A0 v) /\
    Rabs (v - iterated_RInt (covered ds) F) <=
      INR (length ds) * (2 * M / INR (fact (S K)) * (h / 2) ^ S K * volume (covered ds)).
Proof.
  intros rule K ds f F h M H Hk HD Hf HF. destruct (library_sound rule K H) as (n & w & S & HK & Hw & Hn & S2).
  destruct (sound_rules_of _ _ _ ds S) as [rs HR]; [eapply Forall_impl; [|exact HD]; simpl; intros; tauto|].
  exists (iterated rs F). split.
  - apply integrate_nd; auto. intros p Hp. apply Hf. apply Forall2_length in Hp. rewrite Hp. eapply rules_of_length; eauto.
  - apply (iterated_order rule n w K h ds rs); auto.
Qed.
Print Assumptions quadrature_order_nd.

(** x² y on a rectangle with the trapezoidal rule *)
Example quadrature_order_nd_case : exists v,
  integrate (fun p => Ok (A0 (nth 0 p 0 ^ 2 * nth 1 p 0))) [[0; 1; 2]; [0; 1]] trap = Ok (A0 v) /\
  Rabs (v - RInt (fun x => RInt (fun y => x ^ 2 * y) 0 1) 0 2) <= 2 * (2 * 4 / INR (fact 2) * (1 / 2) ^ 2 * 2).
Proof.
  destruct (quadrature_order_nd trap 1 [[0; 1; 2]; [0; 1]] (fun p => Ok (A0 (nth 0 p 0 ^ 2 * nth 1 p 0)))
    (fun p => nth 0 p 0 ^ 2 * nth 1 p 0) 1 4 lib_trap) as (v & E & B).
  - simpl. lia.
  - repeat constructor; simpl; try lra; lia.
  - auto.
  - unfold covered, first, final. cbn [map hd last].
    apply (smooth_box2 0 2 0 1 (fun x y => x ^ 2 * y) (fun x y => 2 * x * y) (fun x y => x ^ 2) (fun x y => 2 * y) (fun x y => 2 * x)
      (fun x y => 2 * x) (fun x y => 0) 4 4); try lra; try (intros; auto_derive; auto; ring).
    + intros x y Hx Hy. split; apply Rabs_le; nra.
    + intros x y Hx Hy. repeat split; apply Rabs_le; lra.
    + reflexivity.
  - exists v. split; auto. eapply Rle_trans; [|eapply Rle_trans; [exact B|]].
    + apply Req_le. reflexivity.
    + apply Req_le. unfold volume, covered, prodR, first, final. cbn [map hd last fst snd fold_right length]. replace (INR 2) with 2 by (cbn; lra). ring.
Qed.
