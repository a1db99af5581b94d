(** Properties: additional arguments of integrate, integrate_disk and integrate_sphere. *)
From Coq Require Import String.
From Coquelicot Require Import Coquelicot.
From Verif Require Import Base BaseFacts M_Integrate S_Integrate M_IntArgs S_IntArgs P_IntArgs T_Integrate.
Open Scope string_scope.

(** integrate passes the additional arguments on, except f, domain and method *)
Theorem integrate_arguments f ds args kw q : NoDup (names kw) -> avoids ["f"; "domain"] kw -> method_of kw q ->
  integrate_py f ds args kw = integrate (fun x => f x args (without ["method"] kw)) ds q.
Proof. exact (integrate_call f ds args kw q). Qed.
Print Assumptions integrate_arguments.

(** integrate_disk: the first three additional positional arguments are r_inner, phi1 and phi2 *)
Theorem disk_arguments_partial f r o n args kw ri p1 p2 q : NoDup (names kw) -> avoids ["f"; "r"; "o"; "n"; "u"; "domain"] kw -> method_of kw q ->
  bound args kw 0 "r_inner" (Val (A0 0)) (Val (A0 ri)) -> bound args kw 1 "phi1" (Val (A0 0)) (Val (A0 p1)) ->
  bound args kw 2 "phi2" (Val (A0 (2 * PI))) (Val (A0 p2)) ->
  integrate_disk_py f r o n args kw =
  integrate_disk (fun p => f p (skipn 3 args) (without ["r_inner"; "phi1"; "phi2"; "method"] kw)) r o n ri p1 p2 q.
Proof. exact (disk_call f r o n args kw ri p1 p2 q). Qed.
Print Assumptions disk_arguments_partial.

Theorem sphere_arguments_partial f r o n args kw ri p1 p2 t1 t2 q : NoDup (names kw) -> avoids ["f"; "r"; "o"; "n"; "t"; "domain"] kw -> method_of kw q ->
  bound args kw 0 "r_inner" (Val (A0 0)) (Val (A0 ri)) -> bound args kw 1 "phi1" (Val (A0 0)) (Val (A0 p1)) ->
  bound args kw 2 "phi2" (Val (A0 PI)) (Val (A0 p2)) -> bound args kw 3 "theta1" (Val (A0 0)) (Val (A0 t1)) ->
  bound args kw 4 "theta2" (Val (A0 (2 * PI))) (Val (A0 t2)) ->
  integrate_sphere_py f r o n args kw =
  integrate_sphere (fun p => f p (skipn 5 args) (without ["r_inner"; "phi1"; "phi2"; "theta1"; "theta2"; "method"] kw)) r o n ri p1 p2 t1 t2 q.
Proof. exact (sphere_call f r o n args kw ri p1 p2 t1 t2 q). Qed.
Print Assumptions sphere_arguments_partial.

(** a limit given by position and by keyword *)
Theorem limits_given_twice :
  (forall f r o n args kw i name v, nth_error ["r_inner"; "phi1"; "phi2"] i = Some name -> (i < length args)%nat -> In name (names kw) ->
   integrate_disk_py f r o n args kw <> Ok v) /\
  (forall f r o n args kw i name v, nth_error ["r_inner"; "phi1"; "phi2"; "theta1"; "theta2"] i = Some name -> (i < length args)%nat ->
   In name (names kw) -> integrate_sphere_py f r o n args kw <> Ok v).
Proof. exact (conj disk_twice sphere_twice). Qed.
Print Assumptions limits_given_twice.

(** A keyword argument of the integrand with the name of a parameter of the inner function
    (u, t) or of integrate (domain) makes every call fail, whatever the integrand is *)
Theorem keyword_arguments_refuted :
  (forall f r o n args kw name v, In name ["f"; "r"; "o"; "n"; "u"; "domain"] -> In name (names kw) -> integrate_disk_py f r o n args kw <> Ok v) /\
  (forall f r o n args kw name v, In name ["f"; "r"; "o"; "n"; "t"; "domain"] -> In name (names kw) -> integrate_sphere_py f r o n args kw <> Ok v).
Proof. exact (conj disk_reserved sphere_reserved). Qed.
Print Assumptions keyword_arguments_refuted.

(** an integrand that needs a positional argument fails unless all limits are given before it *)
Theorem positional_arguments_refuted :
  (forall f r o n args kw v, (length args <= 3)%nat -> (forall p k, exists e, f p [] k = Err e) -> integrate_disk_py f r o n args kw <> Ok v) /\
  (forall f r o n args kw v, (length args <= 5)%nat -> (forall p k, exists e, f p [] k = Err e) -> integrate_sphere_py f r o n args kw <> Ok v).
Proof. exact (conj disk_swallow sphere_swallow). Qed.
Print Assumptions positional_arguments_refuted.

(** ** Examples *)
(** [lambda x, a, b: a * x[0] ** 2 + b * x[1]] (integrate.py:95-103) *)
Definition doc_f : integrand := fun x args kw =>
  match args, lookup "b" kw with
  | [Val (A0 a)], Some (Val (A0 b)) => Ok (A0 (a * nth 0 x 0 ^ 2 + b * nth 1 x 0))
  | _, _ => Err TypeError
  end.
Definition gauss2 : quadrule := gauss [- (1 / sqrt 3); 1 / sqrt 3] [1; 1].
Example doc_parameters a b : integrate_py doc_f [[-1; 1]; [0; 1]] [Val (A0 a)] [("method", Rule gauss2); ("b", Val (A0 b))] =
  Ok (A0 (2 / 3 * a + b)).
Proof.
  rewrite (integrate_arguments _ _ _ _ gauss2).
  - change (without ["method"] [("method", Rule gauss2); ("b", Val (A0 b))]) with [("b", Val (A0 b))].
    destruct (integrate_is_iterated gauss2 3 [[-1; 1]; [0; 1]] (fun x => doc_f x [Val (A0 a)] [("b", Val (A0 b))]) (fun x => a * nth 0 x 0 ^ 2 + b * nth 1 x 0))
      as (rs & HR & ->).
    + assert (Hs : 0 < sqrt 3) by (apply sqrt_lt_R0; lra). assert (H1 : 1 <= sqrt 3) by (rewrite <- sqrt_1; apply sqrt_le_1_alt; lra).
      assert (H2 : 0 < 1 / sqrt 3 <= 1).
      { split; [apply Rdiv_lt_0_compat; lra|]. apply (Rmult_le_reg_r (sqrt 3)); [exact Hs|]. field_simplify; lra. }
      apply lib_gauss; [exact gauss2_reference|apply Forall_cons; [lra|apply Forall_cons; [lra|constructor]]|apply Forall_cons; [lra|apply Forall_cons; [lra|constructor]]].
    + cbn. lia.
    + repeat constructor.
    + intros p _. reflexivity.
    + inversion HR as [|? r1 ? ? E1 HR2]; subst. inversion HR2 as [|? r2 ? ? E2 HR3]; subst. inversion HR3; subst.
      injection E1 as <-. injection E2 as <-. do 2 f_equal. unfold adjacent, sumR. simpl. unfold sumR. simpl.
      assert (Hs : 0 < sqrt 3) by (apply sqrt_lt_R0; lra). assert (Hq : sqrt 3 ^ 2 = 3) by (rewrite <- Rsqr_pow2; apply Rsqr_sqrt; lra).
      match goal with |- ?l = _ => replace l with (2 * a / sqrt 3 ^ 2 + b) by (field; lra) end. rewrite Hq. field.
  - repeat constructor; cbn; intuition discriminate.
  - intros n Hn C. cbn in Hn, C. intuition (subst; discriminate).
  - left. left. reflexivity.
Qed.
(** an integrand with a parameter named u, and one with a positional parameter *)
Definition with_u : integrand := fun x args kw =>
  match lookup "u" kw with Some (Val (A0 c)) => Ok (A0 c) | _ => Err TypeError end.
Definition with_a : integrand := fun x args kw =>
  match args with [Val (A0 c)] => Ok (A0 c) | _ => Err TypeError end.
Example with_u_disk v : with_u [0; 0] [] [("u", Val (A0 1))] = Ok (A0 1) /\ integrate_disk_py with_u 1 [0; 0] (NInt 20) [] [("u", Val (A0 1))] <> Ok v.
Proof. split; [reflexivity|]. apply (proj1 keyword_arguments_refuted) with (name := "u"); cbn; auto 10. Qed.
Example with_a_disk v : integrate_disk_py with_a 1 [0; 0] (NInt 20) [Val (A0 7)] [] <> Ok v /\
  integrate_disk_py with_a 1 [0; 0] (NInt 20) [Val (A0 0); Val (A0 0); Val (A0 (2 * PI)); Val (A0 7)] [] = Ok (A0 (7 * PI)).
Proof.
  split; [apply (proj1 positional_arguments_refuted); [cbn; lia|intros; eexists; reflexivity]|].
  rewrite (disk_arguments_partial with_a 1 [0; 0] (NInt 20) _ [] 0 0 (2 * PI) simpson).
  - cbn [skipn]. change (fun p : list R => with_a p [Val (A0 7)] (without ["r_inner"; "phi1"; "phi2"; "method"] [])) with (fun _ : list R => Ok (A0 7)).
    assert (E : forall f, integrate_disk f 1 [0; 0] (NInt 20) 0 0 (2 * PI) simpson = integrate_disk f 1 [0; 0] (NTup [20%nat; 20%nat]) 0 0 (2 * PI) simpson) by reflexivity.
    rewrite E, (integrate_disk_constant simpson 3); [do 2 f_equal; field|exact lib_simpson|lia|lia|lia].
  - constructor.
  - intros m _ [].
  - right. split; [intros []|reflexivity].
  - split; [reflexivity|intros []].
  - split; [reflexivity|intros []].
  - split; [reflexivity|intros []].
Qed.
