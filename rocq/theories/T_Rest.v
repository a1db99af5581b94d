(** Property theorems about default values, auxiliary values, squeezed axes and infinite values. *)
From Coquelicot Require Import Coquelicot.
From Verif Require Import Base M_Tree M_XR M_Tr S_Tr P_Tr4 M_Tensor M_Calc M_HvpTree M_TrFun T_TrFun M_Batch M_Spline S_Spline P_Spline1 P_Spline2 P_Spline3.
Import ListNotations.
Open Scope R_scope.

(** ** spline.py with its default fields and the default coefficients: the activation alone *)
Theorem default_spline_is_activation act x m : x <> [] -> Forall (fun r => length r = m) x ->
  exists ys, spline_call default_spline act (zero_coefs default_spline m) [] x = Ok ys /\
    forall r j, (r < length x)%nat -> (j < length (nth r x []))%nat -> at2 ys r j = act (at2 x r j).
Proof.
  intros Hx Fx. destruct (call_defined default_spline act (zero_coefs default_spline m) x m) as (ys & E); simpl; auto; try lra; try lia.
  - apply repeat_length.
  - apply Forall_forall. intros r Hr. apply repeat_spec in Hr. subst r. reflexivity.
  - exists ys. split; [exact E|]. intros r j Hr Hj. apply (call_zero_coefs _ _ _ _ _ _ _ _ E Hr Hj).
    destruct (nth_in_or_default j (zero_coefs default_spline m) []) as [H|H].
    + apply repeat_spec in H. rewrite H. apply Forall_forall. intros v Hv. exact (repeat_spec _ _ _ Hv).
    + rewrite H. constructor.
Qed.
Print Assumptions default_spline_is_activation.
Example default_spline_is_activation_example : exists ys,
  spline_call default_spline (fun v => v) (zero_coefs default_spline 2) [] [[0; 5]; [-1; 2]] = Ok ys /\ at2 ys 0 1 = 5.
Proof.
  destruct (default_spline_is_activation (fun v => v) [[0; 5]; [-1; 2]] 2) as (ys & E & V); [discriminate|repeat constructor|].
  exists ys. split; [exact E|]. rewrite V by (simpl; lia). reflexivity.
Qed.

(** ** tr.py: different auxiliary values (None included) stay different *)
Theorem tr_aux_distinguished f f' vag vag' has_aux has_aux' x x' v a g v' a' g' r r' lin lin' w w' k :
  value_and_grad_with_aux f vag has_aux x = Ok ((v, a), g) -> value_and_grad_with_aux f' vag' has_aux' x' = Ok ((v', a'), g') ->
  tr_value_grad_hvp f vag has_aux x = Ok ((w, r), g, lin, k) -> tr_value_grad_hvp f' vag' has_aux' x' = Ok ((w', r'), g', lin', k) ->
  a = a'.
Proof.
  intros H H' E E'. destruct (tr_value_grad_hvp_agrees _ _ _ _ _ _ _ H) as (l & L). destruct (tr_value_grad_hvp_agrees _ _ _ _ _ _ _ H') as (l' & L').
  rewrite L in E. rewrite L' in E'. injection E as _ _ _ E. injection E' as _ _ _ E'. rewrite <- E' in E.
  destruct a, a'; cbn in E; congruence.
Qed.
Print Assumptions tr_aux_distinguished.

(** ** domain.py: s.squeeze() reads the only entry along an axis of size 1 *)
Theorem squeeze_row k x : shape x = [1; k]%nat -> k <> 1%nat ->
  shape (squeeze x) = [k] /\ forall i, (i < k)%nat -> entry (squeeze x) [i] = entry x [0; i]%nat.
Proof.
  intros S K. apply Nat.eqb_neq in K. unfold squeeze. rewrite S. cbn. rewrite K. split; [reflexivity|]. intros i _. reflexivity.
Qed.
Print Assumptions squeeze_row.
Theorem squeeze_column k x : shape x = [k; 1]%nat -> k <> 1%nat ->
  shape (squeeze x) = [k] /\ forall i, (i < k)%nat -> entry (squeeze x) [i] = entry x [i; 0]%nat.
Proof.
  intros S K. apply Nat.eqb_neq in K. unfold squeeze. rewrite S. cbn. rewrite K. split; [reflexivity|]. intros i _. reflexivity.
Qed.
Print Assumptions squeeze_column.
Example squeeze_example : entry (squeeze (mkT [1; 2]%nat (fun p => match p with [O; S O] => 7 | _ => 0 end))) [1]%nat = 7.
Proof. destruct (squeeze_row 2 (mkT [1; 2]%nat (fun p => match p with [O; S O] => 7 | _ => 0 end))) as (_ & V); [reflexivity|discriminate|]. rewrite V by lia. reflexivity. Qed.

(** ** tr.py:162-164: where the function is inf everywhere the reduction inf - inf is nan, no step is accepted *)
Theorem infinite_values_rejected A c (f : objective A) x s x' s' : (forall y, fst (fst (vg f y)) = PInf) ->
  min_tr_radius c < tr_radius s -> update c f x s = Ok (x', s') -> x' = x /\ accepted s' = false /\ rho s' = NaN.
Proof.
  intros HI HR HU. destruct (vg f x) as [[v a] g] eqn:Ev. assert (v = PInf) by (generalize (HI x); rewrite Ev; auto). subst v.
  destruct (update_cases c f x s x' s' _ _ _ Ev HU) as [(L & _ & _)|(_ & v1 & a1 & g1 & Ev' & HX)]; [lra|].
  match type of Ev' with vg f ?y = _ => generalize (HI y); rewrite Ev'; cbn [fst]; intros -> end.
  assert (NN : forall d, xdiv (xsub PInf PInf) d = NaN) by (intros d; destruct d; reflexivity).
  rewrite NN in HX. destruct HX as [(G & _)|(_ & -> & ->)]; [discriminate|]. auto.
Qed.
Print Assumptions infinite_values_rejected.
Example infinite_values_example : exists x' s',
  update default_tr (mkObj (fun t => (PInf, tt, t)) (fun _ d => d)) (fin [[1]])
    (init_state default_tr (mkObj (fun t => (PInf, tt, t)) (fun _ d => d)) (fin [[1]]) None) = Ok (x', s') /\ x' = fin [[1]].
Proof.
  destruct (update_total default_tr (mkObj (fun t => (PInf, tt, t)) (fun _ d => d)) (fin [[1]])
    (init_state default_tr (mkObj (fun t => (PInf, tt, t)) (fun _ d => d)) (fin [[1]]) None) ltac:(discriminate)) as (x' & s' & E).
  exists x', s'. split; [exact E|]. refine (proj1 (infinite_values_rejected unit _ _ _ _ _ _ _ _ E)); [reflexivity|simpl; lra].
Qed.
