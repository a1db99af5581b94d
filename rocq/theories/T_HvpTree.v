(** Property theorems for the Hessian vector products of calc.py on pytrees (C111). *)
From Coquelicot Require Import Coquelicot.
From Verif Require Import Base BaseFacts P_Vec M_Tensor M_Calc M_HvpTree S_Calc S_Jac S_HvpTree P_AD P_Calc P_HvpTree T_Calc.
Import ListNotations.
Open Scope R_scope.

Theorem hvp_of_trees sh shs D F phi ps vs : openset (sizes_ (sh :: shs)) D -> C2 (sizes_ (sh :: shs)) D phi ->
  computesL (sh :: shs) D F phi -> map shapes ps = sh :: shs -> map shapes vs = sh :: shs -> D (flatss ps) ->
  exists a, hvpL F ps vs = Ok a /\ shapes a = sh /\
    flats a = map (hv_ (sizes_ (sh :: shs)) phi (flatss ps) (flatss vs)) (seq 0 (size_ sh)).
Proof. exact (hvpL_ok sh shs D F phi ps vs). Qed.
Print Assumptions hvp_of_trees.

Theorem forward_over_reverse_of_trees sh shs D phi aux vag has_aux F ps vs (alpha : option R) :
  openset (sizes_ (sh :: shs)) D -> C2 (sizes_ (sh :: shs)) D phi ->
  objectiveL sh shs D phi aux vag has_aux F -> map shapes ps = sh :: shs -> map shapes vs = sh :: shs -> D (flatss ps) ->
  exists a, hvp_forL F ps vs alpha vag has_aux = Ok a /\ shapes a = sh /\
    flats a = map (fun i => hv_ (sizes_ (sh :: shs)) phi (flatss ps) (flatss vs) i
                            + match alpha with Some r => r * nth i (flatss vs) 0 | None => 0 end) (seq 0 (size_ sh)).
Proof. exact (hvp_forL_ok sh shs D phi aux vag has_aux F ps vs alpha). Qed.
Print Assumptions forward_over_reverse_of_trees.

Theorem reverse_over_reverse_of_tree sh D phi aux vag has_aux F x v : openset (size_ sh) D -> C2 (size_ sh) D phi -> sh <> [] ->
  objectiveL sh [] D phi aux vag has_aux F -> shapes x = sh -> shapes v = sh -> D (flats x) ->
  exists a, hvp_rorL F [x] [v] vag has_aux = Ok a /\ shapes a = sh /\
    flats a = map (hv_ (size_ sh) phi (flats x) (flats v)) (seq 0 (size_ sh)).
Proof. exact (hvp_rorL_ok sh D phi aux vag has_aux F x v). Qed.
Print Assumptions reverse_over_reverse_of_tree.

Theorem value_grad_hvp_of_tree sh D phi aux vag (has_aux : bool) F x : openset (size_ sh) D -> C2 (size_ sh) D phi ->
  objectiveL sh [] D phi aux vag has_aux F -> shapes x = sh -> D (flats x) ->
  exists v g lin, value_grad_hvpL F x vag has_aux = Ok ((v, None), g, lin, if has_aux then Some (aux (flats x)) else None) /\
    shape v = [] /\ entry v [] = phi (flats x) /\ shapes g = sh /\ flats g = map (fun i => pd i phi (flats x)) (seq 0 (size_ sh)) /\
    forall w, shapes w = sh -> exists a, lin w = Ok a /\ shapes a = sh /\
      flats a = map (hv_ (size_ sh) phi (flats x) (flats w)) (seq 0 (size_ sh)).
Proof. exact (value_grad_hvpL_ok sh D phi aux vag has_aux F x). Qed.
Print Assumptions value_grad_hvp_of_tree.

Theorem hvp_of_trees_with_other_shapes F G ps vs alpha vag has_aux : map shapes ps <> map shapes vs ->
  hvpL F ps vs = Err TypeError /\ hvp_forL G ps vs alpha vag has_aux = Err TypeError.
Proof. exact (hvp_other_shapes F G ps vs alpha vag has_aux). Qed.
Print Assumptions hvp_of_trees_with_other_shapes.

(** an objective whose result does not fit the options: no aux or gradient although one is announced, or an
    aux that is not announced *)
Theorem objective_does_not_fit_options F x v alpha vag has_aux o : shapes x = shapes v -> F [x] = Ok o ->
  (exists y, o = LVal y /\ (vag = true \/ has_aux = true)) \/ (exists y a, o = LAux y a /\ vag = false /\ has_aux = false) ->
  hvp_forL F [x] [v] alpha vag has_aux = Err TypeError /\ hvp_rorL F [x] [v] vag has_aux = Err TypeError /\
  value_grad_hvpL F x vag has_aux = Err TypeError.
Proof. exact (misfit F x v alpha vag has_aux o). Qed.
Print Assumptions objective_does_not_fit_options.

(** ** the product of all entries, of one scalar in each of two trees *)
Definition two_trees : list (list tensor) := [[tsc 3]; [tsc 4]].
Definition prodF (ps : list (list tensor)) : res tensor := Ok (tsc (xy (flatss ps))).
Lemma hv_xy a b c d : hv_ 2 xy [a; b] [c; d] 0 = d /\ hv_ 2 xy [a; b] [c; d] 1 = c.
Proof.
  assert (P0 : forall x, List.length x = 2%nat -> pd 0 xy x = nth 1 x 0) by (intros x L; apply (pd_xy x L)).
  assert (P1 : forall x, List.length x = 2%nat -> pd 1 xy x = nth 0 x 0) by (intros x L; apply (pd_xy x L)).
  assert (P00 : pd 0 (pd 0 xy) [a; b] = 0).
  { unfold pd at 1. cbn [upd nth]. transitivity (Derive (fun _ => b) a); [apply Derive_ext; intros t; apply P0; reflexivity|apply Derive_const]. }
  assert (P01 : pd 0 (pd 1 xy) [a; b] = 1).
  { unfold pd at 1. cbn [upd nth]. transitivity (Derive (fun t => t) a); [apply Derive_ext; intros t; apply P1; reflexivity|apply Derive_id]. }
  assert (P10 : pd 1 (pd 0 xy) [a; b] = 1).
  { unfold pd at 1. cbn [upd nth]. transitivity (Derive (fun t => t) b); [apply Derive_ext; intros t; apply P0; reflexivity|apply Derive_id]. }
  assert (P11 : pd 1 (pd 1 xy) [a; b] = 0).
  { unfold pd at 1. cbn [upd nth]. transitivity (Derive (fun _ => a) b); [apply Derive_ext; intros t; apply P1; reflexivity|apply Derive_const]. }
  unfold hv_, total. cbn [seq map sumR fold_right nth]. rewrite P00, P01, P10, P11. split; ring.
Qed.
Example hvp_of_trees_case : exists a, hvpL prodF two_trees [[tsc 1]; [tsc 5]] = Ok a /\ shapes a = [[]] /\ flats a = [5].
Proof.
  destruct (hvp_of_trees [[]] [[[]]] pl prodF xy two_trees [[tsc 1]; [tsc 5]]) as (a & E & S & V).
  - exact pl_open.
  - exact xy_C2.
  - intros ps _ _. eexists. split; [reflexivity|]. split; reflexivity.
  - reflexivity.
  - reflexivity.
  - reflexivity.
  - exists a. split; [exact E|]. split; [exact S|]. rewrite V. cbn [size_ map list_sum fold_right size1 indices List.length Nat.add seq].
    f_equal. apply (hv_xy 3 4 1 5).
Qed.
Definition prod_out (sh : list (list nat)) (g : list R -> list tensor) (vag has_aux : bool) (ps : list (list tensor)) : res outL :=
  let v := tsc (xy (flatss ps)) in
  Ok (match vag, has_aux with
      | true, true => LAuxGrad v 7 (g (flatss ps)) | true, false => LGrad v (g (flatss ps))
      | false, true => LAux v 7 | false, false => LVal v end).
Lemma prod_objective sh shs g vag has_aux :
  (forall X, pl X -> shapes (g X) = sh /\ flats (g X) = map (fun i => pd i xy X) (seq 0 (size_ sh))) ->
  objectiveL sh shs pl xy (fun _ => 7%nat) vag has_aux (prod_out sh g vag has_aux).
Proof.
  intros H ps Sp Dp. exists (tsc (xy (flatss ps))). split; [reflexivity|]. split; [reflexivity|].
  destruct vag; [|destruct has_aux; reflexivity]. exists (g (flatss ps)). destruct (H _ Dp) as (H1 & H2).
  split; [exact H1|]. split; [exact H2|]. destruct has_aux; reflexivity.
Qed.
Example forward_over_reverse_of_trees_case vag has_aux : exists F a, hvp_forL F two_trees [[tsc 1]; [tsc 5]] (Some 10) vag has_aux = Ok a /\
  shapes a = [[]] /\ flats a = [15].
Proof.
  exists (prod_out [[]] (fun X => [tsc (pd 0 xy X)]) vag has_aux).
  destruct (forward_over_reverse_of_trees [[]] [[[]]] pl xy (fun _ => 7%nat) vag has_aux
    (prod_out [[]] (fun X => [tsc (pd 0 xy X)]) vag has_aux) two_trees [[tsc 1]; [tsc 5]] (Some 10)) as (a & E & S & V).
  - exact pl_open.
  - exact xy_C2.
  - apply prod_objective. intros X _. split; reflexivity.
  - reflexivity.
  - reflexivity.
  - reflexivity.
  - exists a. split; [exact E|]. split; [exact S|]. rewrite V. cbn [size_ map list_sum fold_right size1 indices List.length Nat.add seq].
    f_equal. change (hv_ 2 xy [3; 4] [1; 5] 0 + 10 * 1 = 15). rewrite (proj1 (hv_xy 3 4 1 5)). ring.
Qed.
(** one tree with a scalar and a vector *)
Definition one_tree : list tensor := [tsc 3; tvec [4]].
Definition one_shapes : list (list nat) := [[]; [1%nat]].
Definition one_grad (X : list R) : list tensor := [tsc (pd 0 xy X); tvec [pd 1 xy X]].
Example reverse_over_reverse_of_tree_case vag has_aux : exists F a, hvp_rorL F [one_tree] [[tsc 1; tvec [5]]] vag has_aux = Ok a /\
  shapes a = one_shapes /\ flats a = [5; 1].
Proof.
  exists (prod_out one_shapes one_grad vag has_aux).
  destruct (reverse_over_reverse_of_tree one_shapes pl xy (fun _ => 7%nat) vag has_aux (prod_out one_shapes one_grad vag has_aux)
    one_tree [tsc 1; tvec [5]]) as (a & E & S & V).
  - exact pl_open.
  - exact xy_C2.
  - discriminate.
  - apply prod_objective. intros X _. split; reflexivity.
  - reflexivity.
  - reflexivity.
  - reflexivity.
  - exists a. split; [exact E|]. split; [exact S|]. rewrite V.
    change ([hv_ 2 xy [3; 4] [1; 5] 0; hv_ 2 xy [3; 4] [1; 5] 1] = [5; 1]).
    rewrite (proj1 (hv_xy 3 4 1 5)), (proj2 (hv_xy 3 4 1 5)). reflexivity.
Qed.
Example value_grad_hvp_of_tree_case vag (has_aux : bool) : exists F v g lin,
  value_grad_hvpL F one_tree vag has_aux = Ok ((v, None), g, lin, if has_aux then Some 7%nat else None) /\ entry v [] = 12 /\ flats g = [4; 3].
Proof.
  exists (prod_out one_shapes one_grad vag has_aux).
  destruct (value_grad_hvp_of_tree one_shapes pl xy (fun _ => 7%nat) vag has_aux (prod_out one_shapes one_grad vag has_aux) one_tree)
    as (v & g & lin & E & _ & Vv & _ & Vg & _).
  - exact pl_open.
  - exact xy_C2.
  - apply prod_objective. intros X _. split; reflexivity.
  - reflexivity.
  - reflexivity.
  - exists v, g, lin. split; [exact E|]. rewrite Vv, Vg. change (flats one_tree) with [3; 4]. split; [unfold xy; cbn [nth]; ring|].
    change ([pd 0 xy [3; 4]; pd 1 xy [3; 4]] = [4; 3]). destruct (pd_xy [3; 4] eq_refl) as (-> & ->). reflexivity.
Qed.
Example hvp_of_trees_with_other_shapes_case : hvpL prodF two_trees [[tsc 1; tsc 5]] = Err TypeError.
Proof. apply (hvp_of_trees_with_other_shapes prodF (prod_out [[]] (fun _ => []) true true) _ _ None true true). discriminate. Qed.
Example objective_does_not_fit_options_case :
  value_grad_hvpL (fun _ => Ok (LVal (tsc 1))) one_tree false true = Err TypeError.
Proof. apply (objective_does_not_fit_options (fun _ => Ok (LVal (tsc 1))) one_tree one_tree None false true (LVal (tsc 1))); eauto 6. Qed.
