(** Proofs for the trust region solver on functions of pytrees. *)
From Coquelicot Require Import Coquelicot.
From Verif Require Import Base BaseFacts P_Vec M_Tree M_XR M_Tr S_Tr P_Tree P_Tr1 P_Tr5 M_Tensor M_Surface M_Calc M_HvpTree M_TrFun
  S_Calc S_Model S_Jac S_HvpTree S_TrFun P_Surface1 P_AD P_Calc P_Calc2 P_CalcTree P_Jac P_HvpTree.
Import ListNotations.
Open Scope R_scope.

(** ** leaves as lists *)
Lemma size1_nprod s : size1 s = nprod s.
Proof. unfold size1. rewrite indices_unravel, map_length, seq_length. reflexivity. Qed.
Lemma leaf_list_flatten a : leaf_list a = flatten a.
Proof. apply travel_flatten. Qed.
Lemma leaf_array_ok s l : length l = size1 s -> shape (leaf_array s l) = s /\ flatten (leaf_array s l) = l.
Proof.
  intros L. rewrite size1_nprod in L. split; [reflexivity|]. apply vec_ext; [rewrite flatten_length; auto|].
  rewrite flatten_length. intros k Hk. change (shape (leaf_array s l)) with s in Hk.
  assert (EI : nth_error (indices s) k = Some (unravel s k)).
  { rewrite indices_unravel, nth_error_map. replace (nth_error (seq 0 (nprod s)) k) with (Some k); [reflexivity|].
    symmetry. apply nth_error_seq_0. exact Hk. }
  rewrite (flatten_nth (leaf_array s l) k (unravel s k)) by exact EI.
  unfold leaf_array, treshape. cbn [entry]. rewrite (proj2 (unravel_inside s k Hk)).
  change (entry (tvec l) ?p) with (nth (hd 0%nat p) l 0). f_equal.
  cbn [shape tvec]. destruct (unravel_ravel [length l] [k]) as (E & _).
  - repeat constructor. lia.
  - replace (ravel_idx [length l] [k]) with k in E by (cbn; lia). rewrite E. reflexivity.
Qed.
Lemma arrays_ok sh : forall t, sized sh t -> shapes (arrays sh t) = sh /\ flats (arrays sh t) = concat t.
Proof.
  unfold sized. induction sh as [|s sh IH]; intros [|l t] H; try discriminate; [split; reflexivity|].
  cbn [map] in H. injection H as Hl Ht. destruct (IH t Ht) as (E1 & E2). destruct (leaf_array_ok s l Hl) as (E3 & E4).
  cbn [arrays map2]. fold (arrays sh t). split.
  - cbn [shapes map]. fold (shapes (arrays sh t)). congruence.
  - rewrite flats_cons, E4, E2. reflexivity.
Qed.
Lemma lists_ok g : map (@length R) (lists g) = map size1 (shapes g) /\ concat (lists g) = flats g.
Proof.
  unfold lists, flats, shapes. rewrite !map_map. split.
  - apply map_ext. intros a. rewrite leaf_list_flatten. apply flatten_size.
  - f_equal. apply map_ext. apply leaf_list_flatten.
Qed.
Lemma numbers_fin l : numbers (map Fin l) = Some l.
Proof. induction l as [|a l IH]; [reflexivity|]. cbn [map numbers]. rewrite IH. reflexivity. Qed.
Lemma number_tree_fin t : number_tree (fin t) = Some t.
Proof.
  unfold fin. induction t as [|l t IH]; [reflexivity|]. cbn [map number_tree]. rewrite numbers_fin, IH. reflexivity.
Qed.
Lemma app_inj_len {A} : forall l m s t : list A, length l = length m -> l ++ s = m ++ t -> l = m /\ s = t.
Proof.
  induction l as [|a l IH]; intros [|b m] s t H E; try discriminate; [auto|]. injection H as H. injection E as -> E.
  destruct (IH m s t H E) as (-> & ->). auto.
Qed.
Lemma concat_inj : forall s t : list (list R), map (@length R) s = map (@length R) t -> concat s = concat t -> s = t.
Proof.
  induction s as [|l s IH]; intros [|m t] H E; try discriminate; [reflexivity|]. cbn [map] in H. injection H as Hl Ht.
  cbn [concat] in E. apply app_inj_len in E; [|exact Hl]. destruct E as (-> & E). f_equal. auto.
Qed.
Fixpoint chop (ns : list nat) (l : list R) : list (list R) :=
  match ns with [] => [] | n :: ns => firstn n l :: chop ns (skipn n l) end.
Lemma chop_ok ns : forall l, length l = list_sum ns -> map (@length R) (chop ns l) = ns /\ concat (chop ns l) = l.
Proof.
  induction ns as [|n ns IH]; intros l H; cbn [list_sum fold_right] in H; cbn [chop map concat].
  - destruct l; [auto|discriminate H].
  - change (fold_right Nat.add 0%nat ns) with (list_sum ns) in H.
    destruct (IH (skipn n l)) as (E1 & E2); [rewrite skipn_length; lia|]. rewrite E1, E2, firstn_length, firstn_skipn. split; [f_equal; lia|reflexivity].
Qed.

(** ** value, gradient and Hessian vector products of the objective *)
Lemma sized_length sh t : sized sh t -> length (concat t) = size_ sh.
Proof. unfold sized, size_. intros <-. induction t as [|l t IH]; [reflexivity|].
  cbn [concat map list_sum fold_right]. rewrite app_length, IH. reflexivity. Qed.
Lemma user_objective sh D phi aux vag has_aux f : user_function sh D phi aux vag has_aux f ->
  objectiveL sh [] D phi aux vag has_aux (fun ps => match ps with [x] => f x | _ => Err TypeError end).
Proof.
  intros H ps Sp. destruct ps as [|x [|? ?]]; try discriminate Sp. injection Sp as Sx.
  replace (flatss [x]) with (flats x) by (unfold flatss; cbn [map concat]; symmetry; apply app_nil_r). intros DX. apply (H x Sx DX).
Qed.
Lemma with_aux_ok sh D phi aux vag (has_aux : bool) f x : openset (size_ sh) D -> user_function sh D phi aux vag has_aux f ->
  shapes x = sh -> D (flats x) ->
  exists v g, value_and_grad_with_aux f vag has_aux x = Ok ((v, if has_aux then Some (aux (flats x)) else None), g) /\
    shape v = [] /\ entry v [] = phi (flats x) /\ shapes g = sh /\ flats g = gradient (size_ sh) phi (flats x).
Proof.
  intros HO H Sx DX. destruct (H x Sx DX) as (v & Sv & Vv & E). unfold value_and_grad_with_aux. destruct vag.
  - destruct E as (g & Sg & Fg & E). rewrite E. cbn [bind]. exists v, g. destruct has_aux; auto.
  - rewrite E. cbn [bind].
    destruct (jgradL_ok sh [] D (fun ps => match ps with [x] => o <- f x ;; match o with LVal v | LAux v _ | LGrad v _ | LAuxGrad v _ _ => Ok v end | _ => Err TypeError end) phi x [])
      as (g & Eg & Ig).
    + replace (sizes_ [sh]) with (size_ sh) by (unfold sizes_; cbn; lia). exact HO.
    + intros ps Sp. destruct ps as [|y [|? ?]]; try discriminate Sp. injection Sp as Sy.
      replace (flatss [y]) with (flats y) by (unfold flatss; cbn [map concat]; symmetry; apply app_nil_r). intros DY.
      destruct (H y Sy DY) as (w & Sw & Vw & Ew). rewrite Ew. cbn [bind]. exists w. destruct has_aux; auto.
    + cbn [map]. congruence.
    + replace (flatss [x]) with (flats x) by (unfold flatss; cbn [map concat]; symmetry; apply app_nil_r). exact DX.
    + cbv beta iota in Eg. rewrite Eg. exists v, g.
      replace (flatss [x]) with (flats x) in Ig by (unfold flatss; cbn [map concat]; symmetry; apply app_nil_r).
      split; [destruct has_aux; reflexivity|]. split; [exact Sv|]. split; [exact Vv|]. split; [apply Ig|]. apply is_list_flats. exact Ig.
Qed.
Lemma with_aux_fun_ok sh D phi aux vag (has_aux : bool) f : openset (size_ sh) D -> user_function sh D phi aux vag has_aux f ->
  objectiveL sh [] D phi (fun X => aux_code (if has_aux then Some (aux X) else None)) true true (with_aux_fun f vag has_aux).
Proof.
  intros HO H ps Sp. destruct ps as [|x [|? ?]]; try discriminate Sp. injection Sp as Sx.
  replace (flatss [x]) with (flats x) by (unfold flatss; cbn [map concat]; symmetry; apply app_nil_r). intros DX.
  destruct (with_aux_ok sh D phi aux vag has_aux f x HO H Sx DX) as (v & g & E & Sv & Vv & Sg & Fg).
  exists v. split; [exact Sv|]. split; [exact Vv|]. exists g. split; [exact Sg|]. split; [exact Fg|].
  unfold with_aux_fun. rewrite E. reflexivity.
Qed.
Lemma vg_ok sh D phi aux vag (has_aux : bool) f t : openset (size_ sh) D -> user_function sh D phi aux vag has_aux f ->
  sized sh t -> D (concat t) ->
  exists g, vg (tr_objective f vag has_aux sh) (fin t) = (Fin (phi (concat t)), if has_aux then Some (aux (concat t)) else None, fin g) /\
    sized sh g /\ concat g = gradient (size_ sh) phi (concat t).
Proof.
  intros HO H St Dt. destruct (arrays_ok sh t St) as (E1 & E2).
  destruct (with_aux_ok sh D phi aux vag has_aux f (arrays sh t) HO H E1) as (v & g & E & Sv & Vv & Sg & Fg); [rewrite E2; exact Dt|].
  exists (lists g). cbn [tr_objective vg]. rewrite number_tree_fin, E, Vv, E2. split; [reflexivity|].
  destruct (lists_ok g) as (L1 & L2). unfold sized. rewrite L1, L2, Sg, Fg, E2. auto.
Qed.
Lemma hess_ok sh D phi aux vag (has_aux : bool) f t d : openset (size_ sh) D -> C2 (size_ sh) D phi -> user_function sh D phi aux vag has_aux f ->
  sized sh t -> sized sh d -> D (concat t) ->
  exists h, hess (tr_objective f vag has_aux sh) (fin t) (fin d) = fin h /\
    sized sh h /\ concat h = hess_vec (size_ sh) phi (concat t) (concat d).
Proof.
  intros HO HC H St Sd Dt. destruct (arrays_ok sh t St) as (E1 & E2). destruct (arrays_ok sh d Sd) as (E3 & E4).
  destruct (value_grad_hvpL_ok sh D phi (fun X => aux_code (if has_aux then Some (aux X) else None)) true true (with_aux_fun f vag has_aux) (arrays sh t))
    as (v & g & lin & E & _ & _ & _ & _ & HL); auto.
  { apply with_aux_fun_ok; auto. }
  { rewrite E2. exact Dt. }
  destruct (HL (arrays sh d) E3) as (h & Eh & Sh & Fh). exists (lists h). cbn [tr_objective hess]. rewrite !number_tree_fin.
  unfold tr_value_grad_hvp. rewrite E. cbn [bind]. rewrite Eh. split; [reflexivity|].
  destruct (lists_ok h) as (L1 & L2). unfold sized. rewrite L1, L2, Sh, Fh, E2, E4. auto.
Qed.
(** the value, gradient and auxiliary value of the exact branch of update are those of
    [_value_and_grad_with_aux] *)
Lemma value_grad_hvp_agrees_lemma f vag has_aux x v a g : value_and_grad_with_aux f vag has_aux x = Ok ((v, a), g) ->
  exists lin, tr_value_grad_hvp f vag has_aux x = Ok ((v, None), g, lin, Some (aux_code a)).
Proof.
  intros E. unfold tr_value_grad_hvp, value_grad_hvpL, grad_fL, with_aux_fun at 1. rewrite E. cbn [bind]. eexists. reflexivity.
Qed.
