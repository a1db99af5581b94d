(** Proofs about model.py, part 2: negative values of [argnum_model]. *)
From Coq Require Import FunctionalExtensionality.
From Coquelicot Require Import Coquelicot.
From Verif Require Import Base BaseFacts M_Tensor M_Calc M_Model S_Model P_Model.

Lemma clip_pos n k : (k <= n)%nat -> clip n (Z.of_nat k) = k.
Proof. intros H. unfold clip. destruct (Z.ltb_spec (Z.of_nat k) 0); lia. Qed.
Lemma clip_neg n k : (k < n)%nat -> clip n (Z.of_nat k - Z.of_nat n) = k.
Proof. intros H. unfold clip. destruct (Z.ltb_spec (Z.of_nat k - Z.of_nat n) 0); lia. Qed.
Lemma negative_model adf h na nh model args kw k : (S k < List.length args)%nat ->
  neumann_model adf h na (Z.of_nat k - Z.of_nat (List.length args)) nh model args kw
  = neumann_model adf h na (Z.of_nat k) nh model args kw.
Proof.
  intros H. unfold neumann_model. rewrite (proj2 (negative_same args k ltac:(lia))). unfold slice_to, slice_from.
  rewrite clip_neg, clip_pos by lia.
  replace (Z.of_nat k - Z.of_nat (List.length args) + 1)%Z with (Z.of_nat (S k) - Z.of_nat (List.length args))%Z by lia.
  replace (Z.of_nat k + 1)%Z with (Z.of_nat (S k)) by lia. rewrite clip_neg, clip_pos by lia. reflexivity.
Qed.
Lemma last_model adf h na nh (model : amodel) args kw k : S k = List.length args ->
  neumann_model adf h na (-1) nh model args kw
  = neumann_model adf h na (Z.of_nat k) nh (fun a kw => model (a ++ args) kw) args kw.
Proof.
  intros H. unfold neumann_model. replace (-1)%Z with (Z.of_nat k - Z.of_nat (List.length args))%Z by lia.
  rewrite (proj2 (negative_same args k ltac:(lia))). unfold slice_to, slice_from. rewrite clip_neg, (clip_pos _ k) by lia.
  replace (Z.of_nat k - Z.of_nat (List.length args) + 1)%Z with (Z.of_nat 0) by lia.
  replace (Z.of_nat k + 1)%Z with (Z.of_nat (List.length args)) by lia. rewrite !clip_pos by lia. rewrite skipn_all.
  match goal with |- context [jvp ?f1 _ _] => match goal with |- _ = ?rhs => match rhs with context [jvp ?f2 _ _] =>
    replace f1 with f2; [reflexivity|] end end end.
  extensionality xs. destruct xs as [|x [|]]; auto. rewrite <- app_assoc. reflexivity.
Qed.
