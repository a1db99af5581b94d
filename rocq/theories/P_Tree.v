(** Facts about pytrees. *)
From Verif Require Import Base BaseFacts P_Vec M_Tree S_Ode.

Definition tmap2 (f : R -> R -> R) (s t : tree) : tree := map2 (map2 f) s t.
Notation tadd := (tmap2 Rplus).
Notation tscal := tree_scalar_mul.

Lemma shape_eqb_true s t : shape_eqb s t = true <-> shape s = shape t.
Proof. unfold shape_eqb. destruct (list_eq_dec Nat.eq_dec (shape s) (shape t)); intuition congruence. Qed.

Lemma tree_map2_ok f : forall s t, shape s = shape t -> tree_map2 f s t = Ok (tmap2 f s t).
Proof.
  intros s t H. unfold tree_map2. assert (L : length s = length t).
  { unfold shape in H. rewrite <- (map_length (@length R) s), H. apply map_length. }
  rewrite L, Nat.eqb_refl. clear L. revert t H. induction s as [|l s IH]; intros [|m t] H; try discriminate; [reflexivity|].
  injection H as H1 H2. cbn [map2 sequence]. rewrite bcast1_eq by auto. cbn [bind]. rewrite IH by auto. reflexivity.
Qed.
Lemma shape_map1 f t : shape (tree_map1 f t) = shape t.
Proof. unfold shape, tree_map1. rewrite map_map. apply map_ext. intros. apply map_length. Qed.
Lemma shape_scal c t : shape (tscal c t) = shape t.
Proof. apply shape_map1. Qed.
Lemma shape_map2 f : forall s t, shape s = shape t -> shape (tmap2 f s t) = shape s.
Proof.
  induction s as [|l s IH]; intros [|m t] H; try discriminate; [reflexivity|]. injection H as H1 H2.
  cbn. rewrite map2_length_eq by auto. f_equal. apply IH; auto.
Qed.
Lemma entry_map1 f t i j : f 0 = 0 -> entry (tree_map1 f t) i j = f (entry t i j).
Proof.
  intros F. unfold entry, tree_map1. change [] with (map f []) at 1. rewrite map_nth. rewrite <- F at 1. apply map_nth.
Qed.
Lemma entry_scal c t i j : entry (tscal c t) i j = c * entry t i j.
Proof. apply (entry_map1 (Rmult c)). ring. Qed.
Lemma nth_map2_0 f : f 0 0 = 0 -> forall (l m : list R) j, length l = length m -> nth j (map2 f l m) 0 = f (nth j l 0) (nth j m 0).
Proof. intros F. induction l as [|a l IH]; intros [|b m] [|j] H; simpl in *; try lia; auto. Qed.
Lemma entry_map2 f : f 0 0 = 0 -> forall s t i j, shape s = shape t -> entry (tmap2 f s t) i j = f (entry s i j) (entry t i j).
Proof.
  intros F. unfold entry. induction s as [|l s IH]; intros [|m t] i j H; try discriminate.
  - destruct i, j; auto.
  - injection H as H1 H2. destruct i; cbn; [apply nth_map2_0; auto|apply IH; auto].
Qed.
Lemma entry_add s t i j : shape s = shape t -> entry (tadd s t) i j = entry s i j + entry t i j.
Proof. apply (entry_map2 Rplus). ring. Qed.
Lemma tree_ext s t : shape s = shape t -> (forall i j, entry s i j = entry t i j) -> s = t.
Proof.
  revert t. induction s as [|l s IH]; intros [|m t] H E; try discriminate; [reflexivity|]. injection H as H1 H2. f_equal.
  - apply vec_ext; auto. intros j _. apply (E 0%nat j).
  - apply IH; auto. intros i j. apply (E (S i) j).
Qed.
Lemma tree_add_ok s t : shape s = shape t -> tree_add s t = Ok (tadd s t).
Proof. apply tree_map2_ok. Qed.
Ltac tshape := repeat (rewrite shape_scal || (rewrite shape_map2 by tshape)); try congruence; auto.
Ltac tentry := repeat (rewrite entry_scal || (rewrite entry_add by tshape)).
