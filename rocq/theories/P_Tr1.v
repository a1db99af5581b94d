(** Real pytree algebra and its relation to float pytrees. *)
From Verif Require Import Base BaseFacts S_RFun P_Vec M_Tree M_XR M_Tr S_Tr S_Ode P_Tree.

(** *** lifting *)
Lemma fin_inj s t : fin s = fin t -> s = t.
Proof.
  unfold fin. revert t. induction s as [|l s IH]; intros [|m t] H; try discriminate; auto. injection H as H1 H2. f_equal; auto.
  clear -H1. revert m H1. induction l as [|a l IH]; intros [|b m] H; try discriminate; auto. injection H as H1 H2. f_equal; auto.
Qed.
Lemma map2_fin f g : (forall a b, f (Fin a) (Fin b) = Fin (g a b)) -> forall l m, map2 f (map Fin l) (map Fin m) = map Fin (map2 g l m).
Proof. intros H. induction l as [|a l IH]; intros [|b m]; simpl; auto. rewrite H, IH. auto. Qed.
Lemma xt_map2_fin f g : (forall a b, f (Fin a) (Fin b) = Fin (g a b)) -> forall s t, xt_map2 f (fin s) (fin t) = fin (tmap2 g s t).
Proof. intros H. unfold xt_map2, fin, tmap2. induction s as [|l s IH]; intros [|m t]; simpl; auto. rewrite (map2_fin f g H), IH. auto. Qed.
Lemma xt_map1_fin f g : (forall a, f (Fin a) = Fin (g a)) -> forall t, xt_map1 f (fin t) = fin (tree_map1 g t).
Proof.
  intros H t. unfold xt_map1, fin, tree_map1. rewrite !map_map. apply map_ext. intros l. rewrite !map_map. apply map_ext. auto.
Qed.
Lemma xt_axpy_fin z a d : xt_axpy (fin z) (Fin a) (fin d) = fin (taxpy z a d).
Proof. apply (xt_map2_fin _ (fun u v => u + a * v)). reflexivity. Qed.
Lemma xt_neg_fin t : xt_neg (fin t) = fin (tscal (-1) t).
Proof. apply xt_map1_fin. intros. simpl. f_equal. ring. Qed.
Lemma xt_zeros_fin t : xt_zeros (fin t) = fin (tscal 0 t).
Proof. apply xt_map1_fin. intros. simpl. f_equal. ring. Qed.
Lemma xt_add_fin s t : xt_add (fin s) (fin t) = fin (tadd s t).
Proof. apply xt_map2_fin. reflexivity. Qed.
Lemma xt_scal_fin c t : xt_scal (Fin c) (fin t) = fin (tscal c t).
Proof. apply xt_map1_fin. reflexivity. Qed.
Lemma xsum_fin l : xsum (map Fin l) = Fin (sumR l).
Proof. induction l as [|a l IH]; simpl; auto. unfold xsum in *. simpl. rewrite IH. reflexivity. Qed.
Fixpoint ldot (s t : tree) : R := match s, t with u :: s', v :: t' => dotR u v + ldot s' t' | _, _ => 0 end.
Lemma xt_vdot_ldot : forall s t, xt_vdot (fin s) (fin t) = Fin (ldot s t).
Proof.
  unfold xt_vdot. induction s as [|u s IH]; intros [|v t]; auto. cbn [fin map map2]. unfold xsum at 1. cbn [fold_right].
  fold (xsum (map2 (fun u v => xsum (map2 xmul u v)) (map (map Fin) s) (map (map Fin) t))). fold (fin s). fold (fin t). rewrite IH.
  rewrite (map2_fin xmul Rmult) by reflexivity. rewrite xsum_fin. reflexivity.
Qed.
Lemma ldot_tdot : forall s t, shape s = shape t -> ldot s t = tdot s t.
Proof.
  unfold tdot. induction s as [|u s IH]; intros [|v t] H; try discriminate; auto. injection H as H1 H2. cbn [ldot concat].
  rewrite IH by auto. clear -H1. unfold dotR. revert v H1. induction u as [|a u IH]; intros [|b v] H; try discriminate; simpl.
  - ring.
  - rewrite <- IH by (simpl in H; lia). ring.
Qed.
Lemma xt_vdot_fin s t : shape s = shape t -> xt_vdot (fin s) (fin t) = Fin (tdot s t).
Proof. intros H. rewrite xt_vdot_ldot, ldot_tdot; auto. Qed.
Lemma tdot_nonneg t : 0 <= tdot t t. Proof. apply dotR_nonneg. Qed.
Lemma xt_norm_fin t : xt_norm (fin t) = Fin (tnorm t).
Proof. unfold xt_norm. rewrite xt_vdot_fin by auto. simpl. pose proof (tdot_nonneg t). destruct (Rlt_dec _ 0); [lra|]. auto. Qed.
Lemma fin_shape t : map (@length xr) (fin t) = shape t.
Proof. unfold fin, shape. rewrite map_map. apply map_ext. intros. apply map_length. Qed.
Lemma xt_size_fin t : xt_size (fin t) = length (concat t).
Proof. unfold xt_size. rewrite fin_shape. unfold shape. induction t as [|l t IH]; simpl; auto. rewrite app_length, IH. auto. Qed.

(** *** algebra *)
Lemma taxpy_shape z a d : shape z = shape d -> shape (taxpy z a d) = shape z.
Proof. intros H. apply (shape_map2 (fun u v => u + a * v)). auto. Qed.
Lemma concat_length_shape s t : shape s = shape t -> length (concat s) = length (concat t).
Proof.
  revert t. induction s as [|u s IH]; intros [|v t] H; try discriminate; auto. injection H as H1 H2. simpl. rewrite !app_length, H1, (IH t); auto.
Qed.
Lemma concat_map2 f : forall s t, shape s = shape t -> concat (tmap2 f s t) = map2 f (concat s) (concat t).
Proof.
  unfold tmap2. induction s as [|u s IH]; intros [|v t] H; try discriminate; auto. injection H as H1 H2. cbn [map2 concat]. rewrite IH by auto.
  clear -H1. revert v H1. induction u as [|a u IH]; intros [|b v] H; try discriminate; auto. simpl. rewrite IH by (simpl in H; lia). auto.
Qed.
Lemma concat_axpy z a d : shape z = shape d -> concat (taxpy z a d) = vadd (concat z) (vscal a (concat d)).
Proof.
  intros H. unfold taxpy. change (map2 (map2 (fun u v => u + a * v)) z d) with (tmap2 (fun u v => u + a * v) z d). rewrite concat_map2 by auto.
  unfold vadd, vscal. rewrite map2_map_r. reflexivity.
Qed.
Lemma concat_scal c t : concat (tscal c t) = vscal c (concat t).
Proof. unfold tree_scalar_mul, tree_map1, vscal. rewrite concat_map. reflexivity. Qed.
Lemma tdot_axpy_l z a d w : shape z = shape d -> tdot (taxpy z a d) w = tdot z w + a * tdot d w.
Proof.
  intros H. unfold tdot. rewrite concat_axpy by auto. rewrite dotR_vadd by (rewrite vscal_length; apply concat_length_shape; auto).
  rewrite dotR_vscal. auto.
Qed.
Lemma tdot_comm s t : tdot s t = tdot t s. Proof. apply dotR_comm. Qed.
Lemma tdot_axpy_r z a d w : shape z = shape d -> tdot w (taxpy z a d) = tdot w z + a * tdot w d.
Proof. intros H. rewrite !(tdot_comm w). apply tdot_axpy_l; auto. Qed.
Lemma tdot_scal_l c s t : tdot (tscal c s) t = c * tdot s t.
Proof. unfold tdot. rewrite concat_scal. apply dotR_vscal. Qed.
Lemma tdot_scal_r c s t : tdot s (tscal c t) = c * tdot s t.
Proof. rewrite tdot_comm, tdot_scal_l, tdot_comm. auto. Qed.
Lemma tnorm_sq t : tnorm t * tnorm t = tdot t t.
Proof. apply sqrt_sqrt, tdot_nonneg. Qed.
Lemma tnorm_nonneg t : 0 <= tnorm t. Proof. apply sqrt_pos. Qed.
Lemma tdot_cs s t : shape s = shape t -> tdot s t * tdot s t <= tdot s s * tdot t t.
Proof.
  intros H. assert (E : forall u, tdot u u = sumsq (concat u)).
  { intros u. unfold tdot, dotR, sumsq. f_equal. generalize (concat u). intros l. induction l; simpl; congruence. }
  rewrite !E. apply cauchy_schwarz. apply concat_length_shape; auto.
Qed.
