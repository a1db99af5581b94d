(** Proofs about ADFs called with a 2-d array, part 3: counterexamples. *)
From Coquelicot Require Import Coquelicot.
From Verif Require Import Base BaseFacts M_Quat S_Quat P_Quat M_RFun S_RFun P_RFun1 P_Vec P_RFun2 M_Solid S_Solid P_Solid1 M_RBatch S_RBatch P_RBatch1 P_RBatch2.

Definition two_points : batch := mkB 2 [[3 / 4; 0]; [0; 3 / 4]].
Lemma two_points_inside : Forall (fun x => normR x < 1) (rows two_points).
Proof.
  apply Forall_cons; [|apply Forall_cons; [|apply Forall_nil]]; apply (proj1 (norm_lt_iff _ 1 ltac:(lra))); unfold sumsq; simpl; lra.
Qed.
Lemma two_points_value : exists v, bsphere 1 two_points = Ok v /\ v < 0.
Proof.
  rewrite bsphere_value by lra. eexists. split; [reflexivity|]. unfold bflat, sumsq. simpl. lra.
Qed.
Lemma cylinder_row_value : exists v, bcylinder 1 (row [0; 0; 5]) = Ok v /\ v < 0.
Proof.
  unfold bcylinder. rewrite bsphere_value by lra. eexists. split; [reflexivity|]. unfold bflat, sumsq. simpl. lra.
Qed.
Lemma cylinder_row_inside : sqrt (nth 0 [0; 0; 5] 0 ^ 2 + nth 1 [0; 0; 5] 0 ^ 2) < 1.
Proof. simpl. replace (0 * (0 * 1) + 0 * (0 * 1)) with 0 by ring. rewrite sqrt_0. lra. Qed.

Definition mirrored_points : batch := mkB 2 [[- (1 / 8); 1 / 2]; [- (3 / 4); 1 / 2]].
Lemma mirrored_array : array2 2 mirrored_points.
Proof. split; [reflexivity|]. repeat constructor. Qed.
Lemma mirrored_inside s : Forall (inside (Move (Reflect [1; 0] [0; 0]) (Prim (Cuboid [1; 1] false s)))) (rows mirrored_points).
Proof.
  apply Forall_cons; [|apply Forall_cons; [|apply Forall_nil]]; cbn [inside prim_inside back]; unfold mirror_in, strictly_inside, lower, upper, vsub, vscal, dotR; simpl;
    (split; [reflexivity|]); (split; [reflexivity|]); intros i Hi; (destruct i as [|[|i]]; [| |lia]); simpl; lra.
Qed.
Lemma mirrored_value user s g : sign_correct s ->
  bbuild user (Move (Reflect [1; 0] [0; 0]) (Prim (Cuboid [1; 1] false s))) = Ok g ->
  exists v, g mirrored_points = Ok v /\ v < 0.
Proof.
  intros SC B. cbn [bbuild bbuild_move bbuild_prim bind] in B. injection B as <-.
  unfold breflect. unfold btranslate at 1. rewrite (rbop_list _ _ 2 [0; 0] mirrored_array eq_refl). cbn [bind rows mirrored_points map map2].
  unfold balong_normal. cbn [cols rows length Nat.eqb bind map].
  assert (AN : anorm (A1 [1; 0]) ^ 2 = 1) by (unfold anorm; cbn [ravel]; rewrite normR_pow2; unfold sumsq; simpl; ring).
  rewrite AN. unfold fdiv. destruct (Req_EM_T 1 0); [lra|]. cbn [sequence bind].
  unfold dotR. cbn [map2 sumR fold_right]. unfold bop at 1, bcast1 at 1. cbn [length Nat.eqb map2 bind].
  rewrite (rbop_list _ _ 2) by (reflexivity || (split; [reflexivity|repeat constructor])). cbn [bind rows map map2].
  unfold btranslate. cbn [amap map]. rewrite (rbop_list _ _ 2) by (reflexivity || (split; [reflexivity|repeat constructor])). cbn [bind rows map map2].
  set (Y := mkB 2 _).
  assert (AY : array2 2 Y) by (split; [reflexivity|repeat constructor]).
  destruct (bcuboid_decides [1; 1] false s Y 2 SC AY ltac:(discriminate) ltac:(lia) eq_refl) as (v & Ev & _ & N).
  exists v. split; [exact Ev|]. apply N. unfold Y. cbn [rows]. right. left. intros (_ & _ & Q).
  specialize (Q 0%nat ltac:(simpl; lia)). simpl in Q. lra.
Qed.
