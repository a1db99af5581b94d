(** ADFs called with a 2-d array of points. *)
From Coquelicot Require Import Coquelicot.
From Verif Require Import Base BaseFacts M_Quat S_Quat M_RFun S_RFun P_RFun1 M_Solid S_Solid M_RBatch S_RBatch P_RBatch1 P_RBatch2 P_RBatch3.

(** An array of shape (1, n) gives the value at its only point, unless the program rotates,
    revolves or uses a cylinder. *)
Theorem one_row_batch (user : adf -> badf) t f : (forall h x, user h (row x) = h (A1 x)) -> cylinder_free t -> ~ turns t ->
  build t = Ok f -> exists g, bbuild user t = Ok g /\ forall x, g (row x) = f (A1 x).
Proof. exact (fun U => build_row user U t f). Qed.
Print Assumptions one_row_batch.

Theorem one_row_cylinder_refuted user : exists g v, bbuild user (Prim (Cylinder 1)) = Ok g /\
  inside (Prim (Cylinder 1)) [0; 0; 5] /\ g (row [0; 0; 5]) = Ok v /\ v < 0.
Proof.
  destruct cylinder_row_value as (v & E & N).
  exact (ex_intro _ _ (ex_intro _ v (conj eq_refl (conj cylinder_row_inside (conj E N))))).
Qed.
Print Assumptions one_row_cylinder_refuted.

(** rotate2d, rotate3d and revolution never accept a 2-d array. *)
Theorem rotation_rejects_batch user t g : turns t -> bbuild user t = Ok g -> forall X v, g X <> Ok v.
Proof. exact (turns_fails user t g). Qed.
Print Assumptions rotation_rejects_batch.

(** Intersections of boxes: the sign tells whether all points are inside. *)
Theorem batch_of_boxes user t n : boxes t -> good sign_correct n t -> exists g, bbuild user t = Ok g /\
  forall X, array2 n X -> rows X <> [] -> exists v, g X = Ok v /\
    (0 < v <-> Forall (inside t) (rows X)) /\ (v < 0 <-> Exists (outside t) (rows X)).
Proof. exact (fun B => boxes_signed user t B n). Qed.
Print Assumptions batch_of_boxes.

(** With spheres, ellipsoids and unions only one direction remains. *)
Theorem batch_positive_all_inside_partial user t n g X v : positive_form t -> good sign_correct n t -> bbuild user t = Ok g ->
  array2 n X -> g X = Ok v -> 0 < v -> Forall (inside t) (rows X).
Proof. exact (fun B G Bg => positive_inside user t B n g G Bg X v). Qed.
Print Assumptions batch_positive_all_inside_partial.

Theorem batch_positive_all_inside_refuted user : exists g v, bbuild user (Prim (Sphere 1)) = Ok g /\
  Forall (inside (Prim (Sphere 1))) (rows two_points) /\ g two_points = Ok v /\ v < 0.
Proof.
  destruct two_points_value as (v & E & N).
  exact (ex_intro _ _ (ex_intro _ v (conj eq_refl (conj two_points_inside (conj E N))))).
Qed.
Print Assumptions batch_positive_all_inside_refuted.

Theorem batch_complement_refuted user : exists g v, bbuild user (Negate (Prim (Sphere 1))) = Ok g /\
  Forall (outside (Negate (Prim (Sphere 1)))) (rows two_points) /\ g two_points = Ok v /\ 0 < v.
Proof.
  destruct two_points_value as (v & E & N). eexists. exists (- v). split; [reflexivity|].
  split; [exact two_points_inside|]. unfold bnegate. cbn [bbuild_prim]. rewrite E. split; [reflexivity|]. lra.
Qed.
Print Assumptions batch_complement_refuted.

(** reflect and project of several points: the shapes (N,) and (n,) are multiplied. *)
Theorem batch_reflection_shape_error user n v o a g X : length v = n -> length o = n -> (2 <= n)%nat -> array2 n X ->
  (2 <= length (rows X))%nat -> length (rows X) <> n -> dotR v v <> 0 -> forall m, m = Reflect v o \/ m = Project v o ->
  bbuild user (Move m a) = Ok g -> g X = Err TypeError.
Proof. exact (breflect_shape_error user n v o a g X). Qed.
Print Assumptions batch_reflection_shape_error.

(** With N = n points no error is raised, and the points are moved by the wrong amounts. *)
Theorem batch_reflection_refuted user s : sign_correct s ->
  let t := Move (Reflect [1; 0] [0; 0]) (Prim (Cuboid [1; 1] false s)) in
  exists g v, bbuild user t = Ok g /\ array2 2 mirrored_points /\ Forall (inside t) (rows mirrored_points) /\
    g mirrored_points = Ok v /\ v < 0.
Proof.
  intros SC t. destruct (mirrored_value user s _ SC eq_refl) as (v & E & N).
  exact (ex_intro _ _ (ex_intro _ v (conj eq_refl (conj mirrored_array (conj (mirrored_inside s) (conj E N)))))).
Qed.
Print Assumptions batch_reflection_refuted.

(** The check of scale does not depend on the points: a factor per axis raises. *)
Theorem batch_scale_vector_raises f k : length (ravel k) <> 1%nat -> bscale f k = Err AssertionError.
Proof. unfold bscale. destruct (ravel k) as [|a [|b l]]; intros N; try reflexivity. destruct N. reflexivity. Qed.
Print Assumptions batch_scale_vector_raises.

(** Two boxes, one shifted, and two points. *)
Definition overlap (s : rsys) : solid :=
  Op2 Intersection s (Prim (Cuboid [2; 2] false s)) (Move (Translate [1; 0]) (Prim (Cube 2 false s))).
Example overlap_case user : exists s g v, r0 = Ok s /\ bbuild user (overlap s) = Ok g /\
  g (mkB 2 [[3 / 2; 1]; [5 / 4; 1]]) = Ok v /\ 0 < v.
Proof.
  unfold r0, RAlpha. assert (E : (Rltb (-1) 0 && Rleb 0 1)%bool = true).
  { unfold Rltb, Rleb. destruct (Rlt_dec (-1) 0), (Rle_dec 0 1); try lra; reflexivity. }
  rewrite E. cbn [assert_ bind]. eexists.
  destruct (batch_of_boxes user (overlap (mkRsys (ralpha_conj 0) (ralpha_disj 0))) 2) as (g & B & D).
  - simpl. tauto.
  - assert (SC : sign_correct (mkRsys (ralpha_conj 0) (ralpha_disj 0))).
    { apply (RAlpha_sign_correct 0). unfold RAlpha. rewrite E. reflexivity. }
    exact (conj SC (conj (conj eq_refl (conj (le_S _ _ (le_n 1)) SC)) (conj eq_refl (conj (le_S _ _ (le_n 1)) SC)))).
  - destruct (D (mkB 2 [[3 / 2; 1]; [5 / 4; 1]])) as (v & Ev & P & _).
    + split; [reflexivity|repeat constructor].
    + discriminate.
    + exists g, v. split; [reflexivity|]. split; [exact B|]. split; [exact Ev|]. apply P.
      apply Forall_cons; [|apply Forall_cons; [|apply Forall_nil]]; cbn [inside op2_inside prim_inside back rows overlap]; unfold strictly_inside, lower, upper, vsub; simpl;
        split; (split; [reflexivity|]); (split; [reflexivity|]);
        intros i Hi; (destruct i as [|[|i]]; [| |lia]); simpl; lra.
Qed.
