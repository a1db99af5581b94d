(** Proofs about the notebooks, part 3: the surface of pacman, statements. *)
From Coquelicot Require Import Coquelicot.
From Verif Require Import Base BaseFacts M_Quat S_Quat P_Quat M_RFun S_RFun P_RFun1 P_Vec P_RFun2 M_Solid S_Solid
  P_Solid1 P_Solid2 P_Solid3 P_Solid4 P_Solid5 P_Solid6 M_Notebook S_Notebook P_Notebook1.

Lemma head0 x y z : (x - 0) ^ 2 + (y - 0) ^ 2 + (z - 0) ^ 2 = x ^ 2 + y ^ 2 + z ^ 2.
Proof. rewrite !Rminus_0_r. reflexivity. Qed.
Lemma pacman_inside_spec s x y z : inside (pacman s) [x; y; z] <-> in_pacman (x, y, z).
Proof. rewrite pacman_inside. unfold in_pacman, in_ball, off_mouth, near3. rewrite head0, pow1. reflexivity. Qed.
Lemma pacman_outside_spec s x y z : outside (pacman s) [x; y; z] <-> off_pacman (x, y, z).
Proof. rewrite pacman_outside. unfold off_pacman, off_ball, in_mouth, far3. rewrite head0, pow1. reflexivity. Qed.

Lemma pacman_sign s : sign_correct s -> exists f, build (pacman s) = Ok f /\ forall x y z,
  exists v, f (A1 [x; y; z]) = Ok v /\ (0 < v <-> in_pacman (x, y, z)) /\ (v < 0 <-> off_pacman (x, y, z)).
Proof.
  intros N. destruct (solid_signed (pacman s) 3%nat (pacman_good_lemma sign_correct s N)) as (f & B & D). exists f. split; auto.
  intros x y z. destruct (D [x; y; z] eq_refl (pacman_regular s _)) as (v & E & P & M). exists v. split; auto.
  rewrite <- pacman_inside_spec with (s := s), <- pacman_outside_spec with (s := s). auto.
Qed.

Lemma norm3_eq x y z r : 0 < r -> (normR [x; y; z] = r <-> x ^ 2 + y ^ 2 + z ^ 2 = r ^ 2).
Proof.
  intros Hr. pose proof (normR_sq [x; y; z]) as S. rewrite !sumsq_cons in S. change (sumsq []) with 0 in S.
  pose proof (normR_nonneg [x; y; z]). split; intros H'.
  - rewrite H' in S. simpl. lra.
  - apply Rsqr_inj; unfold Rsqr; [auto|lra|]. simpl in H'. lra.
Qed.
Lemma ball_smooth x y z a b c r : 0 < r -> on_ball r (a, b, c) (x, y, z) -> smooth (ball r [a; b; c]) [x; y; z].
Proof. intros H E. unfold ball. cbn [smooth keeps_normal back prim_smooth]. split; auto. unfold vsub. cbn [map2]. apply norm3_eq; auto. Qed.
Lemma mouth_smooth s x y z : on_mouth (x, y, z) -> smooth (mouth s) [x; y; z].
Proof.
  intros (E & Z). assert (H1 : normR [1; 0; - (9 / 5)] <> 0) by (apply norm_pos_first; lra).
  assert (H2 : normR [1; 0; 9 / 5] <> 0) by (apply norm_pos_first; lra).
  destruct (half_space_sides _ [x; y; z] H1 eq_refl) as [I1 O1]. destruct (half_space_sides _ [x; y; z] H2 eq_refl) as [I2 O2].
  rewrite dot3 in *. cbn [smooth mouth op2_smooth inside]. rewrite I1, I2.
  assert (G : forall n, normR n <> 0 -> length n = 3%nat -> dotR [x; y; z] n = 0 -> prim_smooth (User (half_space n)) [x; y; z]).
  { intros n Hn Ln D. exists (unit_of n). split; [|apply unit_of_norm; auto].
    assert (V : dotR [x; y; z] (unit_of n) = 0).
    { unfold unit_of. rewrite (dotR_comm [x; y; z]), dotR_vscal, (dotR_comm n), D. ring. }
    rewrite <- V. apply half_space_gradient; auto. }
  unfold Rabs in E. destruct (Rcase_abs z).
  - right. split; [lra|]. apply G; auto. rewrite dot3. lra.
  - left. split; [|lra]. apply G; auto. rewrite dot3. lra.
Qed.
Lemma off_ball_outside r a b c x y z : 0 < r -> off_ball r (a, b, c) (x, y, z) -> outside (ball r [a; b; c]) [x; y; z].
Proof. intros H O. apply ball_outside; auto. Qed.
Lemma head_outside s x y z : off_ball 1 (0, 0, 0) (x, y, z) \/ in_mouth (x, y, z) ->
  outside (Op2 Difference s (Prim (Sphere 1)) (mouth s)) [x; y; z].
Proof.
  intros [H|H]; [left|right].
  - cbn [outside prim_outside]. apply norm3_greater; [lra|]. unfold off_ball in H. rewrite head0 in H. exact H.
  - apply mouth_sides. exact H.
Qed.
Lemma head_smooth s x y z : (on_ball 1 (0, 0, 0) (x, y, z) /\ off_mouth (x, y, z)) \/ (in_ball 1 (0, 0, 0) (x, y, z) /\ on_mouth (x, y, z)) ->
  smooth (Op2 Difference s (Prim (Sphere 1)) (mouth s)) [x; y; z].
Proof.
  intros [[H M]|[H M]]; [left|right].
  - split; [|apply mouth_sides; exact M]. cbn [smooth prim_smooth]. apply norm3_eq; [lra|]. unfold on_ball in H. rewrite head0 in H. exact H.
  - split; [|apply mouth_smooth; exact M]. cbn [inside prim_inside]. apply norm3_less; [lra|]. unfold in_ball in H. rewrite head0 in H. exact H.
Qed.
Ltac one := repeat first [assumption | split; [|assumption] | left; split; [|assumption] | right; split; [|assumption]].
Lemma pacman_smooth s x y z : smooth_pacman (x, y, z) -> smooth (pacman s) [x; y; z].
Proof.
  set (e1 := ball (1 / 4) [2 / 5; - (1 / 2); 3 / 5]). set (e2 := ball (1 / 4) [2 / 5; 1 / 2; 3 / 5]).
  set (b1 := ball (3 / 20) [1; 0; 0]). set (b2 := ball (3 / 20) [2; 0; 0]).
  set (h := Op2 Difference s (Prim (Sphere 1)) (mouth s)). set (p := [x; y; z]).
  change (pacman s) with (Op2 Union s (Op2 Union s (Op2 Union s (Op2 Union s h e1) e2) b1) b2).
  assert (U : forall a b, smooth (Op2 Union s a b) p <-> (smooth a p /\ outside b p) \/ (outside a p /\ smooth b p)) by (intros; reflexivity).
  assert (O : forall a b, outside (Op2 Union s a b) p <-> outside a p /\ outside b p) by (intros; reflexivity).
  rewrite !U, !O. intros [[H B]|[H (b & Hb & S & B)]].
  - assert (O1 : outside e1 p) by (apply off_ball_outside; [lra|]; apply (B (1 / 4, (2 / 5, - (1 / 2), 3 / 5))); simpl; auto).
    assert (O2 : outside e2 p) by (apply off_ball_outside; [lra|]; apply (B (1 / 4, (2 / 5, 1 / 2, 3 / 5))); simpl; auto).
    assert (O3 : outside b1 p) by (apply off_ball_outside; [lra|]; apply (B (3 / 20, (1, 0, 0))); simpl; auto).
    assert (O4 : outside b2 p) by (apply off_ball_outside; [lra|]; apply (B (3 / 20, (2, 0, 0))); simpl; auto).
    pose proof (head_smooth s x y z H) as Sm. fold h p in Sm. one.
  - pose proof (head_outside s x y z H) as OH. fold h p in OH.
    assert (D : forall c, In c balls -> c <> b -> outside (ball (fst c) [fst (fst (snd c)); snd (fst (snd c)); snd (snd c)]) p).
    { intros c Hc N. destruct c as (r & ((c1 & c2) & c3)). cbn [fst snd]. apply off_ball_outside; [|apply (B _ Hc N)].
      unfold balls in Hc. simpl in Hc. repeat destruct Hc as [E|Hc]; try (injection E as <- _; lra). tauto. }
    assert (N1 : (1 / 4, (2 / 5, - (1 / 2), 3 / 5)) <> b -> outside e1 p) by (apply (D (1 / 4, (2 / 5, - (1 / 2), 3 / 5))); simpl; auto).
    assert (N2 : (1 / 4, (2 / 5, 1 / 2, 3 / 5)) <> b -> outside e2 p) by (apply (D (1 / 4, (2 / 5, 1 / 2, 3 / 5))); simpl; auto).
    assert (N3 : (3 / 20, (1, 0, 0)) <> b -> outside b1 p) by (apply (D (3 / 20, (1, 0, 0))); simpl; auto 6).
    assert (N4 : (3 / 20, (2, 0, 0)) <> b -> outside b2 p) by (apply (D (3 / 20, (2, 0, 0))); simpl; auto 6).
    clear D B. unfold balls in Hb. simpl in Hb. destruct Hb as [<-|[<-|[<-|[<-|[]]]]]; cbn [fst snd] in S.
    + assert (Sm : smooth e1 p) by (apply ball_smooth; [lra|exact S]).
      assert (O2 : outside e2 p) by (apply N2; intros E; injection E; intros; lra).
      assert (O3 : outside b1 p) by (apply N3; intros E; injection E; intros; lra).
      assert (O4 : outside b2 p) by (apply N4; intros E; injection E; intros; lra). one.
    + assert (Sm : smooth e2 p) by (apply ball_smooth; [lra|exact S]).
      assert (O1 : outside e1 p) by (apply N1; intros E; injection E; intros; lra).
      assert (O3 : outside b1 p) by (apply N3; intros E; injection E; intros; lra).
      assert (O4 : outside b2 p) by (apply N4; intros E; injection E; intros; lra). one.
    + assert (Sm : smooth b1 p) by (apply ball_smooth; [lra|exact S]).
      assert (O1 : outside e1 p) by (apply N1; intros E; injection E; intros; lra).
      assert (O2 : outside e2 p) by (apply N2; intros E; injection E; intros; lra).
      assert (O4 : outside b2 p) by (apply N4; intros E; injection E; intros; lra). one.
    + assert (Sm : smooth b2 p) by (apply ball_smooth; [lra|exact S]).
      assert (O1 : outside e1 p) by (apply N1; intros E; injection E; intros; lra).
      assert (O2 : outside e2 p) by (apply N2; intros E; injection E; intros; lra).
      assert (O3 : outside b1 p) by (apply N3; intros E; injection E; intros; lra). one.
Qed.
Lemma pacman_normal s f x y z : normalized_system s -> build (pacman s) = Ok f -> smooth_pacman (x, y, z) ->
  exists g, has_gradient f [x; y; z] 0 g /\ normR g = 1.
Proof.
  intros N B S. apply (solid_unit (pacman s) 3%nat); auto; [apply pacman_good_lemma; auto|apply pacman_regular|apply pacman_smooth; auto].
Qed.
