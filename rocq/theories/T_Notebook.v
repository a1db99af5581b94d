(** Property theorems for the example notebooks (C116, C117, C118). *)
From Coquelicot Require Import Coquelicot.
From Verif Require Import Base BaseFacts M_Quat S_Quat M_RFun S_RFun P_RFun1 P_Vec M_Tensor M_Calc M_Surface S_Calc S_Stray M_Solid S_Solid
  P_Solid1 P_Solid2 P_Solid3 P_Solid4 P_Solid5 P_Solid6 M_Notebook S_Notebook P_Notebook1 P_Notebook2 P_Notebook3.
Import ListNotations.
Open Scope R_scope.

(** ** C116: pacman *)
Theorem pacman_membership s : sign_correct s -> exists f, build (pacman s) = Ok f /\ forall x y z,
  exists v, f (A1 [x; y; z]) = Ok v /\ (0 < v <-> in_pacman (x, y, z)) /\ (v < 0 <-> off_pacman (x, y, z)).
Proof. exact (pacman_sign s). Qed.
Print Assumptions pacman_membership.

Theorem pacman_unit_normal s f x y z : normalized_system s -> build (pacman s) = Ok f -> smooth_pacman (x, y, z) ->
  exists g, has_gradient f [x; y; z] 0 g /\ normR g = 1.
Proof. exact (pacman_normal s f x y z). Qed.
Print Assumptions pacman_unit_normal.

(** a point of the upper lip; the centre of the head is at the apex of the mouth *)
Lemma lip_smooth : smooth_pacman (3 / 10, 0, 1 / 6).
Proof.
  left. split.
  - right. unfold in_ball, on_mouth. rewrite Rabs_right by lra. repeat split; simpl; lra.
  - intros b Hb. unfold balls in Hb. simpl in Hb. destruct Hb as [<-|[<-|[<-|[<-|[]]]]]; unfold off_ball; simpl; lra.
Qed.
Example pacman_case : exists s f g, r0 = Ok s /\ sign_correct s /\ normalized_system s /\ build (pacman s) = Ok f /\
  smooth_pacman (3 / 10, 0, 1 / 6) /\ has_gradient f [3 / 10; 0; 1 / 6] 0 g /\ normR g = 1 /\
  in_pacman (- (1 / 2), 0, 0) /\ off_pacman (1 / 2, 0, 0) /\ in_pacman (1, 0, 0).
Proof.
  destruct (proj1 (RAlpha_accepts 0) ltac:(lra)) as (s & E). pose proof (RAlpha_normalized 0 s E) as N.
  assert (SC : sign_correct s) by apply N. destruct (pacman_sign s SC) as (f & B & _).
  destruct (pacman_normal s f _ _ _ N B lip_smooth) as (g & Hg & Ng).
  exists s, f, g. split; [exact E|]. split; [exact SC|]. split; [exact N|]. split; [exact B|]. split; [exact lip_smooth|].
  split; [exact Hg|]. split; [exact Ng|]. split; [|split].
  - left. unfold in_ball, off_mouth. rewrite Rabs_R0. split; simpl; lra.
  - unfold off_pacman, off_ball, in_mouth. rewrite Rabs_R0. repeat split; simpl; lra.
  - right. right. right. left. unfold in_ball. simpl. lra.
Qed.

(** ** C117: hard constraints *)
Theorem hard_constraint_boundary_value t n x f g net b w : good sign_correct n t -> length x = n -> regular t x -> build t = Ok f ->
  ~ inside t x -> ~ outside t x -> g (A1 x) = Ok b -> net (A1 x) = Ok w -> hard_constraint g f net (A1 x) = Ok b.
Proof. exact (fun G Hx Rg B NI NO Eg En => hard_value g f net x b w Eg (solid_zero t n x f G Hx Rg B NI NO) En). Qed.
Print Assumptions hard_constraint_boundary_value.

Theorem hard_constraint_normal_derivative t n x f g gb b net w : good normalized_system n t -> length x = n -> regular t x -> smooth t x ->
  build t = Ok f -> has_gradient g x b gb -> continuous_adf net x w ->
  exists nu q, has_gradient f x 0 nu /\ normR nu = 1 /\ has_gradient (hard_constraint g f net) x b q /\ dotR q nu = dotR gb nu + w.
Proof. exact (hard_normal t n x f g gb b net w). Qed.
Print Assumptions hard_constraint_normal_derivative.

Theorem elm_boundary_value sys gamma W q x : r0 = Ok sys -> Forall (fun w => length w = 2%nat) W -> length q = length W ->
  on_square x -> elm_model (cube 1 false sys) gamma W q x = Ok 0.
Proof. exact (fun H HW => model_boundary sys gamma W H HW q x). Qed.
Print Assumptions elm_boundary_value.

Example hard_constraint_case : exists s f nu q, r0 = Ok s /\ build (pacman s) = Ok f /\ normR nu = 1 /\
  good normalized_system 3 (pacman s) /\ smooth (pacman s) [3 / 10; 0; 1 / 6] /\
  ~ inside (pacman s) [3 / 10; 0; 1 / 6] /\ ~ outside (pacman s) [3 / 10; 0; 1 / 6] /\
  has_gradient (hard_constraint (half_space [0; 2; 0]) f (half_space [5; 0; 0])) [3 / 10; 0; 1 / 6] 0 q /\
  dotR q nu = nth 1 nu 0 + 3 / 10.
Proof.
  destruct (proj1 (RAlpha_accepts 0) ltac:(lra)) as (s & E). pose proof (RAlpha_normalized 0 s E) as N.
  assert (SC : sign_correct s) by apply N. destruct (pacman_sign s SC) as (f & B & D).
  assert (G : good normalized_system 3 (pacman s)) by (apply pacman_good_lemma; auto).
  pose proof (pacman_smooth s _ _ _ lip_smooth) as Sm.
  assert (n1 : normR [0; 2; 0] = 2).
  { rewrite normR_sumsq, !sumsq_cons. change (sumsq []) with 0. replace (0 * 0 + (2 * 2 + (0 * 0 + 0))) with (2 * 2) by ring. apply sqrt_square. lra. }
  assert (n2 : normR [5; 0; 0] = 5).
  { rewrite normR_sumsq, !sumsq_cons. change (sumsq []) with 0. replace (5 * 5 + (0 * 0 + (0 * 0 + 0))) with (5 * 5) by ring. apply sqrt_square. lra. }
  pose proof (half_space_gradient [0; 2; 0] [3 / 10; 0; 1 / 6] ltac:(lra) eq_refl) as H1.
  pose proof (half_space_gradient [5; 0; 0] [3 / 10; 0; 1 / 6] ltac:(lra) eq_refl) as H2. apply grad_cont in H2.
  destruct (hard_normal (pacman s) 3%nat [3 / 10; 0; 1 / 6] f _ _ _ _ _ G eq_refl (pacman_regular s _) Sm B H1 H2) as (nu & q & Hnu & Nnu & Hq & Dq).
  unfold unit_of in Hq, Dq. rewrite n1 in *. rewrite n2 in *.
  assert (L : length nu = 3%nat) by apply Hnu. destruct nu as [|n0 [|m1 [|m2 [|]]]]; try discriminate.
  exists s, f, [n0; m1; m2], q. split; [exact E|]. split; [exact B|]. split; [exact Nnu|]. split; [exact G|]. split; [exact Sm|].
  destruct (D (3 / 10) 0 (1 / 6)) as (v & Ev & P & M). assert (v = 0) by (destruct Hnu as (E0 & _); congruence). subst v.
  split; [rewrite pacman_inside_spec, <- P; lra|]. split; [rewrite pacman_outside_spec, <- M; lra|]. split.
  - replace (dotR [3 / 10; 0; 1 / 6] (vscal (/ 2) [0; 2; 0])) with 0 in Hq by (unfold dotR, vscal; simpl; lra). exact Hq.
  - rewrite Dq. unfold dotR, vscal. simpl. lra.
Qed.
Example elm_boundary_case : exists s, r0 = Ok s /\ elm_model (cube 1 false s) 20 [[1 / 3; 1 / 2]; [2 / 3; 1 / 5]] [7; -4] [1 / 3; 1] = Ok 0.
Proof.
  destruct (proj1 (RAlpha_accepts 0) ltac:(lra)) as (s & E). exists s. split; [exact E|]. apply elm_boundary_value; auto.
  exists (1 / 3), 1. repeat split; auto; lra.
Qed.

(** ** C118: the fit of elm_poisson.ipynb.  [u q] is the function [elm_model] computes for the weights [q]. *)
Theorem elm_poisson_fit sys gamma W X sol g l2 svd u : r0 = Ok sys -> Forall (fun w => length w = 2%nat) W ->
  X <> [] -> (forall x, In x X -> shape x = [2%nat] /\ in_square (tlist x) /\ ~ In (tlist x) W) ->
  rep0 2 sol g -> 0 < l2 ->
  (forall Q, vmapT (laplace (elm_layer (cube 1 false sys) gamma W)) X = Ok Q ->
     exists U s VT, svd Q = (U, s, VT) /\ is_svd (length X) (length W) Q U s VT) ->
  (forall q x, length q = length W -> length x = 2%nat -> elm_model (cube 1 false sys) gamma W q x = Ok (u q x)) ->
  exists p, poisson_fit svd (cube 1 false sys) gamma W l2 sol X = Ok p /\ shape p = [length W] /\
    forall q, length q = length W ->
      ridge_objective X l2 g (u (tlist p)) (tlist p) <= ridge_objective X l2 g (u q) q /\
      (ridge_objective X l2 g (u q) q <= ridge_objective X l2 g (u (tlist p)) (tlist p) -> q = tlist p).
Proof. exact (poisson_fit_lemma sys gamma W X sol g l2 svd u). Qed.
Print Assumptions elm_poisson_fit.

(** without regularisation a zero singular value makes every weight nan *)
Theorem elm_poisson_no_ridge svd Q U s VT N K a : svd Q = (U, s, VT) -> is_svd N K Q U s VT ->
  (a < Nat.min N K)%nat -> entry s [a] = 0 -> ridge_inverse svd 0 Q = Err NonFinite.
Proof. exact (ridge_inverse_zero svd Q U s VT N K a). Qed.
Print Assumptions elm_poisson_no_ridge.

Definition svd1 (Q : tensor) : tensor * tensor * tensor :=
  let q := entry Q [0%nat; 0%nat] in
  (mkT [1%nat; 1%nat] (fun _ => 1), mkT [1%nat] (fun _ => Rabs q), mkT [1%nat; 1%nat] (fun _ => if Rle_dec 0 q then 1 else -1)).
Lemma svd1_ok Q : exists U s VT, svd1 Q = (U, s, VT) /\ is_svd 1 1 Q U s VT.
Proof.
  do 3 eexists. split; [reflexivity|]. unfold is_svd. cbn -[Rabs]. split; [reflexivity|]. split; [reflexivity|]. split; [reflexivity|].
  split; [intros a b Ha Hb; replace a with 0%nat by lia; replace b with 0%nat by lia; simpl; lra|].
  split; [intros a b Ha Hb; replace a with 0%nat by lia; replace b with 0%nat by lia; simpl; destruct (Rle_dec 0 _); lra|].
  split; [intros; apply Rabs_pos|]. intros i j Hi Hj. replace i with 0%nat by lia. replace j with 0%nat by lia.
  unfold total. simpl. unfold Rabs. destruct (Rle_dec 0 _); destruct (Rcase_abs _); lra.
Qed.
Definition sol2 (x : tensor) : res tensor := Ok (tsc (sin (2 * PI * entry x [0%nat]) * sin (2 * PI * entry x [1%nat]))).
Example elm_poisson_case : exists s p, r0 = Ok s /\ poisson_fit svd1 (cube 1 false s) 20 [[1 / 3; 1 / 2]] (1 / 10000) sol2 [tvec [1 / 4; 1 / 4]] = Ok p /\
  shape p = [1%nat].
Proof.
  destruct (proj1 (RAlpha_accepts 0) ltac:(lra)) as (s & E). exists s.
  destruct (elm_poisson_fit s 20 [[1 / 3; 1 / 2]] [tvec [1 / 4; 1 / 4]] sol2 (fun x => sin (2 * PI * nth 0 x 0) * sin (2 * PI * nth 1 x 0))
    (1 / 10000) svd1 (fun q => wsum 20 [[1 / 3; 1 / 2]] (fun j => nth j q 0)) E) as (p & Ep & Sp & _).
  - repeat constructor.
  - discriminate.
  - intros x [<-|[]]. split; [reflexivity|]. split; [exists (1 / 4), (1 / 4); repeat split; try lra|].
    intros [H|[]]. injection H. intros. lra.
  - intros t St. eexists. split; [reflexivity|]. split; [reflexivity|]. cbn [entry tsc]. unfold tlist. rewrite St. reflexivity.
  - lra.
  - intros Q _. apply svd1_ok.
  - intros q x Lq Lx. apply model_value; auto.
  - exists p. auto.
Qed.
