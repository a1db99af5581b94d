(** Property theorems for programs that build solids with r_fun.py (C114, C115). *)
From Coquelicot Require Import Coquelicot.
From Verif Require Import Base BaseFacts M_Quat S_Quat M_RFun S_RFun P_RFun1 P_Vec M_Solid S_Solid
  P_Solid1 P_Solid2 P_Solid3 P_Solid4 P_Solid5 P_Solid6.
Import ListNotations.
Open Scope R_scope.

Theorem solid_sign_decides_membership t n : good sign_correct n t ->
  exists f, build t = Ok f /\ forall x, length x = n -> regular t x ->
    exists v, f (A1 x) = Ok v /\ (0 < v <-> inside t x) /\ (v < 0 <-> outside t x).
Proof. exact (solid_signed t n). Qed.
Print Assumptions solid_sign_decides_membership.

Theorem solid_continuous t n x f : good continuous_system n t -> length x = n -> regular t x -> build t = Ok f ->
  exists v, continuous_adf f x v.
Proof. exact (solid_continuous_at t n x f). Qed.
Print Assumptions solid_continuous.

Theorem solid_watertight t n f p : good continuous_system n t -> build t = Ok f ->
  (forall s, length (p s) = n) ->
  (forall s e, 0 < e -> exists d, 0 < d /\ forall u, Rabs (u - s) < d -> edist (p u) (p s) < e) ->
  (forall s, 0 <= s <= 1 -> regular t (p s)) ->
  (inside t (p 0) /\ outside t (p 1)) \/ (outside t (p 0) /\ inside t (p 1)) ->
  exists s, 0 < s < 1 /\ f (A1 (p s)) = Ok 0.
Proof. exact (solid_path t n f p). Qed.
Print Assumptions solid_watertight.

Theorem solid_unit_normal t n x f : good normalized_system n t -> length x = n -> regular t x -> smooth t x ->
  build t = Ok f -> exists g, has_gradient f x 0 g /\ normR g = 1.
Proof. exact (solid_unit t n x f). Qed.
Print Assumptions solid_unit_normal.

Theorem solid_normal_points_inside t n x f g : good normalized_system n t -> length x = n -> regular t x -> build t = Ok f ->
  has_gradient f x 0 g -> normR g = 1 -> exists d, 0 < d /\ forall u, 0 < u < d ->
    inside t (vadd x (vscal u g)) /\ outside t (vadd x (vscal (- u) g)).
Proof. exact (solid_crossing t n x f g). Qed.
Print Assumptions solid_normal_points_inside.

(** the predefined R-systems qualify *)
Theorem ralpha_normalized_system alpha s : RAlpha alpha = Ok s -> normalized_system s.
Proof. exact (RAlpha_normalized alpha s). Qed.
Print Assumptions ralpha_normalized_system.

Theorem rp_normalized_system p s : RP p = Ok s -> (2 <= p)%Z -> normalized_system s.
Proof. exact (fun H => RP_normalized p s H). Qed.
Print Assumptions rp_normalized_system.

(** scale_without_normalization loses the unit normal, as its name says *)
Theorem stretch_unit_normal_refuted : let t := Move (Stretch [2]) (Prim (Sphere 1)) in
  exists f, build t = Ok f /\ good normalized_system 1 t /\ regular t [2] /\
    has_gradient f [2] 0 [- (1 / 2)] /\ forall g, has_gradient f [2] 0 g -> normR g = 1 / 2.
Proof. exact stretched_sphere. Qed.
Print Assumptions stretch_unit_normal_refuted.

(** A plate, rotated by a quarter turn and shifted, with a hole. *)
Definition plate (s : rsys) : solid :=
  Op2 Difference s (Move (Translate [1; 0]) (Move (Rotate2 (PI / 2) 0 0) (Prim (Cuboid [4; 2] true s)))) (Prim (Sphere (1 / 2))).

Lemma plate_box x y s : inside (Move (Translate [1; 0]) (Move (Rotate2 (PI / 2) 0 0) (Prim (Cuboid [4; 2] true s)))) [x; y] <->
  0 < x < 2 /\ -2 < y < 2.
Proof.
  simpl. unfold strictly_inside, lower, upper. simpl. rewrite cos_neg, sin_neg, cos_PI2, sin_PI2. split.
  - intros (_ & _ & H). pose proof (H 0%nat ltac:(lia)) as H0. pose proof (H 1%nat ltac:(lia)) as H1. simpl in H0, H1. lra.
  - intros H. repeat split; destruct i as [|[|i]]; simpl; try lia; lra.
Qed.

Lemma plate_good s : r0 = Ok s -> good normalized_system 2 (plate s).
Proof.
  intros H. pose proof (RAlpha_normalized 0 s H) as N. simpl. repeat split; auto; try lra; apply N.
Qed.

(** every hypothesis of C114 and C115 holds at the point (1/2, 0) of the rim of the hole *)
Example plate_rim : exists s f g, r0 = Ok s /\ build (plate s) = Ok f /\ good normalized_system 2 (plate s) /\
  regular (plate s) [1 / 2; 0] /\ smooth (plate s) [1 / 2; 0] /\ has_gradient f [1 / 2; 0] 0 g /\ normR g = 1.
Proof.
  destruct (proj1 (RAlpha_accepts 0) ltac:(lra)) as (s & E).
  pose proof (plate_good s E) as G.
  assert (Rg : regular (plate s) [1 / 2; 0]) by (simpl; auto).
  assert (Sm : smooth (plate s) [1 / 2; 0]).
  { right. split; [apply plate_box; lra|]. simpl. rewrite normR_sumsq, !sumsq_cons. change (sumsq []) with 0.
    replace (1 / 2 * (1 / 2) + (0 * 0 + 0)) with (1 / 2 * (1 / 2)) by ring. apply sqrt_square. lra. }
  destruct (solid_signed (plate s) 2%nat (good_mono _ _ _ cont_sign 2%nat (good_mono _ _ _ norm_cont 2%nat G))) as (f & B & _).
  destruct (solid_unit (plate s) 2%nat [1 / 2; 0] f G eq_refl Rg Sm B) as (g & Hg & Ng).
  exists s, f, g. exact (conj E (conj B (conj G (conj Rg (conj Sm (conj Hg Ng)))))). 
Qed.

(** the straight way from (1, 0) to the centre of the hole meets the boundary *)
Example plate_way : exists s f, r0 = Ok s /\ build (plate s) = Ok f /\
  inside (plate s) [1; 0] /\ outside (plate s) [0; 0] /\ exists u, 0 < u < 1 /\ f (A1 [1 - u; 0]) = Ok 0.
Proof.
  destruct (proj1 (RAlpha_accepts 0) ltac:(lra)) as (s & E). pose proof (plate_good s E) as G.
  pose proof (good_mono _ _ _ norm_cont 2%nat G) as G'.
  destruct (solid_signed (plate s) 2%nat (good_mono _ _ _ cont_sign 2%nat G')) as (f & B & _).
  assert (N : forall a, 0 <= a -> normR [a; 0] = a).
  { intros a Ha. rewrite normR_sumsq, !sumsq_cons. change (sumsq []) with 0.
    replace (a * a + (0 * 0 + 0)) with (a * a) by ring. apply sqrt_square. auto. }
  assert (I : inside (plate s) [1; 0]).
  { split; [apply plate_box; lra|]. simpl. rewrite N; lra. }
  assert (O : outside (plate s) [0; 0]) by (right; simpl; rewrite N; lra).
  exists s, f. split; [exact E|]. split; [exact B|]. split; [exact I|]. split; [exact O|].
  apply (solid_path (plate s) 2%nat f (fun u => [1 - u; 0]) G' B).
  - reflexivity.
  - intros u e He. exists e. split; auto. intros w Hw. unfold edist, vsub. simpl.
    rewrite normR_sumsq, !sumsq_cons. change (sumsq []) with 0.
    replace ((1 - w - (1 - u)) * (1 - w - (1 - u)) + ((0 - 0) * (0 - 0) + 0)) with (Rsqr (w - u)) by (unfold Rsqr; ring).
    rewrite sqrt_Rsqr_abs. exact Hw.
  - simpl. auto.
  - left. replace (1 - 0) with 1 by ring. replace (1 - 1) with 0 by ring. auto.
Qed.
