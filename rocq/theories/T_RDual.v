(** Properties: forward-mode derivatives of ADFs. *)
From Coquelicot Require Import Coquelicot.
From Verif Require Import Base BaseFacts M_Quat S_Quat M_RFun S_RFun M_Solid M_RDual S_Solid S_SolidBC S_RDual
  P_RDual1 P_RDual2 P_RDual3 P_RDual4 P_RDual5 P_RDual6 P_RFun1 P_RFun2.

(** ** What jvp returns is the derivative *)
Theorem adf_derivative_sound dsys user t n : good (fun s => sys_tracks (dsys s) s) n t ->
  (forall f, In f (user_parts t) -> forall n, tracks n (user f) f) ->
  exists J f, jbuild dsys user t = Ok J /\ build t = Ok f /\ tracks n J f.
Proof. exact (solid_tracked dsys user t n). Qed.
Print Assumptions adf_derivative_sound.

Theorem r_function_derivatives_sound :
  (forall alpha s, RAlpha alpha = Ok s -> sys_tracks (dRAlpha alpha) s) /\
  (forall m alpha s, RAlphaM m alpha = Ok s -> sys_tracks (dRAlphaM m alpha) s) /\
  (forall p s, RP p = Ok s -> sys_tracks (dRP p) s) /\
  (forall rho s, RhoBlending rho = Ok s -> sys_tracks (dRho rho) s).
Proof. exact (conj track_RAlpha (conj track_RAlphaM (conj track_RP track_Rho))). Qed.
Print Assumptions r_function_derivatives_sound.

Theorem r_function_derivatives_finite :
  (forall alpha s, RAlpha alpha = Ok s -> alpha < 1 -> sys_finite (dRAlpha alpha)) /\
  (forall m alpha s, RAlphaM m alpha = Ok s -> alpha < 1 -> sys_finite (dRAlphaM m alpha)) /\
  (forall p s, RP p = Ok s -> (2 <= p)%Z -> sys_finite (dRP p)) /\
  (forall rho s, RhoBlending rho = Ok s -> 0 < rho -> sys_finite (dRho rho)).
Proof. exact (conj finite_RAlpha (conj finite_RAlphaM (conj finite_RP finite_Rho))). Qed.
Print Assumptions r_function_derivatives_finite.

(** ** Away from kinks the derivative is finite: it is the gradient *)
Theorem adf_jvp dsys user t n x : good (usable dsys) n t -> (forall f, In f (user_parts t) -> user_ok user f) ->
  length x = n -> kink_free t x -> exists J f v g, jbuild dsys user t = Ok J /\ build t = Ok f /\ has_gradient f x v g /\
  forall dx, length dx = n -> jvp J x dx = Ok (v, dotR g dx).
Proof. exact (solid_jvp dsys user t n x). Qed.
Print Assumptions adf_jvp.

Theorem adf_jacfwd dsys user t n x : good (usable dsys) n t -> (forall f, In f (user_parts t) -> user_ok user f) ->
  length x = n -> kink_free t x -> exists J f v g, jbuild dsys user t = Ok J /\ build t = Ok f /\ has_gradient f x v g /\
  gradient J x = Ok g.
Proof. exact (solid_gradient dsys user t n x). Qed.
Print Assumptions adf_jacfwd.

Theorem ellipsoid_derivative a x dx : length x = length a -> length dx = length a -> Forall (fun e => 0 < e) a -> ~ Forall (fun y => y = 0) x ->
  exists p phi, jvp (jellipsoid (A1 a)) x dx = Ok p /\ phi 0 = fst p /\ is_derive phi 0 (snd p) /\
  locally 0 (fun s => ellipsoid (A1 a) (A1 (vadd x (vscal s dx))) = Ok (phi s)).
Proof. exact (ellipsoid_jvp a x dx). Qed.
Print Assumptions ellipsoid_derivative.

(** ** At these points the ADF is differentiable but its computed derivative is not finite *)
Theorem sphere_gradient_refuted r n : 0 < r -> (1 <= n)%nat ->
  (exists v g, has_gradient (sphere r) (repeat 0 n) v g) /\ gradient (jsphere r) (repeat 0 n) = Err NonFinite.
Proof. exact (sphere_centre r n). Qed.
Print Assumptions sphere_gradient_refuted.

Theorem cylinder_gradient_refuted r z : 0 < r ->
  (exists v g, has_gradient (cylinder r) [0; 0; z] v g) /\ gradient (jcylinder r) [0; 0; z] = Err NonFinite.
Proof. exact (cylinder_axis r z). Qed.
Print Assumptions cylinder_gradient_refuted.

(** with r1 the union of any ADF with itself has its values, and no derivative anywhere *)
Theorem r1_gradient_refuted s J f n x : r1 = Ok s -> tracks n J f -> length x = n ->
  (forall v, f (A1 x) = Ok v -> union s f f (A1 x) = Ok v) /\
  forall X : list du, map fst X = x -> forall p, jbuild_op2 Union (dRAlpha 1) J J X <> Ok p.
Proof. exact (r1_union_self s J f n x). Qed.
Print Assumptions r1_gradient_refuted.

(** ** Examples *)
Example carved_gradient : exists J f v g, jbuild (fun _ => dRAlpha 0) (fun _ => jcoord 0) carved = Ok J /\ build carved = Ok f /\
  has_gradient f [2; 0] v g /\ gradient J [2; 0] = Ok g.
Proof.
  destruct carved_good as [G U]. exact (adf_jacfwd (fun _ => dRAlpha 0) (fun _ => jcoord 0) carved 2 [2; 0] G U eq_refl carved_kinks).
Qed.
Example sphere_gradient_at : gradient (jsphere 1) [1; 0] = Ok [-1; 0].
Proof.
  assert (N : forall a b, jsphere 1 [(1, a); (0, b)] = Ok (0, - a)).
  { intros a b. unfold jsphere, dnorm. rewrite dsqrt_fin; cbn; [|lra].
    assert (Q : forall u, u = 1 -> sqrt u = 1) by (intros u ->; exact sqrt_1). rewrite !Q by ring. unfold ddivc. cbn. rewrite !fdiv_ok by lra. cbn [bind]. f_equal. f_equal; field. }
  unfold gradient, jvp, basis. cbn [length seq map sequence repeat upd combine]. rewrite !N. cbn. f_equal. f_equal. f_equal. ring.
Qed.
Example egg : exists p phi, jvp (jellipsoid (A1 [1; 2])) [1; 0] [0; 1] = Ok p /\ phi 0 = fst p /\ is_derive phi 0 (snd p) /\
  locally 0 (fun s => ellipsoid (A1 [1; 2]) (A1 (vadd [1; 0] (vscal s [0; 1]))) = Ok (phi s)).
Proof.
  apply ellipsoid_derivative; try reflexivity.
  - repeat constructor; lra.
  - intros H. inversion H. lra.
Qed.
Example r1_self_union : exists s, r1 = Ok s /\ (forall v, sphere 1 (A1 [1; 0]) = Ok v -> union s (sphere 1) (sphere 1) (A1 [1; 0]) = Ok v) /\
  forall p, jbuild_op2 Union (dRAlpha 1) (jsphere 1) (jsphere 1) [(1, 1); (0, 0)] <> Ok p.
Proof.
  destruct (proj1 (RAlpha_accepts 1) ltac:(lra)) as (s & E). exists s. split; [exact E|].
  destruct (r1_gradient_refuted s (jsphere 1) (sphere 1) 2 [1; 0] E) as [H1 H2]; [apply tracks_sphere; lra|reflexivity|].
  split; [exact H1|]. intros p. apply H2. reflexivity.
Qed.
