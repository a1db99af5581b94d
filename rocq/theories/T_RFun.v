(** Property theorems about magpi/r_fun.py: C01 - C15. *)
From Coquelicot Require Import Coquelicot.
From Verif Require Import Base BaseFacts M_Quat S_Quat P_Quat M_RFun S_RFun P_RFun1 P_Vec P_RFun2.

(** ** C01 *)
Theorem ralpha_signs : forall alpha, -1 < alpha <= 1 ->
  exists s, RAlpha alpha = Ok s /\ sign_correct s.
Proof. exact RAlpha_good. Qed.
Print Assumptions ralpha_signs.

Theorem rp_signs : forall p, (2 <= p)%Z -> Z.even p = true ->
  exists s, RP p = Ok s /\ sign_correct s.
Proof. exact RP_good. Qed.
Print Assumptions rp_signs.

Theorem ralpham_signs : forall m alpha, -1 < alpha <= 1 -> exists s, RAlphaM m alpha = Ok s /\
  (forall a b, 0 <= m \/ a <> 0 \/ b <> 0 -> sign_correct_at s a b) /\
  (m < 0 -> conj_ s 0 0 = Err NonFinite).
Proof. exact RAlphaM_good. Qed.
Print Assumptions ralpham_signs.

Theorem set_operations_signs : forall s f g x a b, sign_correct s -> f x = Ok a -> g x = Ok b ->
  decides (negate f x) (a < 0) (0 < a) /\
  decides (union s f g x) (0 < a \/ 0 < b) (a < 0 /\ b < 0) /\
  decides (intersection s f g x) (0 < a /\ 0 < b) (a < 0 \/ b < 0) /\
  decides (difference s f g x) (0 < a /\ b < 0) (a < 0 \/ 0 < b) /\
  decides (implication s f g x) (a < 0 \/ 0 < b) (0 < a /\ b < 0) /\
  decides (equivalence s f g x) ((0 < a /\ 0 < b) \/ (a < 0 /\ b < 0)) ((0 < a /\ b < 0) \/ (a < 0 /\ 0 < b)) /\
  decides (xor s f g x) ((0 < a /\ b < 0) \/ (a < 0 /\ 0 < b)) ((0 < a /\ 0 < b) \/ (a < 0 /\ b < 0)).
Proof. exact set_operations_dec. Qed.
Print Assumptions set_operations_signs.

(** The system r0 on the operand values 3 and -4: conjunction -6, disjunction 4. *)
Example r0_example : exists s, r0 = Ok s /\ sign_correct s /\ conj_ s 3 (-4) = Ok (-6) /\ disj_ s 3 (-4) = Ok 4.
Proof.
  destruct (RAlpha_good 0) as (s & E & SC); [lra|]. exists s. split; [exact E|]. split; [exact SC|].
  apply RAlpha_ok in E as [_ ->]. cbn [conj_ disj_].
  rewrite ralpha_conj_ok, ralpha_disj_ok by lra. unfold ralpha_conj_v, ralpha_disj_v, Dalpha.
  replace (3 ^ 2 + (-4) ^ 2 - 2 * 0 * 3 * -4) with (Rsqr 5) by (unfold Rsqr; ring).
  rewrite sqrt_Rsqr by lra. split; f_equal; field.
Qed.

(** ** C02 *)
Theorem r1_is_min_max : forall s, r1 = Ok s -> forall a b,
  conj_ s a b = Ok (Rmin a b) /\ disj_ s a b = Ok (Rmax a b).
Proof. exact r1_min_max. Qed.
Print Assumptions r1_is_min_max.

Theorem rp2_is_r0 : forall s s', rp2 = Ok s -> r0 = Ok s' -> forall a b,
  conj_ s a b = conj_ s' a b /\ disj_ s a b = disj_ s' a b.
Proof. exact rp2_r0. Qed.
Print Assumptions rp2_is_r0.

(** r_p is a + b -/+ the p-th root of a^p + b^p; rp4 has p = 4 *)
Theorem rp_values : forall p s, RP p = Ok s -> (2 <= p)%Z -> forall a b, exists t,
  0 <= t /\ t ^ Z.to_nat p = a ^ Z.to_nat p + b ^ Z.to_nat p /\ conj_ s a b = Ok (a + b - t) /\ disj_ s a b = Ok (a + b + t).
Proof.
  intros p s H Hp a b. apply RP_ok in H as [Ev ->]. destruct (even_nat p Hp Ev) as (n & Hn & ->).
  destruct (rp_root_spec n a b Hn) as (t & Et & Ht & E). exists t. rewrite Z2Nat.inj_mul, Nat2Z.id by lia.
  cbn [conj_ disj_]. unfold rp_conj, rp_disj. rewrite Et. auto.
Qed.
Print Assumptions rp_values.
Theorem rp4_values : forall s, rp4 = Ok s -> forall a b, exists t,
  0 <= t /\ t ^ 4 = a ^ 4 + b ^ 4 /\ conj_ s a b = Ok (a + b - t) /\ disj_ s a b = Ok (a + b + t).
Proof. intros s H. exact (rp_values 4 s H ltac:(lia)). Qed.
Print Assumptions rp4_values.

Theorem rfun_de_morgan :
  (forall alpha s, RAlpha alpha = Ok s -> demorgan s /\ commutative s) /\
  (forall m alpha s, RAlphaM m alpha = Ok s -> demorgan s /\ commutative s) /\
  (forall p s, RP p = Ok s -> demorgan s /\ commutative s) /\
  (forall rho s, RhoBlending rho = Ok s -> demorgan s /\ commutative s).
Proof. exact (conj RAlpha_demorgan (conj RAlphaM_demorgan (conj RP_demorgan RhoBlending_demorgan))). Qed.
Print Assumptions rfun_de_morgan.

Theorem ralpha_conj_plus_disj : forall alpha s, RAlpha alpha = Ok s -> forall a b, exists c d,
  conj_ s a b = Ok c /\ disj_ s a b = Ok d /\ c + d = 2 * (a + b) / (1 + alpha).
Proof. exact RAlpha_sum. Qed.
Print Assumptions ralpha_conj_plus_disj.

(** all the constructors used above succeed *)
Example constructors_succeed : (exists s, r1 = Ok s) /\ (exists s, r0 = Ok s) /\
  (exists s, rp2 = Ok s) /\ (exists s, rp4 = Ok s) /\ (exists s, RhoBlending 1 = Ok s).
Proof.
  split; [apply RAlpha_accepts; lra|]. split; [apply RAlpha_accepts; lra|].
  repeat split; eexists; reflexivity.
Qed.

(** ** C03 *)
Theorem ralpha_normalized : forall alpha s b, RAlpha alpha = Ok s ->
  exists c d : R -> R -> R, (forall x y, conj_ s x y = Ok (c x y)) /\ (forall x y, disj_ s x y = Ok (d x y)) /\
  (0 < b -> is_derive (fun t => c t b) 0 1 /\ is_derive (fun t => c 0 t) b 0 /\
            is_derive (fun t => c b t) 0 1 /\ is_derive (fun t => c t 0) b 0) /\
  (b < 0 -> is_derive (fun t => d t b) 0 1 /\ is_derive (fun t => d 0 t) b 0 /\
            is_derive (fun t => d b t) 0 1 /\ is_derive (fun t => d t 0) b 0).
Proof. exact ralpha_norm. Qed.
Print Assumptions ralpha_normalized.

Theorem rp_normalized : forall p s b, RP p = Ok s -> (2 <= p)%Z ->
  exists c d : R -> R -> R, (forall x y, conj_ s x y = Ok (c x y)) /\ (forall x y, disj_ s x y = Ok (d x y)) /\
  (0 < b -> is_derive (fun t => c t b) 0 1 /\ is_derive (fun t => c 0 t) b 0 /\
            is_derive (fun t => c b t) 0 1 /\ is_derive (fun t => c t 0) b 0) /\
  (b < 0 -> is_derive (fun t => d t b) 0 1 /\ is_derive (fun t => d 0 t) b 0 /\
            is_derive (fun t => d b t) 0 1 /\ is_derive (fun t => d t 0) b 0).
Proof. exact rp_norm. Qed.
Print Assumptions rp_normalized.

Theorem rp_normalized_to_order : forall p s, RP p = Ok s -> (2 <= p)%Z -> forall a b, 0 < b ->
  exists c, conj_ s a b = Ok c /\
    a - a ^ Z.to_nat p / (IZR p * b ^ (Z.to_nat p - 1)) <= c <= a.
Proof. exact RP_normal_order. Qed.
Print Assumptions rp_normalized_to_order.

Theorem rp_normalized_to_order_disj : forall p s, RP p = Ok s -> (2 <= p)%Z -> forall a b, b < 0 ->
  exists d, disj_ s a b = Ok d /\
    a <= d <= a + a ^ Z.to_nat p / (IZR p * (- b) ^ (Z.to_nat p - 1)).
Proof. exact RP_normal_order_disj. Qed.
Print Assumptions rp_normalized_to_order_disj.

Example rp4_one s : rp4 = Ok s -> exists t, conj_ s 1 1 = Ok (2 - t) /\ t ^ 4 = 2.
Proof. intros H. destruct (rp4_values s H 1 1) as (t & _ & E & C & _). exists t. rewrite C. split; [f_equal; ring|rewrite E; ring]. Qed.
Example rp4_example : exists s, RP 4 = Ok s /\ (2 <= 4)%Z.
Proof. eexists; split; [reflexivity|lia]. Qed.

(** ** C04 *)
Theorem rho_blending_smooths : forall rho s s0, 0 < rho -> RhoBlending rho = Ok s -> r0 = Ok s0 ->
  forall a b, exists c d c0 d0,
    conj_ s a b = Ok c /\ disj_ s a b = Ok d /\ conj_ s0 a b = Ok c0 /\ disj_ s0 a b = Ok d0 /\
    c <= c0 /\ d0 <= d /\ (rho ^ 2 <= a ^ 2 + b ^ 2 -> c = c0 /\ d = d0) /\
    (0 < c -> 0 < a /\ 0 < b) /\ (d < 0 -> a < 0 /\ b < 0).
Proof. exact rho_blending_props. Qed.
Print Assumptions rho_blending_smooths.

(** Inside the blending zone the inequality is strict (rho = 2, both operands 1). *)
Example rho_blending_strict : exists s s0 c c0, RhoBlending 2 = Ok s /\ r0 = Ok s0 /\
  conj_ s 1 1 = Ok c /\ conj_ s0 1 1 = Ok c0 /\ c < c0.
Proof.
  destruct (RAlpha_good 0) as (s0 & E & _); [lra|]. eexists _, s0, _, _.
  split; [reflexivity|]. split; [exact E|]. apply RAlpha_ok in E as [_ ->]. cbn [conj_].
  unfold rho_conj. rewrite rho_root_ok by lra. cbn [bind].
  split; [reflexivity|]. rewrite ralpha_conj_ok by lra. split; [reflexivity|].
  unfold ralpha_conj_v. rewrite D0. 
  assert (sqrt (1 ^ 2 + 1 ^ 2) < sqrt (rho_term 2 1 1)); [|lra].
  apply sqrt_lt_1_alt. unfold rho_term. rewrite Rabs_left by lra. lra.
Qed.

(** ** C05: false; p = 0 raises, p = -2 has a wrong sign.  Proved for p >= 2. *)
Theorem rp_constructor_partial : forall p s, RP p = Ok s -> (2 <= p)%Z -> sign_correct s.
Proof. exact RP_sign_correct. Qed.
Print Assumptions rp_constructor_partial.

Theorem rp_constructor_refuted : ~ (forall p s, RP p = Ok s -> sign_correct s).
Proof. exact RP_not_always. Qed.
Print Assumptions rp_constructor_refuted.

Theorem rp_zero_raises_refuted : exists s, RP 0 = Ok s /\ forall a b, conj_ s a b = Err ZeroDivisionError.
Proof. exact RP_zero. Qed.
Print Assumptions rp_zero_raises_refuted.

Theorem rp_minus_two_refuted : exists s c, RP (-2) = Ok s /\ conj_ s (-1) 2 = Ok c /\ 0 < c.
Proof. exact RP_minus_two. Qed.
Print Assumptions rp_minus_two_refuted.

(** ** C06 *)
Theorem cuboid_at_origin : forall e x s, sign_correct s -> x <> [] -> length e = length x ->
  membership (cuboid (A1 e) false s (A1 x)) (repeat 0 (length x)) e x.
Proof. exact cuboid_corner. Qed.
Print Assumptions cuboid_at_origin.

Theorem cuboid_around_origin : forall e x s, sign_correct s -> x <> [] -> length e = length x ->
  membership (cuboid (A1 e) true s (A1 x)) (map (fun l => - l / 2) e) (map (fun l => l / 2) e) x.
Proof. exact cuboid_centered. Qed.
Print Assumptions cuboid_around_origin.

Theorem cube_membership : forall l s x, sign_correct s -> x <> [] ->
  membership (cube l false s (A1 x)) (repeat 0 (length x)) (repeat l (length x)) x /\
  membership (cube l true s (A1 x)) (repeat (- l / 2) (length x)) (repeat (l / 2) (length x)) x.
Proof. exact cube_dec. Qed.
Print Assumptions cube_membership.

Theorem cuboid_wrong_dimension : forall e c s x, length e <> length x -> length e <> 1%nat ->
  length x <> 1%nat -> cuboid (A1 e) c s (A1 x) = Err TypeError.
Proof. exact cuboid_shape_error. Qed.
Print Assumptions cuboid_wrong_dimension.

Example cuboid_example : exists s, r1 = Ok s /\ cuboid (A1 [2; 4]) false s (A1 [1; 1]) = Ok 1.
Proof.
  destruct (RAlpha_good 1) as (s & E & _); [lra|]. exists s. split; [exact E|].
  pose proof (r1_min_max s E) as M. unfold cuboid, compose. cbn.
  repeat (match goal with |- context [conj_ s ?u ?v] => rewrite (proj1 (M u v)) end; cbn [bind]).
  f_equal. repeat (unfold Rmin; destruct (Rle_dec _ _)); lra.
Qed.

(** ** C07 *)
Theorem sphere_membership : forall r x, 0 < r ->
  decides (sphere r (A1 x)) (normR x < r) (r < normR x).
Proof. exact sphere_decides. Qed.
Print Assumptions sphere_membership.

Theorem cylinder_membership : forall r a b x, 0 < r ->
  decides (cylinder r (A1 (a :: b :: x))) (sqrt (a ^ 2 + b ^ 2) < r) (r < sqrt (a ^ 2 + b ^ 2)) /\
  cylinder r (A1 (a :: b :: x)) = cylinder r (A1 [a; b]).
Proof. exact cylinder_decides. Qed.
Print Assumptions cylinder_membership.

Theorem sphere_unit_gradient : forall r x, 0 < r ->
  (forall v, length v = length x -> dir_deriv (sphere r) x v (dotR (vscal (- / r) x) v)) /\
  (normR x = r -> normR (vscal (- / r) x) = 1).
Proof. exact sphere_gradient_all. Qed.
Print Assumptions sphere_unit_gradient.

(** Full claim: also at the centre; there the value is NaN. *)
Theorem ellipsoid_membership_partial : forall axes x, length x = length axes ->
  Forall (fun e => 0 < e) axes -> ~ Forall (fun y => y = 0) x ->
  decides (ellipsoid (A1 axes) (A1 x)) (sumsq (quot x axes) < 1) (1 < sumsq (quot x axes)).
Proof. exact ellipsoid_decides. Qed.
Print Assumptions ellipsoid_membership_partial.

Theorem ellipsoid_membership_refuted : forall axes, axes <> [] -> Forall (fun e => 0 < e) axes ->
  ellipsoid (A1 axes) (A1 (repeat 0 (length axes))) = Err NonFinite.
Proof. exact ellipsoid_nan. Qed.
Print Assumptions ellipsoid_membership_refuted.

(** The forward-mode derivative inside [ellipsoid] is the mathematical one. *)
Theorem ellipsoid_derivative : forall axes x v, length x = length axes -> length v = length axes ->
  Forall (fun e => e <> 0) axes -> sumsq (quot x axes) <> 0 ->
  exists d, scaled_sphere_jvp (A1 axes) (A1 x) (A1 v) = Ok d /\
    dir_deriv (scale_without_normalization (sphere 1) (A1 axes)) x v d.
Proof. exact scaled_sphere_jvp_correct. Qed.
Print Assumptions ellipsoid_derivative.

Example ellipsoid_example : length [1; 1] = length [2; 3] /\ Forall (fun e => 0 < e) [2; 3] /\
  ~ Forall (fun y => y = 0) [1; 1] /\ sumsq (quot [1; 1] [2; 3]) < 1.
Proof.
  split; [reflexivity|]. split; [repeat constructor; lra|]. split.
  - intros H. inversion H. lra.
  - unfold sumsq, quot, sumR. simpl. lra.
Qed.

(** ** C08 *)
Theorem translate_moves_set : forall f x y z, bop Rplus x y = Ok z -> shape z = shape x ->
  translate f y z = f x.
Proof. exact translate_moves. Qed.
Print Assumptions translate_moves_set.

Theorem translations_add : forall f x y z, length x = length y -> length y = length z ->
  translate (translate f (A1 y)) (A1 z) (A1 x) = translate f (A1 (vadd y z)) (A1 x).
Proof. exact translate_compose. Qed.
Print Assumptions translations_add.

Theorem rotate2d_moves_set : forall f t o1 o2 x1 x2,
  let p := ccw t (o1, o2) (x1, x2) in
  rotate2d f t (A1 [o1; o2]) (A1 [fst p; snd p]) = f (A1 [x1; x2]).
Proof. exact rotate2d_moves. Qed.
Print Assumptions rotate2d_moves_set.

Theorem rotations2d_add : forall f a b o1 o2 x1 x2,
  rotate2d (rotate2d f a (A1 [o1; o2])) b (A1 [o1; o2]) (A1 [x1; x2]) =
  rotate2d f (a + b) (A1 [o1; o2]) (A1 [x1; x2]).
Proof. exact rotate2d_compose. Qed.
Print Assumptions rotations2d_add.

Example translate_example : bop Rplus (A1 [1; 2]) (A1 [3; 4]) = Ok (A1 [1 + 3; 2 + 4]) /\
  shape (A1 [1 + 3; 2 + 4]) = shape (A1 [1; 2]).
Proof. split; reflexivity. Qed.
(** quarter turn around (1,1): (2,1) goes to (1,2) *)
Example rotate2d_example : ccw (PI / 2) (1, 1) (2, 1) = (1, 2).
Proof. unfold ccw. simpl. rewrite cos_PI2, sin_PI2. f_equal; ring. Qed.

(** ** C09: false; rotate3d turns the set by -angle, against the sense of rotate2d. *)
Theorem rotate3d_moves_set_partial : forall f t n1 n2 n3 o1 o2 o3 g, is_unit (mk3 n1 n2 n3) ->
  rotate3d f (A0 t) (Some (A1 [n1; n2; n3])) (A1 [o1; o2; o3]) = Ok g ->
  forall x, g (A1 (list3 (rotate_about (- t) (mk3 n1 n2 n3) (mk3 o1 o2 o3) x))) = f (A1 (list3 x)).
Proof. exact rotate3d_moves. Qed.
Print Assumptions rotate3d_moves_set_partial.

Theorem rotate3d_versus_rotate2d_partial : forall f2 t o1 o2 o3 g x1 x2 x3,
  rotate3d (fun x => match x with A1 [a; b; _] => f2 (A1 [a; b]) | _ => Err TypeError end)
    (A0 t) (Some (A1 [0; 0; 1])) (A1 [o1; o2; o3]) = Ok g ->
  g (A1 [x1; x2; x3]) = rotate2d f2 (- t) (A1 [o1; o2]) (A1 [x1; x2]).
Proof. exact rotate3d_z. Qed.
Print Assumptions rotate3d_versus_rotate2d_partial.

Theorem rotate3d_euler_angles_partial : forall f a b c o1 o2 o3,
  exists g, rotate3d f (A1 [a; b; c]) None (A1 [o1; o2; o3]) = Ok g /\
  forall x, g (A1 (list3 x)) =
    f (A1 (list3 (vadd3 (mk3 o1 o2 o3) (rot_x a (rot_y b (rot_z c (vsub3 x (mk3 o1 o2 o3)))))))).
Proof. exact rotate3d_euler. Qed.
Print Assumptions rotate3d_euler_angles_partial.

Theorem rotate3d_moves_set_refuted : ~ (forall f t n1 n2 n3 o1 o2 o3 g, is_unit (mk3 n1 n2 n3) ->
  rotate3d f (A0 t) (Some (A1 [n1; n2; n3])) (A1 [o1; o2; o3]) = Ok g ->
  forall x, g (A1 (list3 (rotate_about t (mk3 n1 n2 n3) (mk3 o1 o2 o3) x))) = f (A1 (list3 x))).
Proof. exact rotate3d_not_ccw. Qed.
Print Assumptions rotate3d_moves_set_refuted.

(** ** C10 *)
Theorem scale_moves_set : forall f s g x, s <> 0 -> scale f (A0 s) = Ok g ->
  g (A1 (vscal s x)) = bind (f (A1 x)) (fun v => Ok (s * v)).
Proof. exact scale_value. Qed.
Print Assumptions scale_moves_set.

Theorem scale_keeps_sign : forall f s g x v, 0 < s -> scale f (A0 s) = Ok g -> f (A1 x) = Ok v ->
  exists w, g (A1 (vscal s x)) = Ok w /\ sg w = sg v.
Proof. exact scale_sign. Qed.
Print Assumptions scale_keeps_sign.

Theorem scale_keeps_gradient : forall f s g x v d, s <> 0 -> scale f (A0 s) = Ok g ->
  length v = length x -> dir_deriv f x v d -> dir_deriv g (vscal s x) v d.
Proof. exact scale_gradient. Qed.
Print Assumptions scale_keeps_gradient.

Theorem scale_without_normalization_moves_set :
  (forall f s x, s <> 0 -> scale_without_normalization f (A0 s) (A1 (vscal s x)) = f (A1 x)) /\
  (forall f axes x, length x = length axes -> Forall (fun e => e <> 0) axes ->
     scale_without_normalization f (A1 axes) (A1 (map2 Rmult axes x)) = f (A1 x)).
Proof. exact (conj scale_wn_value scale_wn_vector). Qed.
Print Assumptions scale_without_normalization_moves_set.

Theorem scale_rejects_vectors : forall f a, scale f a = Err AssertionError <-> length (ravel a) <> 1%nat.
Proof. exact scale_rejects. Qed.
Print Assumptions scale_rejects_vectors.

Example scale_example : exists g, scale (sphere 1) (A0 2) = Ok g /\ g (A1 (vscal 2 [1; 0])) = Ok 0.
Proof.
  destruct (scale_ok (sphere 1) (A0 2) eq_refl) as (g & E). exists g. split; auto.
  rewrite (scale_value (sphere 1) 2 g [1; 0]) by (auto; lra). rewrite sphere_value by lra. cbn [bind].
  f_equal. unfold sumsq, sumR. simpl. field.
Qed.

(** ** C11 *)
Theorem reflect_moves_set : forall f n o x, length x = length n -> length o = length n -> dotR n n <> 0 ->
  reflect f (A1 n) (A1 o) (A1 (mirror_in n o x)) = f (A1 x).
Proof. exact reflect_moves. Qed.
Print Assumptions reflect_moves_set.

Theorem reflect_involution : forall f n o x, length x = length n -> length o = length n -> dotR n n <> 0 ->
  reflect (reflect f (A1 n) (A1 o)) (A1 n) (A1 o) (A1 x) = f (A1 x).
Proof. exact reflect_twice. Qed.
Print Assumptions reflect_involution.

Theorem reflect_fixes_plane : forall f n o x, length x = length n -> length o = length n -> dotR n n <> 0 ->
  dotR (vsub x o) n = 0 -> reflect f (A1 n) (A1 o) (A1 x) = f (A1 x).
Proof. exact reflect_fixed. Qed.
Print Assumptions reflect_fixes_plane.

Theorem mirror_is_isometry : forall n o x y, length x = length n -> length y = length n ->
  length o = length n -> dotR n n <> 0 ->
  normR (vsub (mirror_in n o x) (mirror_in n o y)) = normR (vsub x y).
Proof. exact mirror_isometry_norm. Qed.
Print Assumptions mirror_is_isometry.

Theorem reflect_origin_scalar : forall f n c x, length x = length n ->
  reflect f (A1 n) (A0 c) (A1 x) = reflect f (A1 n) (A1 (repeat c (length x))) (A1 x).
Proof. exact reflect_scalar_origin. Qed.
Print Assumptions reflect_origin_scalar.

Theorem reflect_needs_normal : forall f n o x, length x = length n -> length o = length n ->
  dotR n n = 0 -> reflect f (A1 n) (A1 o) (A1 x) = Err NonFinite.
Proof. exact reflect_zero_normal. Qed.
Print Assumptions reflect_needs_normal.

Example reflect_example : dotR [2; 0] [2; 0] <> 0 /\ mirror_in [2; 0] [1; 0] [4; 7] = [-2; 7].
Proof.
  assert (E : dotR [2; 0] [2; 0] = 4) by (unfold dotR, sumR; simpl; ring). rewrite E. split; [lra|].
  unfold mirror_in. rewrite E. unfold vsub, vscal, dotR, sumR. simpl. f_equal; [field|f_equal; field].
Qed.

(** ** C12 *)
Theorem project_is_invariant : forall f n o x t, length x = length n -> length o = length n ->
  dotR n n <> 0 ->
  project f (A1 n) (A1 o) (A1 (vadd x (vscal t n))) = project f (A1 n) (A1 o) (A1 x).
Proof. exact project_invariant. Qed.
Print Assumptions project_is_invariant.

Theorem project_keeps_plane : forall f n o x, length x = length n -> length o = length n ->
  dotR n n <> 0 -> dotR (vsub x o) n = 0 -> project f (A1 n) (A1 o) (A1 x) = f (A1 x).
Proof. exact project_on_plane. Qed.
Print Assumptions project_keeps_plane.

Theorem project_origin_scalar : forall f n c x, length x = length n ->
  project f (A1 n) (A0 c) (A1 x) = project f (A1 n) (A1 (repeat c (length x))) (A1 x).
Proof. exact project_scalar_origin. Qed.
Print Assumptions project_origin_scalar.

Theorem revolution_around_x : forall f a,
  (forall b c b' c', b ^ 2 + c ^ 2 = b' ^ 2 + c' ^ 2 ->
     revolution f 0 (A1 [a; b; c]) = revolution f 0 (A1 [a; b'; c'])) /\
  (forall r, 0 <= r -> revolution f 0 (A1 [a; r; 0]) = f (A1 [a; r])).
Proof. exact revolution_x_all. Qed.
Print Assumptions revolution_around_x.

Theorem revolution_around_y : forall f b,
  (forall a c a' c', a ^ 2 + c ^ 2 = a' ^ 2 + c' ^ 2 ->
     revolution f 1 (A1 [a; b; c]) = revolution f 1 (A1 [a'; b; c'])) /\
  (forall r, 0 <= r -> revolution f 1 (A1 [r; b; 0]) = f (A1 [r; b])).
Proof. exact revolution_y_all. Qed.
Print Assumptions revolution_around_y.

Theorem revolution_rejects :
  (forall f axis a b c, axis <> 0%Z -> axis <> 1%Z -> revolution f axis (A1 [a; b; c]) = Err ValueError) /\
  (forall f axis x, shape x <> Some 3%nat -> revolution f axis x = Err AssertionError).
Proof. exact (conj revolution_bad_axis revolution_bad_shape). Qed.
Print Assumptions revolution_rejects.

Example revolution_example : 3 ^ 2 + 4 ^ 2 = 5 ^ 2 + 0 ^ 2 /\
  revolution (sphere 2) 0 (A1 [1; 3; 4]) = sphere 2 (A1 [1; 5]).
Proof.
  assert (E : 3 ^ 2 + 4 ^ 2 = 5 ^ 2 + 0 ^ 2) by ring. split; auto.
  rewrite (revolution_x (sphere 2) 1 3 4 5 0 E). apply revolution_x_half. lra.
Qed.

(** ** C13 *)
Theorem normalize_sign_and_range : forall f df x y dy, f x = Ok y -> df x = Ok dy ->
  y <> 0 \/ anorm dy <> 0 ->
  exists z, normalize_1st_order f df x = Ok z /\ sg z = sg y /\ -1 <= z <= 1.
Proof. exact normalize_defined. Qed.
Print Assumptions normalize_sign_and_range.

Theorem normalize_undefined_point : forall f df x y dy, f x = Ok y -> df x = Ok dy ->
  y = 0 -> anorm dy = 0 -> normalize_1st_order f df x = Err NonFinite.
Proof. exact normalize_undefined. Qed.
Print Assumptions normalize_undefined_point.

(** df returns the gradient g of f at the boundary point x, and its norm varies
    continuously along lines through x. *)
Theorem normalize_is_normalized : forall f df x g G,
  f (A1 x) = Ok 0 -> df (A1 x) = Ok (A1 g) -> length g = length x -> normR g <> 0 ->
  (forall v, length v = length x -> dir_deriv f x v (dotR g v)) ->
  (forall v, length v = length x ->
     locally 0 (fun t => exists h, df (A1 (vadd x (vscal t v))) = Ok h /\ anorm h = G v t) /\ continuous (G v) 0) ->
  dir_deriv (normalize_1st_order f df) x (vscal (/ normR g) g) 1 /\
  (forall v, length v = length x -> dir_deriv (normalize_1st_order f df) x v (dotR g v / normR g)).
Proof. exact normalize_unit_derivative. Qed.
Print Assumptions normalize_is_normalized.

(** f(x) = 3 x with gradient 3 at the boundary point 0 *)
Example normalize_example :
  let f : adf := fun x => match x with A1 [a] => Ok (3 * a) | _ => Err TypeError end in
  let df : arr -> res arr := fun _ => Ok (A1 [3]) in
  dir_deriv (normalize_1st_order f df) [0] (vscal (/ normR [3]) [3]) 1.
Proof.
  intros f df.
  assert (N : normR [3] = 3).
  { unfold normR, sumR. simpl. replace (3 * 3 + 0) with (Rsqr 3) by (unfold Rsqr; ring). apply sqrt_Rsqr; lra. }
  refine (proj1 (normalize_unit_derivative f df [0] [3] (fun _ _ => 3) _ _ _ _ _ _)); try reflexivity.
  - unfold f. f_equal. ring.
  - rewrite N; lra.
  - intros [|v [|]] Hv; simpl in Hv; try discriminate.
    exists (fun t => 3 * (0 + t * v)). split; [apply filter_forall; reflexivity|].
    unfold dotR, sumR; simpl. auto_derive; auto. ring.
  - intros v Hv. split; [|apply continuous_const].
    apply filter_forall. intros t. exists (A1 [3]). split; [reflexivity|exact N].
Qed.

(** ** C14 *)
Theorem compose_is_left_fold : forall op adfs x ds v vs,
  Forall2 (fun df d => df x = Ok d) adfs ds -> concat (map ravel ds) = v :: vs ->
  compose op adfs x = fold_left (fun r w => bind r (fun a => op a w)) vs (Ok v).
Proof. exact compose_fold. Qed.
Print Assumptions compose_is_left_fold.

Theorem compose_conjunction_signs : forall s adfs x ds, sign_correct s ->
  Forall2 (fun df d => df x = Ok d) adfs ds -> concat (map ravel ds) <> [] ->
  decides (compose (conj_ s) adfs x) (Forall (fun a => 0 < a) (concat (map ravel ds)))
          (Exists (fun a => a < 0) (concat (map ravel ds))).
Proof. exact compose_conj. Qed.
Print Assumptions compose_conjunction_signs.

Theorem compose_disjunction_signs : forall s adfs x ds, sign_correct s ->
  Forall2 (fun df d => df x = Ok d) adfs ds -> concat (map ravel ds) <> [] ->
  decides (compose (disj_ s) adfs x) (Exists (fun a => 0 < a) (concat (map ravel ds)))
          (Forall (fun a => a < 0) (concat (map ravel ds))).
Proof. exact compose_disj. Qed.
Print Assumptions compose_disjunction_signs.

Theorem compose_errors : forall op x,
  compose op [] x = Err ValueError /\
  (forall adfs ds, adfs <> [] -> Forall2 (fun df d => df x = Ok d) adfs ds ->
     concat (map ravel ds) = [] -> compose op adfs x = Err TypeError) /\
  (forall pre df post ds e, Forall2 (fun df d => df x = Ok d) pre ds -> df x = Err e ->
     compose op (pre ++ df :: post) x = Err e).
Proof. exact compose_errors_all. Qed.
Print Assumptions compose_errors.

Example compose_example : Forall2 (fun df d => df (A0 1) = Ok d)
  [fun _ => Ok (A1 [1; 2]); fun x : arr => Ok x] [A1 [1; 2]; A0 1] /\
  concat (map ravel [A1 [1; 2]; A0 1]) = [1; 2; 1].
Proof. split; [repeat constructor|reflexivity]. Qed.

(** ** C15 *)
Theorem rotate3d_validation : forall f angle ax o,
  rotate3d f angle ax o = Err ValueError <->
  match shape angle with
  | None => ax = None
  | Some 3%nat => ax <> None
  | Some _ => True
  end.
Proof. exact rotate3d_raises. Qed.
Print Assumptions rotate3d_validation.

(** Points of a wrong dimension other than 1 are rejected (the error is the
    broadcasting TypeError of the translation, not the assertion, unless o is scalar). *)
Theorem rotate_point_dimension_partial :
  (forall f t o1 o2 l, length l <> 1%nat -> length l <> 2%nat ->
     rotate2d f t (A1 [o1; o2]) (A1 l) = Err TypeError) /\
  (forall f angle ax o1 o2 o3 g l, rotate3d f angle ax (A1 [o1; o2; o3]) = Ok g ->
     length l <> 1%nat -> length l <> 3%nat -> g (A1 l) = Err TypeError) /\
  (forall f t c l, length l <> 2%nat -> rotate2d f t (A0 c) (A1 l) = Err AssertionError).
Proof. exact (conj rotate2d_bad_point (conj rotate3d_bad_point rotate2d_scalar_origin)). Qed.
Print Assumptions rotate_point_dimension_partial.

(** A point of shape () or (1,) is silently broadcast. *)
Theorem rotate_point_dimension_refuted :
  (forall f t o1 o2 c,
     rotate2d f t (A1 [o1; o2]) (A1 [c]) = rotate2d f t (A1 [o1; o2]) (A1 [c; c]) /\
     rotate2d f t (A1 [o1; o2]) (A0 c) = rotate2d f t (A1 [o1; o2]) (A1 [c; c])) /\
  (forall f angle ax o1 o2 o3 g c, rotate3d f angle ax (A1 [o1; o2; o3]) = Ok g ->
     g (A1 [c]) = g (A1 [c; c; c]) /\ g (A0 c) = g (A1 [c; c; c])).
Proof. exact (conj rotate2d_broadcast rotate3d_broadcast). Qed.
Print Assumptions rotate_point_dimension_refuted.

Example rotate_silent_value : rotate2d (sphere 1) 0 (A1 [0; 0]) (A1 [0]) = Ok (1 / 2).
Proof.
  rewrite (proj1 (rotate2d_broadcast _ _ _ _ _)), rotate2d_value, sphere_value by lra.
  f_equal. unfold sumsq, sumR. simpl. rewrite cos_0, sin_0. field.
Qed.
