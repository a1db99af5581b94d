(** Properties C34-C39: integrate.py. *)
From Coquelicot Require Import Coquelicot.
From Verif Require Import Base BaseFacts S_RFun P_Vec M_Integrate S_Integrate P_Integrate1 P_Integrate2 P_Integrate3.

Lemma library_sound rule K : library_rule rule K -> exists nodes weights,
  sound_rule rule nodes weights /\ reference_exact K nodes weights /\ Forall (fun w => 0 <= w) weights /\
  Forall (fun x => -1 <= x <= 1) nodes /\ sumR weights = 2.
Proof.
  intros [| | |nodes weights K' HK Hn Hw].
  - exists [0], [2]. split; [apply midpoint_sound|]. split; [apply ref_mid|].
    split; [repeat constructor; lra|]. split; [repeat constructor; lra|]. unfold sumR; simpl; lra.
  - exists [-1; 1], [1; 1]. split; [apply trap_sound|]. split; [apply ref_trap|].
    split; [repeat constructor; lra|]. split; [repeat constructor; lra|]. unfold sumR; simpl; lra.
  - exists [-1; 0; 1], [1 / 3; 4 / 3; 1 / 3]. split; [apply simpson_sound|]. split; [apply ref_simp|].
    split; [repeat constructor; lra|]. split; [repeat constructor; lra|]. unfold sumR; simpl; lra.
  - exists nodes, weights.
    assert (S2 : sumR weights = 2).
    { destruct HK as [L HK]. specialize (HK 0%nat ltac:(lia)). simpl in HK.
      replace (sumR (map2 (fun w x : R => w * 1) weights nodes)) with (sumR weights) in HK.
      - rewrite HK. field.
      - f_equal. rewrite (map2_ext _ (fun w _ => w)) by (intros; ring). symmetry. apply map2_fst. auto. }
    split; [|repeat split; auto; try apply HK].
    + apply gauss_sound; auto; [apply HK|]. intros ->. unfold sumR in S2. simpl in S2. lra.
    + eapply Forall_impl; [|exact Hw]. simpl; intros; lra.
Qed.

(** ** C34 *)
Theorem quadrature_exact : forall rule K d c, library_rule rule K -> (2 <= length d)%nat -> (length c <= S K)%nat ->
  integrate (pointwise (peval c)) [d] rule = Ok (A0 (RInt (peval c) (first d) (final d))).
Proof.
  intros rule K d c H Hd Hc. destruct (library_sound rule K H) as (n & w & S & HK & _).
  eapply composite_exact; eauto. apply S.
Qed.
Print Assumptions quadrature_exact.

Theorem quadrature_weights : forall rule K d, library_rule rule K -> (2 <= length d)%nat ->
  exists W X, rule d = Ok (W, X) /\ length W = length X /\ sumR W = final d - first d /\
    (increasing d -> Forall (fun w => 0 < w) W) /\ (nondecreasing d -> all_between (first d) (final d) X).
Proof.
  intros rule K d H Hd. destruct (library_sound rule K H) as (n & w & S & HK & _ & _ & S2).
  destruct (sr_comp _ _ _ S d Hd) as (W & X & E & L & _). exists W, X. split; auto. split; auto.
  split; [apply (composite_weights_sum rule n w d W X (sr_comp _ _ _ S) S2 (proj1 HK) Hd E)|]. split.
  - destruct H; intros I; [eapply midpoint_positive|eapply trap_positive|eapply simpson_positive|eapply gauss_positive]; eauto.
  - intros I. eapply (sr_between _ _ _ S); eauto.
Qed.
Print Assumptions quadrature_weights.

(** In one dimension the integrand is called once with all nodes; one that returns a
    scalar (a constant function, say) is rejected. *)
Theorem integrate_1d_scalar_result : forall rule K d c, library_rule rule K -> (2 <= length d)%nat ->
  integrate (fun _ => Ok (A0 c)) [d] rule = Err TypeError.
Proof.
  intros rule K d c H Hd. destruct (quadrature_weights rule K d H Hd) as (W & X & E & _).
  unfold integrate. cbn [map sequence]. rewrite E. reflexivity.
Qed.
Print Assumptions integrate_1d_scalar_result.

Example uneven_grid : integrate (pointwise (peval [0; 0; 0; 4])) [[2; 1; 3]] simpson = Ok (A0 65).
Proof.
  rewrite (quadrature_exact simpson 3); [|constructor|simpl; lia|simpl; lia].
  do 2 f_equal. rewrite (is_RInt_unique _ _ _ _ (is_RInt_peval _ _ _)). unfold first, final. simpl. field.
Qed.

(** ** C35 *)
Theorem gauss_composite_exact : forall nodes weights K d c, reference_exact K nodes weights ->
  (2 <= length d)%nat -> (length c <= S K)%nat ->
  integrate (pointwise (peval c)) [d] (gauss nodes weights) = Ok (A0 (RInt (peval c) (first d) (final d))).
Proof. intros. eapply composite_exact; eauto. apply gauss_composite. apply H. Qed.
Print Assumptions gauss_composite_exact.

Example gauss2_reference : reference_exact 3 [- (1 / sqrt 3); 1 / sqrt 3] [1; 1].
Proof.
  split; [reflexivity|]. assert (Hs : 0 < sqrt 3) by (apply sqrt_lt_R0; lra).
  assert (Hq : sqrt 3 * sqrt 3 = 3) by (apply sqrt_sqrt; lra).
  intros [|[|[|[|k]]]] H; [| | | |lia]; unfold sumR; simpl; try (field; lra).
  replace (1 * (- (1 / sqrt 3) * (- (1 / sqrt 3) * 1)) + (1 * (1 / sqrt 3 * (1 / sqrt 3 * 1)) + 0)) with (2 / (sqrt 3 * sqrt 3)) by (field; lra).
  rewrite Hq. field.
Qed.
Example gauss3_reference : reference_exact 5 [- sqrt (3 / 5); 0; sqrt (3 / 5)] [5 / 9; 8 / 9; 5 / 9].
Proof.
  split; [reflexivity|]. assert (Hq : sqrt (3 / 5) * sqrt (3 / 5) = 3 / 5) by (apply sqrt_sqrt; lra).
  set (s := sqrt (3 / 5)) in *. clearbody s.
  intros [|[|[|[|[|[|k]]]]]] H; [| | | | | |lia]; unfold sumR; simpl; try (field; lra).
  - replace (5 / 9 * (- s * (- s * 1)) + (8 / 9 * (0 * (0 * 1)) + (5 / 9 * (s * (s * 1)) + 0))) with (10 / 9 * (s * s)) by field.
    rewrite Hq. field.
  - replace (5 / 9 * (- s * (- s * (- s * (- s * 1)))) + (8 / 9 * (0 * (0 * (0 * (0 * 1)))) + (5 / 9 * (s * (s * (s * (s * 1)))) + 0)))
      with (10 / 9 * ((s * s) * (s * s))) by field.
    rewrite Hq. field.
Qed.

(** ** C36 *)
Definition grids_ok (ds : list (list R)) := Forall (fun d => (2 <= length d)%nat) ds.

Theorem integrate_is_iterated : forall rule K ds f F, library_rule rule K -> (2 <= length ds)%nat -> grids_ok ds ->
  (forall p, length p = length ds -> f p = Ok (A0 (F p))) ->
  exists rules, Forall2 (fun d r => rule d = Ok r) ds rules /\
    integrate f ds rule = Ok (A0 (iterated rules F)).
Proof.
  intros rule K ds f F H Hk Hd Hf. destruct (library_sound rule K H) as (n & w & S & _).
  destruct (sound_rules_of _ _ _ ds S Hd) as [rs HR]. exists rs. split.
  - clear -HR. induction HR as [|d r ds rs [E _] _ IH]; constructor; auto.
  - apply integrate_nd; auto. intros p Hp. apply Hf. apply Forall2_length in Hp. rewrite Hp. eapply rules_of_length; eauto.
Qed.
Print Assumptions integrate_is_iterated.

(** vector valued integrands: component by component *)
Theorem integrate_vector_is_iterated : forall rule K ds f F m, library_rule rule K -> (2 <= length ds)%nat -> grids_ok ds ->
  (forall p, length p = length ds -> f p = Ok (A1 (F p)) /\ length (F p) = m) ->
  exists rules v, Forall2 (fun d r => rule d = Ok r) ds rules /\ integrate f ds rule = Ok (A1 v) /\ length v = m /\
    forall i, (i < m)%nat -> nth i v 0 = iterated rules (fun p => nth i (F p) 0).
Proof.
  intros rule K ds f F m H Hk Hd Hf. destruct (library_sound rule K H) as (n & w & S & _).
  destruct (sound_rules_of _ _ _ ds S Hd) as [rs HR]. exists rs. eexists. split; [|split; [|split]].
  - clear -HR. induction HR as [|d r ds rs [E _] _ IH]; constructor; auto.
  - apply (integrate_nd_vec f F m ds rule rs); auto. intros p Hp. apply Hf. apply Forall2_length in Hp. rewrite Hp. eapply rules_of_length; eauto.
  - rewrite map_length, seq_length. auto.
  - intros i Hi. set (g := fun i => iterated rs (fun p => nth i (F p) 0)).
    rewrite (nth_indep _ 0 (g 0%nat)) by (rewrite map_length, seq_length; auto). rewrite (map_nth g), seq_nth by auto. reflexivity.
Qed.
Print Assumptions integrate_vector_is_iterated.

Theorem integrate_1d_is_sum : forall rule K d f, library_rule rule K -> (2 <= length d)%nat ->
  exists W X, rule d = Ok (W, X) /\ integrate (pointwise f) [d] rule = Ok (A0 (iterated [(W, X)] (fun p => f (nth 0 p 0)))).
Proof.
  intros rule K d f H Hd. destruct (library_sound rule K H) as (n & w & S & _).
  destruct (sr_comp _ _ _ S d Hd) as (W & X & E & L & HS). exists W, X. split; auto.
  rewrite (integrate_1d rule (ps_gauss n w)) by (apply S; auto). do 2 f_equal. rewrite <- HS. unfold dotR. rewrite map2_map_r. reflexivity.
Qed.
Print Assumptions integrate_1d_is_sum.

Theorem integrate_linear : forall rule K ds F G a b, library_rule rule K -> (2 <= length ds)%nat -> grids_ok ds ->
  exists u v, integrate (fun p => Ok (A0 (F p))) ds rule = Ok (A0 u) /\ integrate (fun p => Ok (A0 (G p))) ds rule = Ok (A0 v) /\
    integrate (fun p => Ok (A0 (a * F p + b * G p))) ds rule = Ok (A0 (a * u + b * v)).
Proof.
  intros rule K ds F G a b H Hk Hd. destruct (library_sound rule K H) as (n & w & S & _).
  destruct (sound_rules_of _ _ _ ds S Hd) as [rs HR].
  do 2 eexists. split; [eapply integrate_nd; eauto|]. split; [eapply integrate_nd; eauto|].
  rewrite (integrate_nd _ (fun p => a * F p + b * G p) ds rule rs); auto. rewrite iterated_linear. auto.
Qed.
Print Assumptions integrate_linear.

(** f(x) = f1(x1) ... fk(xk): the product of the one-dimensional results *)
Theorem integrate_product : forall rule K ds fs, library_rule rule K -> (2 <= length ds)%nat -> grids_ok ds ->
  length fs = length ds ->
  exists vs, Forall2 (fun fd v => integrate (pointwise (fst fd)) [snd fd] rule = Ok (A0 v)) (combine fs ds) vs /\
    integrate (fun p => Ok (A0 (prodR (map2 (fun (f : R -> R) x => f x) fs p)))) ds rule = Ok (A0 (prodR vs)).
Proof.
  intros rule K ds fs H Hk Hd Hf. destruct (library_sound rule K H) as (n & w & S & _).
  destruct (sound_rules_of _ _ _ ds S Hd) as [rs HR].
  exists (map2 (fun (f : R -> R) r => sumR (map2 (fun w x => w * f x) (fst r) (snd r))) fs rs). split.
  - clear Hk. revert fs Hf Hd. induction HR as [|d r ds rs [E _] HR IH]; intros [|f fs] Hf Hd; simpl in Hf; try lia; [constructor|].
    inversion Hd; subst. cbn [combine map2]. constructor; [|apply IH; auto]. cbn [fst snd].
    rewrite (integrate_1d rule (ps_gauss n w)) by (apply S; auto). erewrite rule_sum by eauto. reflexivity.
  - rewrite (integrate_nd _ (fun p => prodR (map2 (fun (f : R -> R) x => f x) fs p)) ds rule rs); auto.
    rewrite iterated_product; auto. rewrite (rules_of_length _ _ _ HR). auto.
Qed.
Print Assumptions integrate_product.

(** the node (x1,..,xk) is passed with coordinates in the order of the domain list and
    weighted by the product of the weights: two dimensions spelled out *)
Example integrate_2d : integrate (fun p => Ok (A0 (nth 0 p 0 + 10 * nth 1 p 0))) [[0; 2]; [0; 1; 5]] midpoint =
  Ok (A0 (2 * 1 * (1 + 10 * (1 / 2)) + 2 * 4 * (1 + 10 * 3))).
Proof.
  destruct (integrate_is_iterated midpoint 1 [[0; 2]; [0; 1; 5]] (fun p => Ok (A0 (nth 0 p 0 + 10 * nth 1 p 0))) (fun p => nth 0 p 0 + 10 * nth 1 p 0))
    as (rs & HR & ->); [apply lib_midpoint|simpl; lia|repeat constructor|auto|].
  inversion HR as [|? r1 ? ? E1 HR2]; subst. inversion HR2 as [|? r2 ? ? E2 HR3]; subst. inversion HR3; subst.
  injection E1 as <-. injection E2 as <-. do 2 f_equal. unfold adjacent, sumR. simpl. unfold sumR. simpl. field.
Qed.

(** ** C37 *)
Theorem integrate_disk_constant : forall rule K c r o1 o2 n1 n2 r_inner phi1 phi2, library_rule rule K -> (1 <= K)%nat ->
  (2 <= n1)%nat -> (2 <= n2)%nat ->
  integrate_disk (fun _ => Ok (A0 c)) r [o1; o2] (NTup [n1; n2]) r_inner phi1 phi2 rule =
    Ok (A0 (c * ((r ^ 2 - r_inner ^ 2) / 2) * (phi2 - phi1))).
Proof.
  intros rule K c r o1 o2 n1 n2 r_inner phi1 phi2 H HK1 H1 H2. destruct (library_sound rule K H) as (n & w & S & HK & _).
  eapply disk_constant; eauto.
Qed.
Print Assumptions integrate_disk_constant.

Theorem integrate_disk_area : forall rule K r o1 o2 n, library_rule rule K -> (1 <= K)%nat -> (2 <= n)%nat ->
  integrate_disk (fun _ => Ok (A0 1)) r [o1; o2] (NInt n) 0 0 (2 * PI) rule = Ok (A0 (PI * r ^ 2)).
Proof.
  intros rule K r o1 o2 n H HK Hn. rewrite disk_counts. rewrite (integrate_disk_constant rule K) by auto. do 2 f_equal. field.
Qed.
Print Assumptions integrate_disk_area.

Theorem integrate_disk_evaluates_inside : forall rule K f g r o1 o2 n1 n2 r_inner phi1 phi2, library_rule rule K ->
  (2 <= n1)%nat -> (2 <= n2)%nat -> 0 <= r_inner <= r ->
  (forall y1 y2, r_inner <= normR [y1 - o1; y2 - o2] <= r -> f [y1; y2] = g [y1; y2]) ->
  integrate_disk f r [o1; o2] (NTup [n1; n2]) r_inner phi1 phi2 rule =
  integrate_disk g r [o1; o2] (NTup [n1; n2]) r_inner phi1 phi2 rule.
Proof.
  intros rule K f g r o1 o2 n1 n2 r_inner phi1 phi2 H. destruct (library_sound rule K H) as (n & w & S & _).
  eapply disk_support_only; eauto.
Qed.
Print Assumptions integrate_disk_evaluates_inside.

Theorem integrate_disk_shift : forall f r o1 o2 s1 s2 n r_inner phi1 phi2 rule,
  integrate_disk f r [o1 + s1; o2 + s2] n r_inner phi1 phi2 rule =
  integrate_disk (fun p => f (vadd p [s1; s2])) r [o1; o2] n r_inner phi1 phi2 rule.
Proof. exact disk_shift. Qed.
Print Assumptions integrate_disk_shift.

Theorem integrate_disk_formula : forall rule K f F r o1 o2 n1 n2 r_inner phi1 phi2, library_rule rule K ->
  (2 <= n1)%nat -> (2 <= n2)%nat -> (forall p, length p = 2%nat -> f p = Ok (A0 (F p))) ->
  exists Rr Rp, rule (linspace r_inner r n1) = Ok Rr /\ rule (linspace phi1 phi2 n2) = Ok Rp /\
  integrate_disk f r [o1; o2] (NTup [n1; n2]) r_inner phi1 phi2 rule =
    Ok (A0 (iterated [Rr; Rp] (fun u => let rr := nth 0 u 0 in let phi := nth 1 u 0 in
              F [rr * cos phi + o1; rr * sin phi + o2] * rr))).
Proof.
  intros rule K f F r o1 o2 n1 n2 r_inner phi1 phi2 H H1 H2 Hf. destruct (library_sound rule K H) as (n & w & S & _).
  destruct (disk_as_iterated _ _ _ f F r o1 o2 n1 n2 r_inner phi1 phi2 S H1 H2 Hf) as (rs & HR & E).
  inversion HR as [|? r1 ? ? [E1 _] HR2]; subst. inversion HR2 as [|? r2 ? ? [E2 _] HR3]; subst. inversion HR3; subst.
  exists r1, r2. repeat split; auto.
Qed.
Print Assumptions integrate_disk_formula.

Theorem integrate_sphere_formula : forall rule K f F r o1 o2 o3 n1 n2 n3 r_inner phi1 phi2 theta1 theta2, library_rule rule K ->
  (2 <= n1)%nat -> (2 <= n2)%nat -> (2 <= n3)%nat -> (forall p, length p = 3%nat -> f p = Ok (A0 (F p))) ->
  exists Rr Rp Rt, rule (linspace r_inner r n1) = Ok Rr /\ rule (linspace phi1 phi2 n2) = Ok Rp /\ rule (linspace theta1 theta2 n3) = Ok Rt /\
  integrate_sphere f r [o1; o2; o3] (NTup [n1; n2; n3]) r_inner phi1 phi2 theta1 theta2 rule =
    Ok (A0 (iterated [Rr; Rp; Rt] (fun u => let r := nth 0 u 0 in let phi := nth 1 u 0 in let theta := nth 2 u 0 in
      F [r * sin phi * cos theta + o1; r * sin phi * sin theta + o2; r * cos phi + o3] * (r ^ 2 * sin phi)))).
Proof.
  intros rule K f F r o1 o2 o3 n1 n2 n3 r_inner phi1 phi2 theta1 theta2 H H1 H2 H3 Hf. destruct (library_sound rule K H) as (n & w & S & _).
  destruct (sphere_as_iterated _ _ _ f F r o1 o2 o3 n1 n2 n3 r_inner phi1 phi2 theta1 theta2 S H1 H2 H3 Hf) as (rs & HR & E).
  inversion HR as [|? r1 ? ? [E1 _] HR2]; subst. inversion HR2 as [|? r2 ? ? [E2 _] HR3]; subst.
  inversion HR3 as [|? r3 ? ? [E3 _] HR4]; subst. inversion HR4; subst.
  exists r1, r2, r3. repeat split; auto.
Qed.
Print Assumptions integrate_sphere_formula.

Theorem integrate_sphere_evaluates_inside : forall rule K f g r o1 o2 o3 n1 n2 n3 r_inner phi1 phi2 theta1 theta2,
  library_rule rule K -> (2 <= n1)%nat -> (2 <= n2)%nat -> (2 <= n3)%nat -> 0 <= r_inner <= r ->
  (forall y1 y2 y3, r_inner <= normR [y1 - o1; y2 - o2; y3 - o3] <= r -> f [y1; y2; y3] = g [y1; y2; y3]) ->
  integrate_sphere f r [o1; o2; o3] (NTup [n1; n2; n3]) r_inner phi1 phi2 theta1 theta2 rule =
  integrate_sphere g r [o1; o2; o3] (NTup [n1; n2; n3]) r_inner phi1 phi2 theta1 theta2 rule.
Proof.
  intros rule K f g r o1 o2 o3 n1 n2 n3 r_inner phi1 phi2 theta1 theta2 H. destruct (library_sound rule K H) as (n & w & S & _).
  eapply sphere_support_only; eauto.
Qed.
Print Assumptions integrate_sphere_evaluates_inside.

Theorem integrate_sphere_shift : forall f r o1 o2 o3 s1 s2 s3 n r_inner phi1 phi2 theta1 theta2 rule,
  integrate_sphere f r [o1 + s1; o2 + s2; o3 + s3] n r_inner phi1 phi2 theta1 theta2 rule =
  integrate_sphere (fun p => f (vadd p [s1; s2; s3])) r [o1; o2; o3] n r_inner phi1 phi2 theta1 theta2 rule.
Proof. exact sphere_shift. Qed.
Print Assumptions integrate_sphere_shift.

(** The volume of the ball up to the quadrature error in the polar angle. *)
Theorem integrate_sphere_volume : forall rule K c r o1 o2 o3 n1 n2 n3, library_rule rule K -> (2 <= K)%nat -> 
  (2 <= n1)%nat -> (2 <= n2)%nat -> (2 <= n3)%nat ->
  exists s, integrate_sphere (fun _ => Ok (A0 c)) r [o1; o2; o3] (NTup [n1; n2; n3]) 0 0 PI 0 (2 * PI) rule =
    Ok (A0 (c * (r ^ 3 / 3) * s * (2 * PI))) /\ Rabs (s - 2) <= PI / INR (n2 - 1) * PI.
Proof.
  intros rule K c r o1 o2 o3 n1 n2 n3 H HK2 H1 H2 H3. destruct (library_sound rule K H) as (n & w & S & HK & Hw & Hn & S2).
  destruct (sphere_constant _ _ _ K c r o1 o2 o3 n1 n2 n3 0 0 PI 0 (2 * PI) S HK HK2 H1 H2 H3) as (s & E & ->).
  exists s. split; [do 2 f_equal; field|].
  destruct (composite_error rule n w sin (linspace 0 PI n2) (PI / INR (n2 - 1)) 1) as (v & E' & B); auto; try lra.
  - apply S.
  - apply HK.
  - rewrite linspace_length; auto.
  - apply linspace_nondecreasing. pose proof PI_RGT_0; lra.
  - replace (PI / INR (n2 - 1)) with ((PI - 0) / INR (n2 - 1)) by (f_equal; ring). apply linspace_steps; auto.
  - intros x y _ _. rewrite Rmult_1_l. destruct (Req_dec x y) as [->|N]; [rewrite !Rminus_diag_eq, Rabs_R0 by auto; lra|].
    destruct (MVT_gen sin x y cos) as (z & _ & Ez).
    + intros t _. auto_derive; auto. ring.
    + intros t _. apply continuity_sin.
    + rewrite <- (Rabs_Ropp (sin x - sin y)), <- (Rabs_Ropp (x - y)).
      replace (- (sin x - sin y)) with (cos z * (y - x)) by lra. replace (- (x - y)) with (y - x) by ring.
      rewrite Rabs_mult. rewrite <- (Rmult_1_l (Rabs (y - x))) at 2. apply Rmult_le_compat_r; [apply Rabs_pos|].
      apply Rabs_le. apply COS_bound.
  - rewrite E in E'. injection E' as <-. rewrite linspace_first, linspace_final in B by auto.
    replace (RInt sin 0 PI) with 2 in B; [lra|]. symmetry. apply is_RInt_unique.
    replace 2 with (- cos PI - - cos 0) by (rewrite cos_PI, cos_0; ring).
    apply (is_RInt_derive (fun x => - cos x) sin).
    + intros x _. auto_derive; auto. ring.
    + intros x _. apply continuity_pt_filterlim, continuity_sin.
Qed.
Print Assumptions integrate_sphere_volume.

Theorem integrate_disk_bad_counts : forall f r o l r_inner phi1 phi2 rule, length l <> 2%nat ->
  integrate_disk f r o (NTup l) r_inner phi1 phi2 rule = Err AssertionError.
Proof. exact disk_bad_counts. Qed.
Print Assumptions integrate_disk_bad_counts.

(** ** C38 *)
Theorem quadrature_additive : forall rule K f l m r, library_rule rule K -> l <> [] -> r <> [] ->
  exists u v, integrate (pointwise f) [l ++ [m]] rule = Ok (A0 u) /\ integrate (pointwise f) [m :: r] rule = Ok (A0 v) /\
    integrate (pointwise f) [l ++ m :: r] rule = Ok (A0 (u + v)).
Proof.
  intros rule K f l m r H. destruct (library_sound rule K H) as (n & w & S & _). eapply composite_additive. apply S.
Qed.
Print Assumptions quadrature_additive.

(** ** C39 *)
Theorem quadrature_error : forall rule K f d h L, library_rule rule K -> (2 <= length d)%nat -> nondecreasing d ->
  steps_at_most h d -> 0 <= L -> lipschitz_on (first d) (final d) L f ->
  exists v, integrate (pointwise f) [d] rule = Ok (A0 v) /\
    Rabs (v - RInt f (first d) (final d)) <= L * h * (final d - first d).
Proof.
  intros rule K f d h L H. destruct (library_sound rule K H) as (n & w & S & HK & Hw & Hn & S2).
  apply (composite_error rule n w); auto; [apply S|apply HK].
Qed.
Print Assumptions quadrature_error.

Example error_example : nondecreasing [0; 1; 3] /\ steps_at_most 2 [0; 1; 3] /\ lipschitz_on 0 3 1 (fun x => x).
Proof. repeat split; try lra. intros x y _ _. lra. Qed.
