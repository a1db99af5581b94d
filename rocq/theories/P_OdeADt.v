(** Proofs: reverse-mode derivatives of odeint with respect to the times. *)
From Coquelicot Require Import Coquelicot.
From Verif Require Import Base BaseFacts M_Tree M_Ode M_RDual S_RDual M_OdeAD S_OdeAD M_OdeADt S_OdeADt P_RDual1 P_OdeAD P_OdeAD2.

Lemma values_scal_any k x : values (dtree_scal k x) = tree_scalar_mul (fst k) (values x).
Proof. unfold values, dtree_scal, tree_scalar_mul, tree_map1. rewrite !map_map. apply map_ext. intros l. rewrite !map_map. reflexivity. Qed.
Lemma tdot_scal_any k e x : tdot e (tangents (dtree_scal k x)) = fst k * tdot e (tangents x) + snd k * tdot e (values x).
Proof.
  revert e. induction x as [|l x IH]; intros [|m e]; try (unfold tdot; cbn; ring).
  change (tangents (dtree_scal k (l :: x))) with (map snd (map (dmul k) l) :: tangents (dtree_scal k x)).
  change (tangents (l :: x)) with (map snd l :: tangents x). change (values (l :: x)) with (map fst l :: values x). rewrite !tdot_cons, IH.
  assert (E : dotR m (map snd (map (dmul k) l)) = fst k * dotR m (map snd l) + snd k * dotR m (map fst l)); [|rewrite E; ring].
  clear. revert m. induction l as [|p l IH]; intros [|y m]; cbn [map]; rewrite ?dotR_cons, ?IH; try (unfold dotR; cbn; ring).
Qed.

Lemma euler_transposed_yt J df vjp vjpt sh : transposed_yt J df vjp vjpt sh -> step_transposed_yt J df vjp vjpt sh deuler explicit_euler teuler.
Proof.
  intros T x t d Hx. destruct (T x t Hx) as (k & Ek & Sk & Vk & Tk).
  destruct (add_parts x (dtree_scal d k)) as (p & Ep & Sp & Vp & Dp); [rewrite scal_shape; congruence|].
  exists p. unfold deuler, explicit_euler, teuler. rewrite Ek, Vk. cbn [bind]. rewrite values_scal_any in Vp.
  split; [exact Ep|]. split; [congruence|]. split; [exact Vp|]. intros c Hc.
  destruct (Tk (tree_scalar_mul (fst d) c)) as (b & u & Eb & Eu & Sb & Db); [rewrite shape_scal; exact Hc|]. rewrite Eb, Eu. cbn [bind].
  destruct (radd c b) as (r & Er & Sr & Dr); [congruence|]. rewrite Er. cbn [bind]. exists r, u, (tsum c (values k)).
  split; [reflexivity|]. split; [congruence|].
  rewrite tdot_scal_l in Db. change tsum with tdot. rewrite Dr, Dp, tdot_scal_any. lra.
Qed.
Ltac use_addv a b c E S V D := destruct (add_parts a b) as (c & E & S & V & D); [rewrite ?scal_shape; congruence|]; rewrite ?values_scal_any in V; cbn [fst dconst] in V; rewrite ?scal_shape in S.
Lemma rk4_transposed_yt J df vjp vjpt sh : transposed_yt J df vjp vjpt sh -> step_transposed_yt J df vjp vjpt sh drk4 rk4 trk4.
Proof.
  intros T x t d Hx. destruct (T x t Hx) as (k1 & E1 & S1 & V1 & T1).
  use_addv x (dtree_scal (dconst (1 / 2)) (dtree_scal d k1)) a1 Y1 Sa1 Va1 Da1.
  destruct (T a1 (dadd t (dhalf d)) ltac:(congruence)) as (k2 & E2 & S2 & V2 & T2).
  use_addv x (dtree_scal (dconst (1 / 2)) (dtree_scal d k2)) a2 Y2 Sa2 Va2 Da2.
  destruct (T a2 (dadd t (dhalf d)) ltac:(congruence)) as (k3 & E3 & S3 & V3 & T3).
  use_addv x (dtree_scal d k3) a3 Y3 Sa3 Va3 Da3.
  destruct (T a3 (dadd t d) ltac:(congruence)) as (k4 & E4 & S4 & V4 & T4).
  use_addv (dtree_scal d k1) (dtree_scal (dconst 2) (dtree_scal d k2)) s1 Z1 Ss1 Vs1 Ds1.
  use_addv s1 (dtree_scal (dconst 2) (dtree_scal d k3)) s2 Z2 Ss2 Vs2 Ds2.
  use_addv s2 (dtree_scal d k4) s3 Z3 Ss3 Vs3 Ds3.
  use_addv x (dtree_scal (dconst (1 / 6)) s3) p Z4 Sp Vp Dp.
  cbn [fst snd dadd dhalf] in *.
  exists p. split.
  { unfold drk4. rewrite E1. cbn [bind]. rewrite Y1. cbn [bind]. rewrite E2. cbn [bind]. rewrite Y2. cbn [bind]. rewrite E3. cbn [bind].
    rewrite Y3. cbn [bind]. rewrite E4. cbn [bind]. rewrite Z1. cbn [bind]. rewrite Z2. cbn [bind]. rewrite Z3. cbn [bind]. exact Z4. }
  split; [congruence|]. split.
  { unfold rk4. rewrite V1. cbn [bind]. rewrite Va1. cbn [bind]. rewrite V2. cbn [bind]. rewrite Va2. cbn [bind]. rewrite V3. cbn [bind].
    rewrite Va3. cbn [bind]. rewrite V4. cbn [bind]. rewrite Vs1. cbn [bind]. rewrite Vs2. cbn [bind]. rewrite Vs3. cbn [bind]. exact Vp. }
  intros c Hc.
  destruct (T4 (tree_scalar_mul (fst d) (tree_scalar_mul (1 / 6) c))) as (b3 & u3 & F3 & U3 & Sb3 & Db3); [rewrite !shape_scal; exact Hc|].
  use_radd (tree_scalar_mul 2 (tree_scalar_mul (1 / 6) c)) b3 q3 G3 Sc3 Dc3. rewrite !shape_scal in Sc3.
  destruct (T3 (tree_scalar_mul (fst d) q3)) as (b2 & u2 & F2 & U2 & Sb2 & Db2); [rewrite shape_scal; congruence|].
  use_radd (tree_scalar_mul 2 (tree_scalar_mul (1 / 6) c)) (tree_scalar_mul (1 / 2) b2) q2 G2 Sc2 Dc2. rewrite !shape_scal in Sc2.
  destruct (T2 (tree_scalar_mul (fst d) q2)) as (b1 & u1 & F1 & U1 & Sb1 & Db1); [rewrite shape_scal; congruence|].
  use_radd (tree_scalar_mul (1 / 6) c) (tree_scalar_mul (1 / 2) b1) q1 G1 Sc1 Dc1. rewrite !shape_scal in Sc1.
  destruct (T1 (tree_scalar_mul (fst d) q1)) as (b0 & u0 & F0 & U0 & Sb0 & Db0); [rewrite shape_scal; congruence|].
  use_radd c b3 r1 H1 Sr1 Dr1. use_radd r1 b2 r2 H2 Sr2 Dr2. use_radd r2 b1 r3 H3 Sr3 Dr3. use_radd r3 b0 r4 H4 Sr4 Dr4.
  eexists r4, _, _. split.
  { unfold trk4. rewrite V1. cbn [bind]. rewrite Va1. cbn [bind]. rewrite V2. cbn [bind]. rewrite Va2. cbn [bind]. rewrite V3. cbn [bind].
    rewrite Va3. cbn [bind]. rewrite V4. cbn [bind]. rewrite F3, U3. cbn [bind]. rewrite G3. cbn [bind]. rewrite F2, U2. cbn [bind]. rewrite G2. cbn [bind].
    rewrite F1, U1. cbn [bind]. rewrite G1. cbn [bind]. rewrite F0, U0. cbn [bind]. rewrite H1. cbn [bind]. rewrite H2. cbn [bind]. rewrite H3. cbn [bind].
    rewrite H4. cbn [bind]. reflexivity. }
  split; [congruence|]. change tsum with tdot.
  rewrite Da3, tdot_scal_any, !tdot_scal_l in Db3.
  rewrite Da2, !tdot_scal_any, tdot_scal_l, Dc3, !tdot_scal_l in Db2.
  rewrite Da1, !tdot_scal_any, tdot_scal_l, Dc2, !tdot_scal_l in Db1.
  rewrite tdot_scal_l, Dc1, !tdot_scal_l in Db0.
  rewrite Dr4, Dr3, Dr2, Dr1, Dp, tdot_scal_any, Ds3, Ds2, Ds1, !tdot_scal_any, !Dc3, !Dc2, !Dc1, !tdot_scal_l.
  cbn [fst snd dconst] in *. 
  lra.
Qed.

(** ** The scan *)
Lemma tscan_transposed J df vjp vjpt sh D m r : step_transposed_yt J df vjp vjpt sh D m r -> forall ts dts x tp dp cs,
  dshape x = sh -> length cs = length ts -> length dts = length ts -> Forall (fun c => shape c = sh) cs ->
  exists xs l lt ls, dscan_steps J D x (tp, dp) (combine ts dts) = Ok xs /\ tscan_steps df vjp vjpt m r (values x) tp ts cs = Ok (l, lt, ls) /\
    shape l = sh /\ length ls = length ts /\ tdot l (tangents x) + lt * dp + dotR ls dts = tdots cs xs.
Proof.
  intros H. induction ts as [|t ts IH]; intros [|dt dts] x tp dp [|c cs] Hx L Ld Hc; try discriminate.
  - exists [], (tree_scalar_mul 0 (values x)), 0, []. split; [reflexivity|]. split; [reflexivity|]. split; [rewrite shape_scal, shape_values; exact Hx|].
    split; [reflexivity|]. rewrite tdot_zero. unfold tdots, dotR. cbn. ring.
  - inversion Hc as [|? ? Hc0 Hcs]; subst. destruct (H x (t, dt) (dsub (t, dt) (tp, dp)) eq_refl) as (p & Ep & Sp & Vp & Tp).
    destruct (IH dts p t dt cs Sp ltac:(cbn in L; lia) ltac:(cbn in Ld; lia) Hcs) as (xs & l & lt & ls & Ex & El & Sl & Ll & Dl).
    destruct (radd c l) as (c' & Ec & Sc & Dc); [congruence|]. destruct (Tp c' ltac:(congruence)) as (b & ut & ud & Eb & Sb & Db).
    exists (p :: xs), b, (- ud), ((ut + ud + lt) :: ls). cbn [combine dscan_steps tscan_steps].
    rewrite Ep. cbn [bind]. destruct (list_eq_dec _ _ _); [|congruence]. rewrite Ex. cbn [fst dsub] in Vp, Eb. rewrite Vp. cbn [bind]. rewrite El. cbn [bind]. rewrite Ec. cbn [bind].
    rewrite Eb. cbn [bind]. split; [reflexivity|]. split; [reflexivity|]. split; [exact Sb|]. split; [cbn; congruence|].
    rewrite dotR_cons. change (tdots (c :: cs) (p :: xs)) with (tdot c (tangents p) + tdots cs xs). cbn [snd dsub] in Db. rewrite Dc in Db. rewrite <- Dl. lra.
Qed.
Lemma pair_parts y dy : shape dy = shape y -> values (pair_tree y dy) = y /\ tangents (pair_tree y dy) = dy.
Proof.
  unfold values, tangents, pair_tree. revert dy. induction y as [|l y IH]; intros [|d dy] E; try discriminate; [split; reflexivity|].
  unfold shape in *. cbn in *. injection E as E1 E2. destruct (IH dy E2) as [-> ->].
  assert (Q : map fst (combine l d) = l /\ map snd (combine l d) = d); [|destruct Q as [-> ->]; auto].
  clear -E1. revert d E1. induction l as [|a l IH]; intros [|b d] E; try discriminate; [split; reflexivity|]. cbn in *. destruct (IH d) as [-> ->]; auto.
Qed.
Lemma odeint_transposed_yt J df vjp vjpt D m r y dy ts dts cs : step_transposed_yt J df vjp vjpt (shape y) D m r -> shape dy = shape y -> ts <> [] ->
  length dts = length ts -> length cs = length ts -> Forall (fun c => shape c = shape y) cs ->
  exists xs b bt, odeint_jvp J y dy ts dts D = Ok xs /\ odeint_vjp_times df vjp vjpt m r y ts cs = Ok (b, bt) /\
    shape b = shape y /\ length bt = length ts /\ tdot b dy + dotR bt dts = tdots cs xs.
Proof.
  intros H Sy Nt Ld L Hc. destruct ts as [|t0 ts]; [congruence|]. destruct cs as [|c cs]; [discriminate|]. destruct dts as [|d0 dts]; [discriminate|].
  destruct (pair_parts y dy Sy) as [Vy Ty]. inversion Hc as [|? ? Hc0 Hcs]; subst.
  destruct (tscan_transposed J df vjp vjpt (shape y) D m r H ts dts (pair_tree y dy) t0 d0 cs) as (xs & l & lt & ls & Ex & El & Sl & Ll & Dl); auto.
  { apply pair_shape. auto. }
  rewrite Vy in El. rewrite Ty in Dl. destruct (radd c l) as (b & Eb & Sb & Db); [congruence|].
  exists (pair_tree y dy :: xs), b, (lt :: ls). unfold odeint_jvp, dodeint, odeint_vjp_times. cbn [combine].
  rewrite Ex, El. cbn [bind]. rewrite Eb. cbn [bind]. split; [reflexivity|]. split; [reflexivity|]. split; [congruence|]. split; [cbn; congruence|].
  change (tdots (c :: cs) (pair_tree y dy :: xs)) with (tdot c (tangents (pair_tree y dy)) + tdots cs xs).
  rewrite Ty, Db, dotR_cons. rewrite <- Dl. ring.
Qed.
Lemma times_gradient J df vjp vjpt D m r y ts cs : dyn_tracks J (fun _ => df) -> step_tracks D m -> step_transposed_yt J df vjp vjpt (shape y) D m r -> ts <> [] ->
  length cs = length ts -> Forall (fun c => shape c = shape y) cs ->
  exists b bt, odeint_vjp_times df vjp vjpt m r y ts cs = Ok (b, bt) /\ shape b = shape y /\ length bt = length ts /\
    forall dy dts, shape dy = shape y -> length dts = length ts ->
      exists f, locally 0 (fun s => exists ys, odeint df (moved s y dy) (moved1 s ts dts) m = Ok ys /\ f s = sumR (map2 tdot cs ys)) /\
        is_derive f 0 (tdot b dy + dotR bt dts).
Proof.
  intros HJ HD H Nt L Hc. destruct (odeint_transposed_yt J df vjp vjpt D m r y y ts ts cs H eq_refl Nt eq_refl L Hc) as (xs0 & b & bt & _ & Eb & Sb & Lb & _).
  exists b, bt. split; [exact Eb|]. split; [exact Sb|]. split; [exact Lb|]. intros dy dts Sy Ld.
  destruct (odeint_transposed_yt J df vjp vjpt D m r y dy ts dts cs H Sy Nt Ld L Hc) as (xs & b' & bt' & Ex & Eb' & _ & _ & Db). rewrite Eb in Eb'. injection Eb' as <- <-.
  destruct (odeint_tracked J (fun _ => df) D m _ _ _ _ xs HJ HD (trees_dual y dy (eq_sym Sy)) (lines_dual ts dts (eq_sym Ld)) Ex) as (fss & Hf & Lf).
  exists (fun s => sumR (map2 tdot cs (map (point s) fss))). split.
  - revert Lf. apply filter_imp. intros s Hs. rewrite trees_at, lines_at in Hs. exists (map (point s) fss). split; [exact Hs|reflexivity].
  - rewrite Db. apply tdots_derive. exact Hf.
Qed.

(** y' = y ** 2 + t: the cotangent of t is the sum of the cotangents *)
Definition square_vjpt : tdynamics := fun y t c => Ok (sumR (map sumR c)).
Lemma square_transposed_yt sh : transposed_yt square_jvp square_ode square_vjp square_vjpt sh.
Proof.
  intros x t Hx. eexists. split; [reflexivity|]. split; [|split].
  - rewrite <- Hx. unfold dshape. rewrite map_map. apply map_ext. intros l. apply map_length.
  - unfold square_ode, values. f_equal. rewrite !map_map. apply map_ext. intros l. rewrite !map_map. reflexivity.
  - intros c Hc. do 2 eexists. split; [reflexivity|]. split; [reflexivity|]. subst sh. split.
    + rewrite <- Hc. unfold shape, values, dshape in *. revert c Hc. induction x as [|l x IH]; intros [|m c] E; try discriminate; [reflexivity|].
      cbn in *. injection E as E1 E2. f_equal; auto. rewrite map2_length_eq; rewrite map_length; auto.
    + revert c Hc. induction x as [|l x IH]; intros [|m c] E; try discriminate; [unfold tdot; cbn; ring|]. unfold shape, dshape in E. cbn in E. injection E as E1 E2.
      cbn [values tangents map map2]. rewrite !tdot_cons. fold (values x). fold (tangents x).
      change (map (map snd) (map (map (fun a : du => dadd (dmul a a) t)) x)) with (tangents (map (map (fun a : du => dadd (dmul a a) t)) x)).
      rewrite <- (IH c E2). change (sumR (sumR m :: map sumR c)) with (sumR m + sumR (map sumR c)).
      assert (Q : dotR (map2 (fun a k => 2 * a * k) (map fst l) m) (map snd l) + sumR m * snd t = dotR m (map snd (map (fun a : du => dadd (dmul a a) t) l))); [|rewrite <- Q; ring].
      clear -E1. revert m E1. induction l as [|a l IH]; intros [|k m] E; try discriminate; [unfold dotR; cbn; ring|].
      cbn [map map2]. rewrite !dotR_cons, <- IH by (cbn in E; auto). change (sumR (k :: m)) with (k + sumR m). cbn [fst snd dadd dmul]. ring.
Qed.
