(** Proofs: reverse-mode derivatives of odeint with respect to additional arguments. *)
From Coquelicot Require Import Coquelicot.
From Verif Require Import Base BaseFacts M_Tree M_Ode M_RDual S_RDual M_OdeAD S_OdeAD M_OdeADp S_OdeADp P_RDual1 P_OdeAD P_OdeAD2 P_OdeADt.

Lemma euler_transposed_yp J df vjp vjpp sh dp : transposed_yp J df vjp vjpp sh dp -> step_transposed_yp J df vjp vjpp sh dp deuler explicit_euler peuler.
Proof.
  intros T x t d Hx. destruct (T x t Hx) as (k & Ek & Sk & Vk & Tk).
  destruct (add_parts x (dtree_scal (d, 0) k)) as (p & Ep & Sp & Vp & Dp); [rewrite scal_shape; congruence|].
  exists p. unfold deuler, explicit_euler, peuler. rewrite Ek, Vk. cbn [bind]. rewrite values_scal in Vp.
  split; [exact Ep|]. split; [congruence|]. split; [exact Vp|]. intros c Hc.
  destruct (Tk (tree_scalar_mul d c)) as (b & w & Eb & Ew & Sb & Sw & Db); [rewrite shape_scal; exact Hc|]. rewrite Eb, Ew. cbn [bind].
  destruct (radd c b) as (r & Er & Sr & Dr); [congruence|]. rewrite Er. cbn [bind]. exists r, w.
  split; [reflexivity|]. split; [congruence|]. split; [exact Sw|].
  rewrite tdot_scal_l in Db. rewrite Dr, Dp, tdot_scal_r. lra.
Qed.
Lemma rk4_transposed_yp J df vjp vjpp sh dp : transposed_yp J df vjp vjpp sh dp -> step_transposed_yp J df vjp vjpp sh dp drk4 rk4 prk4.
Proof.
  intros T x t d Hx. destruct (T x t Hx) as (k1 & E1 & S1 & V1 & T1).
  use_addv x (dtree_scal (dconst (1 / 2)) (dtree_scal (d, 0) k1)) a1 Y1 Sa1 Va1 Da1.
  destruct (T a1 (t + d / 2) ltac:(congruence)) as (k2 & E2 & S2 & V2 & T2).
  use_addv x (dtree_scal (dconst (1 / 2)) (dtree_scal (d, 0) k2)) a2 Y2 Sa2 Va2 Da2.
  destruct (T a2 (t + d / 2) ltac:(congruence)) as (k3 & E3 & S3 & V3 & T3).
  use_addv x (dtree_scal (d, 0) k3) a3 Y3 Sa3 Va3 Da3.
  destruct (T a3 (t + d) ltac:(congruence)) as (k4 & E4 & S4 & V4 & T4).
  use_addv (dtree_scal (d, 0) k1) (dtree_scal (dconst 2) (dtree_scal (d, 0) k2)) s1 Z1 Ss1 Vs1 Ds1.
  use_addv s1 (dtree_scal (dconst 2) (dtree_scal (d, 0) k3)) s2 Z2 Ss2 Vs2 Ds2.
  use_addv s2 (dtree_scal (d, 0) k4) s3 Z3 Ss3 Vs3 Ds3.
  use_addv x (dtree_scal (dconst (1 / 6)) s3) p Z4 Sp Vp Dp.
  exists p. split.
  { unfold drk4. rewrite E1. cbn [bind]. rewrite Y1. cbn [bind]. rewrite half_time, E2. cbn [bind]. rewrite Y2. cbn [bind]. rewrite E3. cbn [bind].
    rewrite Y3. cbn [bind]. rewrite full_time, E4. cbn [bind]. rewrite Z1. cbn [bind]. rewrite Z2. cbn [bind]. rewrite Z3. cbn [bind]. exact Z4. }
  split; [congruence|]. split.
  { unfold rk4. rewrite V1. cbn [bind]. rewrite Va1. cbn [bind]. rewrite V2. cbn [bind]. rewrite Va2. cbn [bind]. rewrite V3. cbn [bind].
    rewrite Va3. cbn [bind]. rewrite V4. cbn [bind]. rewrite Vs1. cbn [bind]. rewrite Vs2. cbn [bind]. rewrite Vs3. cbn [bind]. exact Vp. }
  intros c Hc.
  destruct (T4 (tree_scalar_mul d (tree_scalar_mul (1 / 6) c))) as (b3 & w3 & F3 & U3 & Sb3 & Sw3 & Db3); [rewrite !shape_scal; exact Hc|].
  use_radd (tree_scalar_mul 2 (tree_scalar_mul (1 / 6) c)) b3 q3 G3 Sc3 Dc3. rewrite !shape_scal in Sc3.
  destruct (T3 (tree_scalar_mul d q3)) as (b2 & w2 & F2 & U2 & Sb2 & Sw2 & Db2); [rewrite shape_scal; congruence|].
  use_radd (tree_scalar_mul 2 (tree_scalar_mul (1 / 6) c)) (tree_scalar_mul (1 / 2) b2) q2 G2 Sc2 Dc2. rewrite !shape_scal in Sc2.
  destruct (T2 (tree_scalar_mul d q2)) as (b1 & w1 & F1 & U1 & Sb1 & Sw1 & Db1); [rewrite shape_scal; congruence|].
  use_radd (tree_scalar_mul (1 / 6) c) (tree_scalar_mul (1 / 2) b1) q1 G1 Sc1 Dc1. rewrite !shape_scal in Sc1.
  destruct (T1 (tree_scalar_mul d q1)) as (b0 & w0 & F0 & U0 & Sb0 & Sw0 & Db0); [rewrite shape_scal; congruence|].
  use_radd c b3 r1 H1 Sr1 Dr1. use_radd r1 b2 r2 H2 Sr2 Dr2. use_radd r2 b1 r3 H3 Sr3 Dr3. use_radd r3 b0 r4 H4 Sr4 Dr4.
  use_radd w3 w2 h1 N1 Sv1 Dv1. use_radd h1 w1 h2 N2 Sv2 Dv2. use_radd h2 w0 h3 N3 Sv3 Dv3.
  exists r4, h3. split.
  { unfold prk4. rewrite V1. cbn [bind]. rewrite Va1. cbn [bind]. rewrite V2. cbn [bind]. rewrite Va2. cbn [bind]. rewrite V3. cbn [bind].
    rewrite Va3. cbn [bind]. rewrite F3, U3. cbn [bind]. rewrite G3. cbn [bind]. rewrite F2, U2. cbn [bind]. rewrite G2. cbn [bind].
    rewrite F1, U1. cbn [bind]. rewrite G1. cbn [bind]. rewrite F0, U0. cbn [bind]. rewrite H1. cbn [bind]. rewrite H2. cbn [bind]. rewrite H3. cbn [bind].
    rewrite H4. cbn [bind]. rewrite N1. cbn [bind]. rewrite N2. cbn [bind]. rewrite N3. cbn [bind]. reflexivity. }
  split; [congruence|]. split; [congruence|].
  rewrite Da3, tdot_scal_any, !tdot_scal_l in Db3.
  rewrite Da2, !tdot_scal_any, tdot_scal_l, Dc3, !tdot_scal_l in Db2.
  rewrite Da1, !tdot_scal_any, tdot_scal_l, Dc2, !tdot_scal_l in Db1.
  rewrite tdot_scal_l, Dc1, !tdot_scal_l in Db0.
  rewrite Dr4, Dr3, Dr2, Dr1, Dv3, Dv2, Dv1, Dp, tdot_scal_any, Ds3, Ds2, Ds1, !tdot_scal_any.
  cbn [fst snd dconst] in *. lra.
Qed.

(** ** The scan *)
Lemma pscan_transposed J df vjp vjpp sh args dp D m r : shape dp = shape args -> step_transposed_yp J df vjp vjpp sh dp D m r -> forall ts x tp cs,
  dshape x = sh -> length cs = length ts -> Forall (fun c => shape c = sh) cs ->
  exists xs l w, dscan_steps J D x (tp, 0) (map (fun t => (t, 0)) ts) = Ok xs /\ pscan_steps df vjp vjpp m r args (values x) tp ts cs = Ok (l, w) /\
    shape l = sh /\ shape w = shape args /\ tdot l (tangents x) + tdot w dp = tdots cs xs.
Proof.
  intros Sd H. induction ts as [|t ts IH]; intros x tp [|c cs] Hx L Hc; try discriminate.
  - exists [], (tree_scalar_mul 0 (values x)), (tree_scalar_mul 0 args). split; [reflexivity|]. split; [reflexivity|]. split; [rewrite shape_scal, shape_values; exact Hx|].
    split; [apply shape_scal|]. rewrite !tdot_zero. unfold tdots. cbn. ring.
  - inversion Hc as [|? ? Hc0 Hcs]; subst. destruct (H x t (t - tp) eq_refl) as (p & Ep & Sp & Vp & Tp).
    destruct (IH p t cs Sp ltac:(cbn in L; lia) Hcs) as (xs & l & lw & Ex & El & Sl & Slw & Dl).
    destruct (radd c l) as (c' & Ec & Sc & Dc); [congruence|]. destruct (Tp c' ltac:(congruence)) as (b & w & Eb & Sb & Sw & Db).
    destruct (radd lw w) as (w' & Ew & Sw' & Dw); [congruence|].
    exists (p :: xs), b, w'. cbn [map dscan_steps pscan_steps]. replace (dsub (t, 0) (tp, 0)) with (t - tp, 0) by (unfold dsub; cbn; f_equal; ring).
    rewrite Ep. cbn [bind]. destruct (list_eq_dec _ _ _); [|congruence]. rewrite Ex, Vp. cbn [bind]. rewrite El. cbn [bind fst snd]. rewrite Ec. cbn [bind].
    rewrite Eb. cbn [bind fst snd]. rewrite Ew. cbn [bind].
    split; [reflexivity|]. split; [reflexivity|]. split; [exact Sb|]. split; [congruence|].
    change (tdots (c :: cs) (p :: xs)) with (tdot c (tangents p) + tdots cs xs). rewrite Dc in Db. rewrite Dw, <- Dl. lra.
Qed.
Lemma odeint_transposed_yp J df vjp vjpp D m r args dp y dy ts cs : shape dp = shape args -> step_transposed_yp J df vjp vjpp (shape y) dp D m r ->
  shape dy = shape y -> ts <> [] -> length cs = length ts -> Forall (fun c => shape c = shape y) cs ->
  exists xs b w, odeint_jvp J y dy ts (map (fun _ => 0) ts) D = Ok xs /\ odeint_vjp_args df vjp vjpp m r args y ts cs = Ok (b, w) /\
    shape b = shape y /\ shape w = shape args /\ tdot b dy + tdot w dp = tdots cs xs.
Proof.
  intros Sd H Sy Nt L Hc. destruct ts as [|t0 ts]; [congruence|]. destruct cs as [|c cs]; [discriminate|].
  destruct (pair_parts y dy Sy) as [Vy Ty]. inversion Hc as [|? ? Hc0 Hcs]; subst.
  destruct (pscan_transposed J df vjp vjpp (shape y) args dp D m r Sd H ts (pair_tree y dy) t0 cs) as (xs & l & w & Ex & El & Sl & Sw & Dl); auto.
  { apply pair_shape. auto. }
  rewrite Vy in El. rewrite Ty in Dl. destruct (radd c l) as (b & Eb & Sb & Db); [congruence|].
  exists (pair_tree y dy :: xs), b, w. unfold odeint_jvp, dodeint, odeint_vjp_args. cbn [map combine].
  replace (combine ts (map (fun _ => 0) ts)) with (map (fun t => (t, 0)) ts) by (clear; induction ts as [|a l IH]; cbn; f_equal; auto).
  rewrite Ex, El. cbn [bind fst snd]. rewrite Eb. cbn [bind]. split; [reflexivity|]. split; [reflexivity|]. split; [congruence|]. split; [exact Sw|].
  change (tdots (c :: cs) (pair_tree y dy :: xs)) with (tdot c (tangents (pair_tree y dy)) + tdots cs xs).
  rewrite Ty, Db, <- Dl. ring.
Qed.
Lemma args_gradient (F : tree -> dynamics) (J : tree -> ddynamics) vjp vjpp D m r args y ts cs :
  (forall dp, shape dp = shape args -> dyn_tracks (J dp) (fun s => F (moved s args dp))) -> step_tracks D m ->
  (forall dp, shape dp = shape args -> step_transposed_yp (J dp) (F args) vjp vjpp (shape y) dp D m r) -> ts <> [] ->
  length cs = length ts -> Forall (fun c => shape c = shape y) cs ->
  exists b w, odeint_vjp_args (F args) vjp vjpp m r args y ts cs = Ok (b, w) /\ shape b = shape y /\ shape w = shape args /\
    forall dy dp, shape dy = shape y -> shape dp = shape args ->
      exists f, locally 0 (fun s => exists ys, odeint (F (moved s args dp)) (moved s y dy) ts m = Ok ys /\ f s = sumR (map2 tdot cs ys)) /\
        is_derive f 0 (tdot b dy + tdot w dp).
Proof.
  intros HJ HD H Nt L Hc.
  destruct (odeint_transposed_yp (J args) (F args) vjp vjpp D m r args args y y ts cs eq_refl (H args eq_refl) eq_refl Nt L Hc) as (xs0 & b & w & _ & Eb & Sb & Sw & _).
  exists b, w. split; [exact Eb|]. split; [exact Sb|]. split; [exact Sw|]. intros dy dp Sy Sd.
  destruct (odeint_transposed_yp (J dp) (F args) vjp vjpp D m r args dp y dy ts cs Sd (H dp Sd) Sy Nt L Hc) as (xs & b' & w' & Ex & Eb' & _ & _ & Db). rewrite Eb in Eb'. injection Eb' as <- <-.
  destruct (odeint_tracked (J dp) (fun s => F (moved s args dp)) D m _ _ _ _ xs (HJ dp Sd) HD (trees_dual y dy (eq_sym Sy))
    (lines_dual ts (map (fun _ => 0) ts) (eq_sym (map_length _ ts))) Ex) as (fss & Hf & Lf).
  exists (fun s => sumR (map2 tdot cs (map (point s) fss))). split.
  - revert Lf. apply filter_imp. intros s Hs. rewrite trees_at, lines_at in Hs. exists (map (point s) fss). split; [|reflexivity].
    rewrite <- Hs. f_equal. symmetry. apply moved1_zero.
  - rewrite Db. apply tdots_derive. exact Hf.
Qed.

(** y' = a y with args = [[a]] *)
Definition rate (args : tree) : R := match args with [[a]] => a | _ => 0 end.
Definition growth_vjp (a : R) : rdynamics := fun y t c => Ok (tree_scalar_mul a c).
Definition growth_vjpp : rdynamics := fun y t c => Ok [[tdot c y]].
Lemma growth_transposed a d sh : transposed_yp (growth_jvp (a, d)) (growth_ode a) (growth_vjp a) growth_vjpp sh [[d]].
Proof.
  intros x t Hx. eexists. split; [reflexivity|]. split; [rewrite scal_shape; exact Hx|]. split; [unfold growth_ode; now rewrite values_scal_any|].
  intros c Hc. do 2 eexists. split; [reflexivity|]. split; [reflexivity|]. split; [rewrite shape_scal; exact Hc|]. split; [reflexivity|].
  rewrite tdot_scal_any, tdot_scal_l. unfold tdot at 2, dotR. cbn. ring.
Qed.
