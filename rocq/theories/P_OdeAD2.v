(** Proofs: reverse-mode derivatives of odeint. *)
From Coquelicot Require Import Coquelicot.
From Verif Require Import Base BaseFacts M_Tree M_Ode M_RDual S_RDual M_OdeAD S_OdeAD P_RDual1 P_OdeAD.

Lemma shape_values x : shape (values x) = dshape x.
Proof. unfold shape, values, dshape. rewrite map_map. apply map_ext. intros l. apply map_length. Qed.
Lemma shape_tangents x : shape (tangents x) = dshape x.
Proof. unfold shape, tangents, dshape. rewrite map_map. apply map_ext. intros l. apply map_length. Qed.
Lemma shape_scal c x : shape (tree_scalar_mul c x) = shape x.
Proof. unfold shape, tree_scalar_mul, tree_map1. rewrite map_map. apply map_ext. intros l. apply map_length. Qed.
Lemma tdot_cons l a m b : tdot (l :: a) (m :: b) = dotR l m + tdot a b.
Proof. reflexivity. Qed.
Lemma dotR_cons x l y m : dotR (x :: l) (y :: m) = x * y + dotR l m.
Proof. reflexivity. Qed.

Lemma values_scal c x : values (dtree_scal (c, 0) x) = tree_scalar_mul c (values x).
Proof. unfold values, dtree_scal, tree_scalar_mul, tree_map1. rewrite !map_map. apply map_ext. intros l. rewrite !map_map. reflexivity. Qed.
Lemma dot_scal_l k l m : dotR (map (Rmult k) l) m = k * dotR l m.
Proof. revert m. induction l as [|x l IH]; intros [|y m]; cbn [map]; rewrite ?dotR_cons, ?IH; unfold dotR; cbn; ring. Qed.
Lemma tdot_scal_l k a z : tdot (tree_scalar_mul k a) z = k * tdot a z.
Proof.
  revert z. induction a as [|l a IH]; intros [|m z]; try (unfold tdot; cbn; ring).
  change (tree_scalar_mul k (l :: a)) with (map (Rmult k) l :: tree_scalar_mul k a). rewrite !tdot_cons, IH, dot_scal_l. ring.
Qed.
Lemma tdot_scal_r k e x : tdot e (tangents (dtree_scal (k, 0) x)) = k * tdot e (tangents x).
Proof.
  revert e. induction x as [|l x IH]; intros [|m e]; try (unfold tdot; cbn; ring).
  change (tangents (dtree_scal (k, 0) (l :: x))) with (map snd (map (dmul (k, 0)) l) :: tangents (dtree_scal (k, 0) x)).
  change (tangents (l :: x)) with (map snd l :: tangents x). rewrite !tdot_cons, IH.
  assert (E : dotR m (map snd (map (dmul (k, 0)) l)) = k * dotR m (map snd l)); [|rewrite E; ring].
  clear. revert m. induction l as [|p l IH]; intros [|y m]; cbn [map]; rewrite ?dotR_cons, ?IH; try (unfold dotR; cbn; ring).
Qed.
Lemma radd a b : shape a = shape b -> exists c, tree_add a b = Ok c /\ shape c = shape a /\
  forall z, tdot c z = tdot a z + tdot b z.
Proof.
  intros E. unfold tree_add, tree_map2. assert (L : length a = length b) by (apply (f_equal (@length nat)) in E; unfold shape in E; rewrite !map_length in E; exact E).
  rewrite (proj2 (Nat.eqb_eq _ _) L). clear L. revert b E. induction a as [|x a IH]; intros [|y b] E; try discriminate.
  - exists []. split; [reflexivity|]. split; [reflexivity|]. intros z. unfold tdot. cbn. ring.
  - cbn in E. injection E as E1 E2. destruct (IH b E2) as (c & Ec & Sc & Dc). cbn [map2 sequence]. unfold bcast1 at 1. rewrite (proj2 (Nat.eqb_eq _ _) E1). cbn [bind]. rewrite Ec.
    eexists. split; [reflexivity|]. split; [unfold shape in *; cbn; rewrite Sc; f_equal; apply map2_length_eq; exact E1|].
    intros [|m z]; [unfold tdot; cbn; ring|]. rewrite !tdot_cons, Dc.
    assert (Q : dotR (map2 Rplus x y) m = dotR x m + dotR y m); [|rewrite Q; ring].
    clear -E1. revert y m E1. induction x as [|p x IH]; intros [|q y] [|w m] E; try discriminate; try (unfold dotR; cbn; ring).
    cbn [map2]. rewrite !dotR_cons, IH by (injection E; auto). ring.
Qed.
Lemma add_parts a b : dshape a = dshape b -> exists c, dtree_add a b = Ok c /\ dshape c = dshape a /\
  tree_add (values a) (values b) = Ok (values c) /\ forall e, tdot e (tangents c) = tdot e (tangents a) + tdot e (tangents b).
Proof.
  intros E. unfold dtree_add, dtree_map2, tree_add, tree_map2. assert (L : length a = length b) by (apply (f_equal (@length nat)) in E; unfold dshape in E; rewrite !map_length in E; exact E).
  
  repeat match goal with |- context [Nat.eqb ?u ?v] => replace (Nat.eqb u v) with true by (symmetry; apply Nat.eqb_eq; unfold values; rewrite ?map_length; exact L) end.
  unfold values. clear L. revert b E. induction a as [|x a IH]; intros [|y b] E; try discriminate.
  - exists []. split; [reflexivity|]. split; [reflexivity|]. split; [reflexivity|]. intros z. unfold tdot. destruct z; cbn; ring.
  - cbn in E. injection E as E1 E2. destruct (IH b E2) as (c & Ec & Sc & Vc & Dc). cbn [map2 map sequence]. unfold dbcast1 at 1, bcast1 at 1.
    repeat match goal with |- context [Nat.eqb ?u ?v] => replace (Nat.eqb u v) with true by (symmetry; apply Nat.eqb_eq; rewrite ?map_length; exact E1) end.
    cbn [bind]. rewrite Ec, Vc.
    eexists. split; [reflexivity|]. split; [unfold dshape in *; cbn; rewrite Sc; f_equal; exact (map2_length_eq dadd x y E1)|].
    split.
    + cbn [bind map]. do 2 f_equal. clear. revert y. induction x as [|p x IH]; intros [|q y]; cbn; f_equal; auto.
    + intros [|m z]; [unfold tdot; cbn; ring|]. change (tangents (x :: a)) with (map snd x :: tangents a). change (tangents (y :: b)) with (map snd y :: tangents b).
      change (tangents (map2 dadd x y :: c)) with (map snd (map2 dadd x y) :: tangents c). rewrite !tdot_cons, Dc.
      assert (Q : dotR m (map snd (map2 dadd x y)) = dotR m (map snd x) + dotR m (map snd y)); [|rewrite Q; ring].
      clear -E1. revert y m E1. induction x as [|p x IH]; intros [|q y] [|w m] E; try discriminate; try (unfold dotR; cbn; ring).
      cbn [map2 map]. rewrite !dotR_cons, IH by (injection E; auto). cbn. ring.
Qed.

(** one step: values, and the transpose of the tangents *)
Lemma half_time t d : dadd (t, 0) (dhalf (d, 0)) = (t + d / 2, 0).
Proof. unfold dadd, dhalf. cbn. f_equal. field. Qed.
Lemma full_time t d : dadd (t, 0) (d, 0) = (t + d, 0).
Proof. unfold dadd. cbn. f_equal. ring. Qed.

Lemma euler_transposed J df vjp sh : transposed J df vjp sh -> step_transposed J df vjp sh deuler explicit_euler reuler.
Proof.
  intros T x t d Hx. destruct (T x t Hx) as (k & Ek & Sk & Vk & Tk).
  destruct (add_parts x (dtree_scal (d, 0) k)) as (p & Ep & Sp & Vp & Dp); [rewrite scal_shape; congruence|].
  exists p. unfold deuler, explicit_euler, reuler. rewrite Ek, Vk. cbn [bind]. rewrite values_scal in Vp.
  split; [exact Ep|]. split; [congruence|]. split; [exact Vp|]. intros c Hc.
  destruct (Tk (tree_scalar_mul d c)) as (b & Eb & Sb & Db); [rewrite shape_scal; exact Hc|]. rewrite Eb. cbn [bind].
  destruct (radd c b) as (r & Er & Sr & Dr); [congruence|]. exists r. split; [exact Er|]. split; [congruence|].
  rewrite Dr, Db, Dp, tdot_scal_l, tdot_scal_r. ring.
Qed.
Ltac use_add a b c E S V D := destruct (add_parts a b) as (c & E & S & V & D); [rewrite ?scal_shape; congruence|]; rewrite ?values_scal in V.
Ltac use_radd a b c E S D := destruct (radd a b) as (c & E & S & D); [rewrite ?shape_scal; congruence|].
Lemma rk4_transposed J df vjp sh : transposed J df vjp sh -> step_transposed J df vjp sh drk4 rk4 rrk4.
Proof.
  intros T x t d Hx. destruct (T x t Hx) as (k1 & E1 & S1 & V1 & T1).
  use_add x (dtree_scal (dconst (1 / 2)) (dtree_scal (d, 0) k1)) a1 Y1 Sa1 Va1 Da1. unfold dconst in Va1. rewrite !values_scal in Va1.
  destruct (T a1 (t + d / 2) ltac:(congruence)) as (k2 & E2 & S2 & V2 & T2).
  use_add x (dtree_scal (dconst (1 / 2)) (dtree_scal (d, 0) k2)) a2 Y2 Sa2 Va2 Da2. unfold dconst in Va2. rewrite !values_scal in Va2.
  destruct (T a2 (t + d / 2) ltac:(congruence)) as (k3 & E3 & S3 & V3 & T3).
  use_add x (dtree_scal (d, 0) k3) a3 Y3 Sa3 Va3 Da3.
  destruct (T a3 (t + d) ltac:(congruence)) as (k4 & E4 & S4 & V4 & T4).
  use_add (dtree_scal (d, 0) k1) (dtree_scal (dconst 2) (dtree_scal (d, 0) k2)) s1 Z1 Ss1 Vs1 Ds1. unfold dconst in Vs1. rewrite !values_scal in Vs1. rewrite scal_shape in Ss1.
  use_add s1 (dtree_scal (dconst 2) (dtree_scal (d, 0) k3)) s2 Z2 Ss2 Vs2 Ds2. unfold dconst in Vs2. rewrite !values_scal in Vs2.
  use_add s2 (dtree_scal (d, 0) k4) s3 Z3 Ss3 Vs3 Ds3.
  use_add x (dtree_scal (dconst (1 / 6)) s3) p Z4 Sp Vp Dp. unfold dconst in Vp. rewrite !values_scal in Vp.
  exists p. split.
  { unfold drk4. rewrite E1. cbn [bind]. rewrite Y1. cbn [bind]. rewrite half_time, E2. cbn [bind]. rewrite Y2. cbn [bind]. rewrite E3. cbn [bind].
    rewrite Y3. cbn [bind]. rewrite full_time, E4. cbn [bind]. rewrite Z1. cbn [bind]. rewrite Z2. cbn [bind]. rewrite Z3. cbn [bind]. exact Z4. }
  split; [congruence|]. split.
  { unfold rk4. rewrite V1. cbn [bind]. rewrite Va1. cbn [bind]. rewrite V2. cbn [bind]. rewrite Va2. cbn [bind]. rewrite V3. cbn [bind].
    rewrite Va3. cbn [bind]. rewrite V4. cbn [bind]. rewrite Vs1. cbn [bind]. rewrite Vs2. cbn [bind]. rewrite Vs3. cbn [bind]. exact Vp. }
  intros c Hc. set (s := tree_scalar_mul (1 / 6) c). assert (Ss : shape s = sh) by (unfold s; rewrite shape_scal; exact Hc).
  destruct (T4 (tree_scalar_mul d s)) as (b3 & F3 & Sb3 & Db3); [rewrite shape_scal; exact Ss|].
  use_radd (tree_scalar_mul 2 s) b3 q3 G3 Sc3 Dc3. rewrite shape_scal in Sc3.
  destruct (T3 (tree_scalar_mul d q3)) as (b2 & F2 & Sb2 & Db2); [rewrite shape_scal; congruence|].
  use_radd (tree_scalar_mul 2 s) (tree_scalar_mul (1 / 2) b2) q2 G2 Sc2 Dc2. rewrite shape_scal in Sc2.
  destruct (T2 (tree_scalar_mul d q2)) as (b1 & F1 & Sb1 & Db1); [rewrite shape_scal; congruence|].
  use_radd s (tree_scalar_mul (1 / 2) b1) q1 G1 Sc1 Dc1.
  destruct (T1 (tree_scalar_mul d q1)) as (b0 & F0 & Sb0 & Db0); [rewrite shape_scal; congruence|].
  use_radd c b3 r1 H1 Sr1 Dr1. use_radd r1 b2 r2 H2 Sr2 Dr2. use_radd r2 b1 r3 H3 Sr3 Dr3. use_radd r3 b0 r4 H4 Sr4 Dr4.
  exists r4. split.
  { unfold rrk4. rewrite V1. cbn [bind]. rewrite Va1. cbn [bind]. rewrite V2. cbn [bind]. rewrite Va2. cbn [bind]. rewrite V3. cbn [bind].
    rewrite Va3. cbn [bind]. fold s. rewrite F3. cbn [bind]. rewrite G3. cbn [bind]. rewrite F2. cbn [bind]. rewrite G2. cbn [bind]. rewrite F1. cbn [bind].
    rewrite G1. cbn [bind]. rewrite F0. cbn [bind]. rewrite H1. cbn [bind]. rewrite H2. cbn [bind]. rewrite H3. cbn [bind]. exact H4. }
  split; [congruence|].
  unfold dconst in *. rewrite Da3, tdot_scal_r, tdot_scal_l in Db3. unfold s in Db3. rewrite tdot_scal_l in Db3.
  rewrite Da2, !tdot_scal_r, tdot_scal_l, Dc3, tdot_scal_l in Db2. unfold s in Db2. rewrite tdot_scal_l in Db2.
  rewrite Da1, !tdot_scal_r, tdot_scal_l, Dc2, !tdot_scal_l in Db1. unfold s in Db1. rewrite tdot_scal_l in Db1.
  rewrite tdot_scal_l, Dc1, tdot_scal_l in Db0. unfold s in Db0. rewrite tdot_scal_l in Db0.
  rewrite Dr4, Dr3, Dr2, Dr1, Dp, tdot_scal_r, Ds3, Ds2, Ds1, !tdot_scal_r. lra.
Qed.

(** ** The scan *)
Definition tdots (cs : list tree) (xs : list dtree) : R := sumR (map2 (fun c x => tdot c (tangents x)) cs xs).
Lemma tdot_zero y z : tdot (tree_scalar_mul 0 y) z = 0.
Proof. rewrite tdot_scal_l. ring. Qed.
Lemma scan_transposed J df vjp sh D m r : step_transposed J df vjp sh D m r -> forall ts x tp cs,
  dshape x = sh -> length cs = length ts -> Forall (fun c => shape c = sh) cs ->
  exists xs l, dscan_steps J D x (tp, 0) (map (fun t => (t, 0)) ts) = Ok xs /\ rscan_steps df vjp m r (values x) tp ts cs = Ok l /\
    shape l = sh /\ tdot l (tangents x) = tdots cs xs.
Proof.
  intros H. induction ts as [|t ts IH]; intros x tp [|c cs] Hx L Hc; try discriminate.
  - exists [], (tree_scalar_mul 0 (values x)). split; [reflexivity|]. split; [reflexivity|]. split; [rewrite shape_scal, shape_values; exact Hx|].
    rewrite tdot_zero. reflexivity.
  - inversion Hc as [|? ? Hc0 Hcs]; subst. destruct (H x t (t - tp) eq_refl) as (p & Ep & Sp & Vp & Tp).
    destruct (IH p t cs Sp ltac:(cbn in L; lia) Hcs) as (xs & l & Ex & El & Sl & Dl).
    destruct (radd c l) as (c' & Ec & Sc & Dc); [congruence|]. destruct (Tp c' ltac:(congruence)) as (b & Eb & Sb & Db).
    exists (p :: xs), b. cbn [map dscan_steps rscan_steps]. replace (dsub (t, 0) (tp, 0)) with (t - tp, 0) by (unfold dsub; cbn; f_equal; ring).
    rewrite Ep. cbn [bind]. destruct (list_eq_dec _ _ _); [|congruence]. rewrite Ex, Vp. cbn [bind]. rewrite El. cbn [bind]. rewrite Ec. cbn [bind].
    split; [reflexivity|]. split; [exact Eb|]. split; [exact Sb|]. rewrite Db, Dc, Dl. reflexivity.
Qed.
Lemma odeint_transposed J df vjp D m r y dy ts cs : step_transposed J df vjp (shape y) D m r -> shape dy = shape y -> ts <> [] ->
  length cs = length ts -> Forall (fun c => shape c = shape y) cs ->
  exists xs b, odeint_jvp J y dy ts (map (fun _ => 0) ts) D = Ok xs /\ odeint_vjp df vjp m r y ts cs = Ok b /\
    shape b = shape y /\ tdot b dy = tdots cs xs.
Proof.
  intros H Sy Nt L Hc. destruct ts as [|t0 ts]; [congruence|]. destruct cs as [|c cs]; [discriminate|].
  assert (Vy : values (pair_tree y dy) = y /\ tangents (pair_tree y dy) = dy).
  { clear -Sy. unfold values, tangents, pair_tree. revert dy Sy. induction y as [|l y IH]; intros [|d dy] E; try discriminate; [split; reflexivity|].
    unfold shape in *. cbn in *. injection E as E1 E2. destruct (IH dy E2) as [-> ->].
    assert (Q : map fst (combine l d) = l /\ map snd (combine l d) = d); [|destruct Q as [-> ->]; auto].
    clear -E1. revert d E1. induction l as [|a l IH]; intros [|b d] E; try discriminate; [split; reflexivity|]. cbn in *. destruct (IH d) as [-> ->]; auto. }
  destruct Vy as [Vy Ty]. inversion Hc as [|? ? Hc0 Hcs]; subst.
  destruct (scan_transposed J df vjp (shape y) D m r H ts (pair_tree y dy) t0 cs) as (xs & l & Ex & El & Sl & Dl); auto.
  { apply pair_shape. auto. }
  rewrite Vy in El. rewrite Ty in Dl. destruct (radd c l) as (b & Eb & Sb & Db); [congruence|].
  exists (pair_tree y dy :: xs), b. unfold odeint_jvp, dodeint, odeint_vjp. cbn [map combine].
  replace (combine ts (map (fun _ => 0) ts)) with (map (fun t => (t, 0)) ts) by (clear; induction ts as [|a l IH]; cbn; f_equal; auto).
  rewrite Ex, El. cbn [bind]. split; [reflexivity|]. split; [exact Eb|]. split; [congruence|].
  rewrite Db, Dl. unfold tdots. cbn. rewrite Ty. reflexivity.
Qed.

(** y' = y ** 2 + t: the cotangent is 2 y c *)
Definition square_vjp : rdynamics := fun y t c => Ok (map2 (map2 (fun a k => 2 * a * k)) y c).
Lemma square_transposed sh : transposed square_jvp square_ode square_vjp sh.
Proof.
  intros x t Hx. eexists. split; [reflexivity|]. split; [|split].
  - rewrite <- Hx. unfold dshape. rewrite map_map. apply map_ext. intros l. apply map_length.
  - unfold square_ode, values. f_equal. rewrite !map_map. apply map_ext. intros l. rewrite !map_map. reflexivity.
  - intros c Hc. eexists. split; [reflexivity|]. subst sh. split.
    + rewrite <- Hc. unfold shape, values, dshape in *. revert c Hc. induction x as [|l x IH]; intros [|m c] E; try discriminate; [reflexivity|].
      cbn in *. injection E as E1 E2. f_equal; auto. rewrite map2_length_eq; rewrite map_length; auto.
    + revert c Hc. induction x as [|l x IH]; intros [|m c] E; try discriminate; [reflexivity|]. unfold shape, dshape in E. cbn in E. injection E as E1 E2.
      cbn [values tangents map map2]. rewrite !tdot_cons. fold (values x). fold (tangents x).
      change (map (map snd) (map (map (fun a : du => dadd (dmul a a) (t, 0))) x)) with (tangents (map (map (fun a : du => dadd (dmul a a) (t, 0))) x)).
      rewrite (IH c E2). f_equal. clear -E1. revert m E1. induction l as [|a l IH]; intros [|k m] E; try discriminate; [reflexivity|].
      cbn [map map2]. rewrite !dotR_cons, IH by (cbn in E; auto). cbn. ring.
Qed.

(** ** The gradient of a weighted sum of all states *)
Lemma dot_derive m fl l : Forall2 dual_of fl l -> is_derive (fun s => dotR m (map (fun g => g s) fl)) 0 (dotR m (map snd l)).
Proof.
  intros H. revert m. induction H as [|f p fl l Hp _ IH]; intros [|k m]; try exact (@is_derive_const R_AbsRing R_NormedModule 0 0).
  cbn [map]. rewrite dotR_cons. apply (is_derive_ext (fun s => k * f s + dotR m (map (fun g => g s) fl))); [intros s; symmetry; apply dotR_cons|].
  apply (@is_derive_plus R_AbsRing R_NormedModule); [|apply IH]. apply is_derive_scal, Hp.
Qed.
Lemma tdot_derive c fs x : tree_dual fs x -> is_derive (fun s => tdot c (point s fs)) 0 (tdot c (tangents x)).
Proof.
  intros H. revert c. induction H as [|f p fs x Hp _ IH]; intros [|m c]; try exact (@is_derive_const R_AbsRing R_NormedModule 0 0).
  change (tangents (p :: x)) with (map snd p :: tangents x). rewrite tdot_cons.
  apply (is_derive_ext (fun s => dotR m (map (fun g => g s) f) + tdot c (point s fs))); [intros s; symmetry; apply tdot_cons|].
  apply (@is_derive_plus R_AbsRing R_NormedModule); [apply dot_derive; exact Hp|apply IH].
Qed.
Lemma tdots_derive cs fss xs : Forall2 tree_dual fss xs -> is_derive (fun s => sumR (map2 tdot cs (map (point s) fss))) 0 (tdots cs xs).
Proof.
  intros H. revert cs. induction H as [|f x fss xs Hx _ IH]; intros [|c cs]; try exact (@is_derive_const R_AbsRing R_NormedModule 0 0).
  apply (is_derive_ext (fun s => tdot c (point s f) + sumR (map2 tdot cs (map (point s) fss)))); [reflexivity|].
  apply (@is_derive_plus R_AbsRing R_NormedModule); [apply tdot_derive; exact Hx|apply IH].
Qed.
Lemma moved1_zero s ts : moved1 s ts (map (fun _ => 0) ts) = ts.
Proof. unfold moved1. induction ts as [|t ts IH]; cbn; f_equal; auto. ring. Qed.
Lemma vjp_gradient J df vjp D m r y ts cs : dyn_tracks J (fun _ => df) -> step_tracks D m -> step_transposed J df vjp (shape y) D m r -> ts <> [] ->
  length cs = length ts -> Forall (fun c => shape c = shape y) cs ->
  exists b, odeint_vjp df vjp m r y ts cs = Ok b /\ shape b = shape y /\
    forall dy, shape dy = shape y -> exists f, locally 0 (fun s => exists ys, odeint df (moved s y dy) ts m = Ok ys /\ f s = sumR (map2 tdot cs ys)) /\
      is_derive f 0 (tdot b dy).
Proof.
  intros HJ HD H Nt L Hc. destruct (odeint_transposed J df vjp D m r y y ts cs H eq_refl Nt L Hc) as (xs0 & b & _ & Eb & Sb & _).
  exists b. split; [exact Eb|]. split; [exact Sb|]. intros dy Sy.
  destruct (odeint_transposed J df vjp D m r y dy ts cs H Sy Nt L Hc) as (xs & b' & Ex & Eb' & _ & Db). rewrite Eb in Eb'. injection Eb' as <-.
  destruct (odeint_tracked J (fun _ => df) D m _ _ _ _ xs HJ HD (trees_dual y dy (eq_sym Sy)) (lines_dual ts (map (fun _ => 0) ts) (eq_sym (map_length _ ts))) Ex) as (fss & Hf & Lf).
  exists (fun s => sumR (map2 tdot cs (map (point s) fss))). split.
  - revert Lf. apply filter_imp. intros s Hs. rewrite trees_at, lines_at in Hs. exists (map (point s) fss). split; [|reflexivity].
    rewrite <- Hs. f_equal. symmetry. apply moved1_zero.
  - rewrite Db. apply tdots_derive. exact Hf.
Qed.
