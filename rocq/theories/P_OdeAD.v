(** Proofs: forward-mode derivatives of odeint. *)
From Coquelicot Require Import Coquelicot.
From Verif Require Import Base BaseFacts M_Tree M_Ode M_RDual S_RDual M_OdeAD S_OdeAD P_RDual1.

Notation at_ s fs := (map (fun g : R -> R => g s) fs).
Lemma tt_ok fs x : tree_dual fs x -> ttrack (fun s => Ok (point s fs)) x.
Proof. intros H. exists fs. split; [exact H|]. apply filter_forall. reflexivity. Qed.
Lemma tt_ext F G x : (forall s, F s = G s) -> ttrack F x -> ttrack G x.
Proof. intros E (fs & H & L). exists fs. split; [exact H|]. revert L. apply filter_imp. intros s Hs. rewrite <- E. exact Hs. Qed.
Lemma tt_bind F p G q : ttrack F p -> (forall fs, tree_dual fs p -> ttrack (fun s => G s (point s fs)) q) ->
  ttrack (fun s => v <- F s ;; G s v) q.
Proof.
  intros (fs & H & L) K. destruct (K fs H) as (gs & Hg & Lg). exists gs. split; [exact Hg|].
  generalize (filter_and _ _ L Lg). apply filter_imp. intros s (E1 & E2). rewrite E1. exact E2.
Qed.
Lemma dual_len fs (x : list du) : Forall2 dual_of fs x -> length fs = length x.
Proof. induction 1; cbn; congruence. Qed.
Lemma tree_len fs x : tree_dual fs x -> length fs = length x.
Proof. induction 1; cbn; congruence. Qed.
Lemma point_shape s fs x : tree_dual fs x -> shape (point s fs) = dshape x.
Proof.
  unfold shape, point, dshape. induction 1 as [|f a fs x H _ IH]; [reflexivity|]. cbn. rewrite IH. f_equal.
  rewrite map_length. exact (dual_len _ _ H).
Qed.

Lemma add_leaf fs gs (a b : list du) c : Forall2 dual_of fs a -> Forall2 dual_of gs b -> dbcast1 dadd a b = Ok c ->
  exists hs, Forall2 dual_of hs c /\ forall s, bcast1 Rplus (at_ s fs) (at_ s gs) = Ok (at_ s hs).
Proof.
  intros Ha Hb E. unfold dbcast1 in E. unfold bcast1.
  pose proof (dual_len _ _ Ha) as La. pose proof (dual_len _ _ Hb) as Lb.
  destruct (Nat.eqb (length a) (length b)) eqn:Q.
  - injection E as <-. apply Nat.eqb_eq in Q. exists (map2 (fun f g s => f s + g s) fs gs). split.
    + clear La Lb. revert gs b Hb Q. induction Ha as [|f x fs a Hx _ IH]; intros gs b Hb Q; inversion Hb; subst; cbn in *; try discriminate; constructor.
      * apply d_add; auto.
      * apply IH; auto.
    + intros s. rewrite !map_length, La, Lb, (proj2 (Nat.eqb_eq _ _) Q). f_equal.
      clear. revert gs. induction fs as [|f fs IH]; intros [|g gs]; cbn; f_equal; auto.
  - assert (Qs : forall s, Nat.eqb (length (at_ s fs)) (length (at_ s gs)) = false) by (intros s; rewrite !map_length, La, Lb; exact Q).
    destruct a as [|x [|x' a]].
    + destruct b as [|y [|y' b]]; try discriminate. injection E as <-. inversion Ha; subst. exists []. split; [constructor|].
      intros s. specialize (Qs s). inversion Hb as [|g0 ? gs0 ? ? Hn]; subst. inversion Hn; subst. reflexivity.
    + injection E as <-. inversion Ha as [|f0 ? fs0 ? Hx Hn]; subst. inversion Hn; subst. exists (map (fun g s => f0 s + g s) gs). split.
      * clear -Hb Hx. induction Hb; constructor; auto. apply d_add; auto.
      * intros s. specialize (Qs s). cbn [map] in *. rewrite Qs. f_equal. rewrite !map_map. reflexivity.
    + destruct b as [|y [|y' b]]; try discriminate. injection E as <-. inversion Hb as [|g0 ? gs0 ? Hy Hn]; subst. inversion Hn; subst.
      exists (map (fun f s => f s + g0 s) fs). split.
      * change (Forall2 dual_of (map (fun f s => f s + g0 s) fs) (map (fun a0 : du => dadd a0 y) (x :: x' :: a))). clear -Ha Hy. induction Ha; constructor; auto. apply d_add; auto.
      * intros s. specialize (Qs s). inversion Ha as [|f1 ? fs1 ? ? Hm]; subst. inversion Hm as [|f2 ? fs2 ? ? ?]; subst.
        cbn [map] in *. rewrite Qs. f_equal. cbn. rewrite !map_map. reflexivity.
Qed.
Lemma tt_add fs gs a b c : tree_dual fs a -> tree_dual gs b -> dtree_add a b = Ok c ->
  ttrack (fun s => tree_add (point s fs) (point s gs)) c.
Proof.
  intros Ha Hb E. unfold dtree_add, dtree_map2 in E. destruct (Nat.eqb (length a) (length b)) eqn:Q; [|discriminate]. apply Nat.eqb_eq in Q.
  assert (K : exists hs, tree_dual hs c /\ forall s, sequence (map2 (bcast1 Rplus) (point s fs) (point s gs)) = Ok (point s hs)).
  { clear -Ha Hb E Q. revert gs b c Hb E Q. induction Ha as [|f x fs a Hx _ IH]; intros gs b c Hb E Q; inversion Hb; subst; cbn in Q; try discriminate.
    - injection E as <-. exists []. split; [constructor|reflexivity].
    - cbn in E. apply bind_ok in E as (c0 & E0 & E). apply bind_ok in E as (c1 & E1 & E). injection E as <-.
      destruct (add_leaf _ _ _ _ _ Hx H E0) as (h & Hh & Eh). destruct (IH _ _ _ H0 E1) as (hs & Hhs & Ehs); [congruence|].
      exists (h :: hs). split; [constructor; auto|]. intros s. specialize (Eh s). specialize (Ehs s). unfold point in *. cbn. rewrite Eh. cbn. rewrite Ehs. reflexivity. }
  destruct K as (hs & Hh & Eh). exists hs. split; [exact Hh|]. apply filter_forall. intros s. unfold tree_add, tree_map2.
  assert (Nat.eqb (length (point s fs)) (length (point s gs)) = true) as ->; [|apply Eh].
  apply Nat.eqb_eq. unfold point. rewrite !map_length, (tree_len _ _ Ha), (tree_len _ _ Hb). exact Q.
Qed.
Definition cscal (c : R -> R) (fs : curve) : curve := map (map (fun g s => c s * g s)) fs.
Lemma scal_dual c p fs x : dual_of c p -> tree_dual fs x -> tree_dual (cscal c fs) (dtree_scal p x).
Proof.
  intros Hc. unfold cscal, dtree_scal. induction 1 as [|f a fs x H _ IH]; cbn; constructor; auto.
  clear -H Hc. induction H; cbn; constructor; auto. apply d_mul; auto.
Qed.
Lemma scal_point c fs s : tree_scalar_mul (c s) (point s fs) = point s (cscal c fs).
Proof. unfold tree_scalar_mul, tree_map1, point, cscal. rewrite !map_map. apply map_ext. intros l. rewrite !map_map. reflexivity. Qed.
Lemma d_half f a : dual_of f a -> dual_of (fun s => f s / 2) (dhalf a).
Proof.
  intros H. apply (d_ext (fun s => / 2 * f s)); [intros; field|]. apply (d_eq _ (dscal (/ 2) a)); [cbn; field|cbn; field|]. apply d_scal, H.
Qed.

Ltac step_add := eapply tt_bind; [eapply tt_add; [| |eassumption]; eauto using scal_dual, d_const|intros ? ?].
Lemma track_euler : step_tracks deuler explicit_euler.
Proof.
  intros J df fs x ft t fd d p HJ Hx Ht Hd E. unfold deuler in E. apply bind_ok in E as (k & Ek & E).
  unfold explicit_euler. apply (tt_bind (fun s => df s (point s fs) (ft s)) k); [exact (HJ _ _ _ _ _ Hx Ht Ek)|]. intros ks Hk.
  apply (tt_ext (fun s => tree_add (point s fs) (point s (cscal fd ks)))); [intros s; now rewrite scal_point|].
  apply (tt_add _ _ x (dtree_scal d k)); auto using scal_dual.
Qed.
Lemma track_rk4 : step_tracks drk4 rk4.
Proof.
  intros J df fs x ft t fd d p HJ Hx Ht Hd E. unfold drk4 in E.
  apply bind_ok in E as (k1 & E1 & E). apply bind_ok in E as (a1 & Ea1 & E). apply bind_ok in E as (k2 & E2 & E).
  apply bind_ok in E as (a2 & Ea2 & E). apply bind_ok in E as (k3 & E3 & E). apply bind_ok in E as (a3 & Ea3 & E).
  apply bind_ok in E as (k4 & E4 & E). apply bind_ok in E as (s1 & Es1 & E). apply bind_ok in E as (s2 & Es2 & E). apply bind_ok in E as (s3 & Es3 & E).
  unfold rk4. pose proof (d_add _ _ _ _ Ht (d_half _ _ Hd)) as Hth. pose proof (d_add _ _ _ _ Ht Hd) as Htd.
  apply (tt_bind (fun s => df s (point s fs) (ft s)) k1); [exact (HJ _ _ _ _ _ Hx Ht E1)|]. intros k1s Hk1. pose proof (scal_dual _ _ _ _ Hd Hk1) as Hy1.
  set (y1s := cscal fd k1s) in *.
  apply (tt_ext (fun s => a1 <- tree_add (point s fs) (point s (cscal (fun _ => 1 / 2) y1s)) ;;
     k2 <- df s a1 (ft s + fd s / 2) ;; a2 <- tree_add (point s fs) (tree_scalar_mul (1 / 2) (tree_scalar_mul (fd s) k2)) ;;
     k3 <- df s a2 (ft s + fd s / 2) ;; a3 <- tree_add (point s fs) (tree_scalar_mul (fd s) k3) ;;
     k4 <- df s a3 (ft s + fd s) ;; s0 <- tree_add (point s y1s) (tree_scalar_mul 2 (tree_scalar_mul (fd s) k2)) ;;
     s1 <- tree_add s0 (tree_scalar_mul 2 (tree_scalar_mul (fd s) k3)) ;; s2 <- tree_add s1 (tree_scalar_mul (fd s) k4) ;;
     tree_add (point s fs) (tree_scalar_mul (1 / 6) s2))).
  { intros s. unfold y1s. rewrite <- !scal_point. reflexivity. }
  eapply tt_bind; [exact (tt_add _ _ _ _ _ Hx (scal_dual _ _ _ _ (d_const (1 / 2)) Hy1) Ea1)|]. intros a1s Ha1.
  eapply tt_bind; [exact (HJ _ _ _ _ _ Ha1 Hth E2)|]. intros k2s Hk2. pose proof (scal_dual _ _ _ _ Hd Hk2) as Hy2. set (y2s := cscal fd k2s) in *.
  apply (tt_ext (fun s => a2 <- tree_add (point s fs) (point s (cscal (fun _ => 1 / 2) y2s)) ;;
     k3 <- df s a2 (ft s + fd s / 2) ;; a3 <- tree_add (point s fs) (tree_scalar_mul (fd s) k3) ;;
     k4 <- df s a3 (ft s + fd s) ;; s0 <- tree_add (point s y1s) (point s (cscal (fun _ => 2) y2s)) ;;
     s1 <- tree_add s0 (tree_scalar_mul 2 (tree_scalar_mul (fd s) k3)) ;; s2 <- tree_add s1 (tree_scalar_mul (fd s) k4) ;;
     tree_add (point s fs) (tree_scalar_mul (1 / 6) s2))).
  { intros s. unfold y2s. rewrite <- !scal_point. reflexivity. }
  eapply tt_bind; [exact (tt_add _ _ _ _ _ Hx (scal_dual _ _ _ _ (d_const (1 / 2)) Hy2) Ea2)|]. intros a2s Ha2.
  eapply tt_bind; [exact (HJ _ _ _ _ _ Ha2 Hth E3)|]. intros k3s Hk3. pose proof (scal_dual _ _ _ _ Hd Hk3) as Hy3. set (y3s := cscal fd k3s) in *.
  apply (tt_ext (fun s => a3 <- tree_add (point s fs) (point s y3s) ;;
     k4 <- df s a3 (ft s + fd s) ;; s0 <- tree_add (point s y1s) (point s (cscal (fun _ => 2) y2s)) ;;
     s1 <- tree_add s0 (point s (cscal (fun _ => 2) y3s)) ;; s2 <- tree_add s1 (tree_scalar_mul (fd s) k4) ;;
     tree_add (point s fs) (tree_scalar_mul (1 / 6) s2))).
  { intros s. unfold y3s. rewrite <- !scal_point. reflexivity. }
  eapply tt_bind; [exact (tt_add _ _ _ _ _ Hx Hy3 Ea3)|]. intros a3s Ha3.
  eapply tt_bind; [exact (HJ _ _ _ _ _ Ha3 Htd E4)|]. intros k4s Hk4. pose proof (scal_dual _ _ _ _ Hd Hk4) as Hy4. set (y4s := cscal fd k4s) in *.
  eapply tt_bind; [exact (tt_add _ _ _ _ _ Hy1 (scal_dual _ _ _ _ (d_const 2) Hy2) Es1)|]. intros s1s Hs1.
  eapply tt_bind; [exact (tt_add _ _ _ _ _ Hs1 (scal_dual _ _ _ _ (d_const 2) Hy3) Es2)|]. intros s2s Hs2.
  apply (tt_ext (fun s => s2 <- tree_add (point s s2s) (point s y4s) ;; tree_add (point s fs) (tree_scalar_mul (1 / 6) s2))).
  { intros s. unfold y4s. rewrite <- !scal_point. reflexivity. }
  eapply tt_bind; [exact (tt_add _ _ _ _ _ Hs2 Hy4 Es3)|]. intros s3s Hs3.
  apply (tt_ext (fun s => tree_add (point s fs) (point s (cscal (fun _ => 1 / 6) s3s)))).
  { intros s. rewrite <- !scal_point. reflexivity. }
  exact (tt_add _ _ _ _ _ Hx (scal_dual _ _ _ _ (d_const (1 / 6)) Hs3) E).
Qed.

(** ** The scan *)
Lemma scan_tracked J df D m : dyn_tracks J df -> step_tracks D m -> forall (ts : list du) fts fs x fp tp xs,
  tree_dual fs x -> dual_of fp tp -> Forall2 dual_of fts ts -> dscan_steps J D x tp ts = Ok xs ->
  ltrees (fun s => scan_steps (df s) m (point s fs) (fp s) (at_ s fts)) xs.
Proof.
  intros HJ HD. induction ts as [|t ts IH]; intros fts fs x fp tp xs Hx Hp Ht E; inversion Ht as [|f0 t0 fts0 ts0 H1 H3]; subst.
  - injection E as <-. exists []. split; [constructor|]. apply filter_forall. reflexivity.
  - cbn in E. apply bind_ok in E as (y & Ey & E). destruct (list_eq_dec Nat.eq_dec (dshape y) (dshape x)) as [Q|Q]; [|discriminate].
    apply bind_ok in E as (ys & Eys & E). injection E as <-.
    destruct (HD J df fs x f0 t (fun s => f0 s - fp s) (dsub t tp) y HJ Hx H1 (d_sub _ _ _ _ H1 Hp) Ey) as (gs & Hg & Lg).
    destruct (IH fts0 gs y f0 t ys Hg H1 H3 Eys) as (fss & Hf & Lf). exists (gs :: fss). split; [constructor; auto|].
    generalize (filter_and _ _ Lg Lf). apply filter_imp. intros s (A & B). cbn. rewrite A. cbn [bind].
    unfold shape_eqb. rewrite !(point_shape s _ _ Hg), !(point_shape s _ _ Hx). destruct (list_eq_dec _ _ _); [|congruence].
    rewrite B. reflexivity.
Qed.
Lemma odeint_tracked J df D m fs x fts (ts : list du) xs : dyn_tracks J df -> step_tracks D m ->
  tree_dual fs x -> Forall2 dual_of fts ts -> dodeint J x ts D = Ok xs ->
  ltrees (fun s => odeint (df s) (point s fs) (at_ s fts) m) xs.
Proof.
  intros HJ HD Hx Ht E. destruct Ht as [|f0 t0 fts ts H0 Ht]; [discriminate|]. cbn in E. apply bind_ok in E as (ys & Ey & E). injection E as <-.
  destruct (scan_tracked J df D m HJ HD ts fts fs x f0 t0 ys Hx H0 Ht Ey) as (fss & Hf & L). exists (fs :: fss). split; [constructor; auto|].
  revert L. apply filter_imp. intros s Hs. cbn. rewrite Hs. reflexivity.
Qed.

(** ** Derivatives exist *)
Lemma scal_shape c x : dshape (dtree_scal c x) = dshape x.
Proof. unfold dshape, dtree_scal. rewrite map_map. apply map_ext. intros l. apply map_length. Qed.
Lemma add_fin a b : dshape a = dshape b -> exists c, dtree_add a b = Ok c /\ dshape c = dshape a.
Proof.
  intros E. unfold dtree_add, dtree_map2. assert (L : length a = length b) by (apply (f_equal (@length nat)) in E; unfold dshape in E; rewrite !map_length in E; exact E).
  rewrite (proj2 (Nat.eqb_eq _ _) L). clear L. revert b E. induction a as [|x a IH]; intros [|y b] E; try discriminate.
  - exists []. split; reflexivity.
  - cbn in E. injection E as E1 E2. destruct (IH b E2) as (c & Ec & Sc). cbn. unfold dbcast1 at 1. rewrite (proj2 (Nat.eqb_eq _ _) E1). cbn [bind]. rewrite Ec.
    eexists. split; [reflexivity|]. unfold dshape in *. cbn. rewrite Sc. f_equal. exact (map2_length_eq dadd x y E1).
Qed.
Ltac add_step E := match goal with |- context [dtree_add ?a ?b] => let c := fresh "c" in let Ec := fresh in
  destruct (add_fin a b) as (c & Ec & E); [rewrite ?scal_shape; congruence|rewrite Ec; clear Ec; cbn [bind]] end.
Lemma rk4_fin J sh x t d : dyn_finite J sh -> dshape x = sh -> exists p, drk4 J x t d = Ok p /\ dshape p = sh.
Proof.
  intros F Hx. unfold drk4. destruct (F x t Hx) as (k1 & -> & S1). cbn [bind].
  add_step Sa1. rewrite Hx in Sa1. destruct (F c (dadd t (dhalf d)) Sa1) as (k2 & -> & S2). cbn [bind].
  add_step Sa2. rewrite Hx in Sa2. destruct (F c0 (dadd t (dhalf d)) Sa2) as (k3 & -> & S3). cbn [bind].
  add_step Sa3. rewrite Hx in Sa3. destruct (F c1 (dadd t d) Sa3) as (k4 & -> & S4). cbn [bind].
  add_step Sb1. rewrite scal_shape in Sb1. add_step Sb2. add_step Sb3.
  match goal with |- context [dtree_add ?a ?b] => destruct (add_fin a b) as (z & Ez & Sz); [rewrite ?scal_shape; congruence|] end.
  exists z. split; [exact Ez|congruence].
Qed.
Lemma euler_fin J sh x t d : dyn_finite J sh -> dshape x = sh -> exists p, deuler J x t d = Ok p /\ dshape p = sh.
Proof.
  intros F Hx. unfold deuler. destruct (F x t Hx) as (k1 & -> & S1). cbn [bind].
  destruct (add_fin x (dtree_scal d k1)) as (z & Ez & Sz); [rewrite scal_shape; congruence|]. exists z. split; [exact Ez|congruence].
Qed.
Lemma scan_fin J D sh : (forall x t d, dshape x = sh -> exists p, D J x t d = Ok p /\ dshape p = sh) ->
  forall ts x tp, dshape x = sh -> exists xs, dscan_steps J D x tp ts = Ok xs.
Proof.
  intros H. induction ts as [|t ts IH]; intros x tp Hx; [eexists; reflexivity|]. cbn.
  destruct (H x t (dsub t tp) Hx) as (p & -> & Sp). cbn [bind]. destruct (list_eq_dec _ _ _); [|congruence].
  destruct (IH p t Sp) as (xs & ->). eexists; reflexivity.
Qed.
Lemma odeint_fin J D sh x (ts : list du) : (forall x t d, dshape x = sh -> exists p, D J x t d = Ok p /\ dshape p = sh) ->
  dshape x = sh -> ts <> [] -> exists xs, dodeint J x ts D = Ok xs.
Proof.
  intros H Hx Ht. destruct ts as [|t ts]; [congruence|]. destruct (scan_fin J D sh H ts x t Hx) as (xs & E). cbn. rewrite E. eexists; reflexivity.
Qed.

(** ** jvp *)
Definition line1 (a d : R) : R -> R := fun s => a + s * d.
Lemma line1_dual a d : dual_of (line1 a d) (a, d).
Proof. split; [unfold line1; cbn; ring|]. unfold line1. cbn. auto_derive; [exact I|ring]. Qed.
Lemma lines_dual l d : length l = length d -> Forall2 dual_of (map2 line1 l d) (combine l d).
Proof. revert d. induction l as [|a l IH]; intros [|b d] E; try discriminate; cbn; constructor; [apply line1_dual|apply IH; auto]. Qed.
Lemma trees_dual y dy : shape y = shape dy -> tree_dual (map2 (map2 line1) y dy) (pair_tree y dy).
Proof.
  revert dy. induction y as [|l y IH]; intros [|d dy] E; try discriminate; cbn; constructor; injection E; intros; [apply lines_dual; auto|apply IH; auto].
Qed.
Lemma lines_at l d s : at_ s (map2 line1 l d) = map2 (fun a b => a + s * b) l d.
Proof. revert d. induction l as [|a l IH]; intros [|b d]; cbn; f_equal; auto. Qed.
Lemma trees_at y dy s : point s (map2 (map2 line1) y dy) = moved s y dy.
Proof. unfold point, moved. revert dy. induction y as [|l y IH]; intros [|d dy]; cbn; f_equal; auto using lines_at. Qed.
Lemma pair_shape y dy : shape y = shape dy -> dshape (pair_tree y dy) = shape y.
Proof.
  intros E. pose proof (point_shape 0 _ _ (trees_dual y dy E)) as P. rewrite <- P, trees_at. clear P. unfold shape, moved in *. revert dy E.
  induction y as [|l y IH]; intros [|d dy] E; try discriminate; [reflexivity|]. cbn in *. injection E as E1 E2. f_equal; auto. apply map2_length_eq. auto.
Qed.
Lemma jvp_correct J df D m y dy ts dts : dyn_tracks J df -> step_tracks D m -> dyn_finite J (shape y) ->
  (forall sh x t d, dyn_finite J sh -> dshape x = sh -> exists p, D J x t d = Ok p /\ dshape p = sh) ->
  shape dy = shape y -> length dts = length ts -> ts <> [] ->
  exists xs, odeint_jvp J y dy ts dts D = Ok xs /\ ltrees (fun s => odeint (df s) (moved s y dy) (moved1 s ts dts) m) xs.
Proof.
  intros HJ HD F Fin Sy Lt Nt. destruct (odeint_fin J D (shape y) (pair_tree y dy) (combine ts dts)) as (xs & E).
  - intros x t d Hx. apply (Fin (shape y)); auto.
  - apply pair_shape. auto.
  - destruct ts, dts; discriminate || congruence.
  - exists xs. split; [exact E|]. destruct (odeint_tracked J df D m _ _ _ _ xs HJ HD (trees_dual y dy (eq_sym Sy)) (lines_dual ts dts (eq_sym Lt)) E) as (fss & H & L).
    exists fss. split; [exact H|]. revert L. apply filter_imp. intros s Hs. rewrite trees_at, lines_at in Hs. exact Hs.
Qed.

(** ** A nonlinear, time-dependent equation: y' = y ** 2 + t *)
Definition square_ode : dynamics := fun y t => Ok (map (map (fun a => a * a + t)) y).
Definition square_jvp : ddynamics := fun y t => Ok (map (map (fun a => dadd (dmul a a) t)) y).
Lemma square_tracks : dyn_tracks square_jvp (fun _ => square_ode).
Proof.
  intros fs x ft t p Hx Ht E. injection E as <-. exists (map (map (fun g s => g s * g s + ft s)) fs). split.
  - induction Hx as [|f a fs x H _ IH]; cbn; constructor; auto. clear -H Ht. induction H; cbn; constructor; auto. apply d_add; [apply d_mul|]; auto.
  - apply filter_forall. intros s. unfold square_ode, point. f_equal. rewrite !map_map. apply map_ext. intros l. rewrite !map_map. reflexivity.
Qed.
Lemma square_finite sh : dyn_finite square_jvp sh.
Proof.
  intros x t H. eexists. split; [reflexivity|]. rewrite <- H. unfold dshape. rewrite map_map. apply map_ext. intros l. apply map_length.
Qed.

(** y' = a y with an additional argument a *)
Definition growth_ode (a : R) : dynamics := fun y t => Ok (tree_scalar_mul a y).
Definition growth_jvp (a : du) : ddynamics := fun y t => Ok (dtree_scal a y).
Lemma growth_tracks fa a : dual_of fa a -> dyn_tracks (growth_jvp a) (fun s => growth_ode (fa s)).
Proof.
  intros Ha fs x ft t p Hx Ht E. injection E as <-. exists (cscal fa fs). split; [apply scal_dual; auto|].
  apply filter_forall. intros s. unfold growth_ode. now rewrite scal_point.
Qed.
Lemma growth_finite a sh : dyn_finite (growth_jvp a) sh.
Proof. intros x t Hx. eexists. split; [reflexivity|]. now rewrite scal_shape. Qed.
