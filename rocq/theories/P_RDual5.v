(** Proofs: where the derivatives of programs are finite, and that they are the gradient. *)
From Coquelicot Require Import Coquelicot.
From Verif Require Import Base BaseFacts M_Quat S_Quat M_RFun S_RFun M_Solid M_RDual S_Solid S_SolidBC S_RDual P_RDual1 P_RDual2 P_RDual3
  P_Quat P_RFun1 P_RFun2 P_Vec P_Solid1 P_Solid3 P_Solid5 P_SolidC1 P_SolidC2.

(** the line through a point, with the given tangent *)
Definition line (X : list du) : list (R -> R) := map (fun (a : du) s => fst a + s * snd a) X.
Lemma line_dual X : Forall2 dual_of (line X) X.
Proof.
  induction X as [|a X IH]; constructor; auto. split; [cbn; ring|].
  cbn [fst snd]. auto_derive; [exact I|ring].
Qed.
Lemma line_0 (X : list du) : at_ 0 (line X) = map fst X.
Proof. unfold line. rewrite map_map. apply map_ext. intros; ring. Qed.
Lemma at_0 fs x : Forall2 dual_of fs x -> at_ 0 fs = map fst x.
Proof. induction 1 as [|f a fs x [H _] _ IH]; cbn; congruence. Qed.
Lemma track_value F p : dtrack F p -> F 0 = Ok (fst p).
Proof. intros (phi & [H _] & L). rewrite (locally_singleton _ _ L). now rewrite H. Qed.
Lemma value_of n J f (X : list du) p : tracks n J f -> length X = n -> J X = Ok p -> f (A1 (map fst X)) = Ok (fst p).
Proof. intros T L E. rewrite <- line_0. exact (track_value _ _ (T (line X) X p L (line_dual X) E)). Qed.
Lemma op_value D op a b p : op_tracks D op -> D a b = Ok p -> op (fst a) (fst b) = Ok (fst p).
Proof.
  intros O E. pose proof (line_dual [a]) as Ha. pose proof (line_dual [b]) as Hb. inversion Ha; inversion Hb; subst.
  pose proof (track_value _ _ (O _ _ _ _ _ H2 H8 E)) as V. cbn in V. rewrite <- V. f_equal; ring.
Qed.

(** J is finite at x, whatever the tangent is *)
Definition fin (J : jadf) (x : list R) : Prop := forall X : list du, map fst X = x -> exists p, J X = Ok p.
Definition zv (p : du) : Prop := fst p = 0.

Lemma reduce_from_fin D op z a : op_tracks D op -> (forall a b, fst a <> 0 \/ fst b <> 0 -> exists p, D a b = Ok p) ->
  (forall a b, exists c, op a b = Ok c /\ (c = 0 -> a = 0 \/ b = 0)) ->
  at_most_one zv (a :: z) -> exists p, reduce_from D a z = Ok p.
Proof.
  intros O F Z. revert a. induction z as [|b z IH]; intros a [A1 A2]; [eexists; reflexivity|].
  cbn [at_most_one] in A2. destruct A2 as [A2 A3]. rewrite fold_and in A1, A2. cbn.
  destruct (F a b) as (p & Ep).
  { destruct (Req_dec (fst a) 0) as [E|E]; [|auto]. right. specialize (A1 E). inversion A1; auto. }
  rewrite Ep. cbn. apply IH. split; [|exact A3]. rewrite fold_and. intros Hp.
  destruct (Z (fst a) (fst b)) as (c & Ec & Hc). rewrite (op_value _ _ _ _ _ O Ep) in Ec. injection Ec as <-.
  destruct (Hc Hp) as [E|E]; [specialize (A1 E); inversion A1; auto|auto].
Qed.
Lemma reduce_fin D op z : op_tracks D op -> (forall a b, fst a <> 0 \/ fst b <> 0 -> exists p, D a b = Ok p) ->
  (forall a b, exists c, op a b = Ok c /\ (c = 0 -> a = 0 \/ b = 0)) -> z <> [] ->
  at_most_one zv z -> exists p, reduce D z = Ok p.
Proof. intros O F Z NE A. destruct z as [|a z]; [congruence|]. exact (reduce_from_fin D op z a O F Z A). Qed.

(** ** Primitives *)
Lemma amo_transfer {A B} (P : A -> Prop) (Q : B -> Prop) l m : Forall2 (fun a b => Q b -> P a) l m -> at_most_one P l -> at_most_one Q m.
Proof.
  induction 1 as [|a b l m Hab H IH]; intros A1; [exact I|]. destruct A1 as [A1 A2]. split; [|auto].
  rewrite fold_and in *. intros Hb. specialize (A1 (Hab Hb)). clear -A1 H. induction H; constructor; inversion A1; subst; auto.
Qed.
Lemma faces_z (pre X : list du) lb ub : length lb = length X -> length ub = length X ->
  exists z, dinterleave (map2 (fun x u => dsub (dconst u) x) X ub) (map2 (fun x l => dsub x (dconst l)) X lb) = Ok z /\
  Forall2 (fun (f : adf) p => zv p -> zero_at (map fst (pre ++ X)) f) (faces (length pre) lb ub) z.
Proof.
  revert pre lb ub. induction X as [|a X IH]; intros pre [|l lb] [|u ub] Ll Lu; try discriminate.
  - exists []. split; [reflexivity|constructor].
  - destruct (IH (pre ++ [a]) lb ub) as (z & Ez & F); [cbn in Ll; lia|cbn in Lu; lia|].
    exists (dsub (dconst u) a :: dsub a (dconst l) :: z). cbn. rewrite Ez. split; [reflexivity|].
    rewrite <- app_assoc in F. cbn [app] in F. rewrite app_length, Nat.add_1_r in F.
    assert (N : nth (length pre) (map fst (pre ++ a :: X)) 0 = fst a).
    { rewrite map_app, app_nth2; rewrite map_length; [|lia]. rewrite Nat.sub_diag. reflexivity. }
    constructor; [|constructor; [|exact F]]; unfold zv, zero_at, hi, lo; cbn [fst dsub dconst]; rewrite N; intros ->; reflexivity.
Qed.
Lemma fin_box d s x lb ub : sys_tracks d s -> sys_finite d -> sign_correct s -> (1 <= length x)%nat ->
  length lb = length x -> length ub = length x -> single_face lb ub x ->
  forall X : list du, map fst X = x -> exists p, (z <- dinterleave (map2 (fun x u => dsub (dconst u) x) X ub) (map2 (fun x l => dsub x (dconst l)) X lb) ;;
    reduce (dconj d) z) = Ok p.
Proof.
  intros [Oc _] F SC Hx Ll Lu [N K] X EX. assert (LX : length X = length x) by (rewrite <- EX, map_length; reflexivity).
  destruct (faces_z [] X lb ub) as (z & Ez & Fz); [congruence|congruence|]. rewrite Ez. cbn [bind]. cbn [app length] in Fz. rewrite EX in Fz.
  apply (reduce_fin (dconj d) (conj_ s)); auto.
  - intros a b H. apply F, H.
  - apply sign_zero, SC.
  - intros ->. inversion Fz as [E|]. destruct lb, ub; cbn in *; try discriminate; lia.
  - apply (amo_transfer (zero_at x) zv _ _ Fz). apply faces_single; [congruence|intros; apply N; lia|]. intros; cbn; apply K; lia.
Qed.
Lemma map2_const {C} (f : du -> R -> C) X c : map2 f X (repeat c (length X)) = map (fun a => f a c) X.
Proof. induction X; cbn; f_equal; auto. Qed.
Lemma fin_cuboid d s e c x : sys_tracks d s -> sys_finite d -> sign_correct s -> length e = length x -> (1 <= length x)%nat ->
  single_face (lower e c) (upper e c) x -> fin (jcuboid (A1 e) c d) x.
Proof.
  intros T F SC Le Hx K X EX. assert (LX : length X = length x) by (rewrite <- EX, map_length; reflexivity).
  assert (Ll : length (lower e c) = length x) by (unfold lower; rewrite map_length; auto).
  assert (Lu : length (upper e c) = length x) by (unfold upper; rewrite map_length; auto).
  destruct (fin_box d s x (lower e c) (upper e c) T F SC Hx Ll Lu K X EX) as (p & Ep). exists p. rewrite <- Ep.
  unfold jcuboid. 
  replace (if c then amap (fun e => e / 2) (A1 e) else A1 e) with (A1 (upper e c)) by (unfold upper; destruct c; cbn; rewrite ?map_id; reflexivity).
  replace (if c then amap (fun e => - e / 2) (A1 e) else amap (fun _ => 0) (A1 e)) with (A1 (lower e c)) by (unfold lower; destruct c; reflexivity).
  rewrite !jbop_eq by congruence. reflexivity.
Qed.
Lemma fin_cube d s e c x : sys_tracks d s -> sys_finite d -> sign_correct s -> (1 <= length x)%nat ->
  single_face (lower (repeat e (length x)) c) (upper (repeat e (length x)) c) x -> fin (jcuboid (A0 e) c d) x.
Proof.
  intros T F SC Hx K X EX. destruct (fin_cuboid d s (repeat e (length x)) c x T F SC (repeat_length _ _) Hx K X EX) as (p & Ep).
  exists p. rewrite <- Ep. assert (LX : length X = length x) by (rewrite <- EX, map_length; reflexivity). rewrite <- LX.
  assert (MR : forall g, map g (repeat e (length X)) = repeat (g e : R) (length X)) by (intros g; generalize (length X) as m; induction m; cbn; congruence).
  assert (JB : forall (f : du -> R -> du) k, jbop f X (A1 (repeat k (length X))) = jbop f X (A0 k))
    by (intros f k; rewrite jbop_eq by (rewrite repeat_length; reflexivity); rewrite map2_const; reflexivity).
  unfold jcuboid. destruct c; cbn [amap]; rewrite !MR, !JB; reflexivity.
Qed.
Lemma sumsq_pos x : ~ Forall (fun y => y = 0) x -> 0 < sumsq x.
Proof. intros N. pose proof (sumsq_nonneg x). destruct (Req_dec (sumsq x) 0) as [E|E]; [apply sumsq_0 in E; contradiction|lra]. Qed.
Lemma dnorm_fin (X : list du) : 0 < sumsq (map fst X) -> exists p, dnorm X = Ok p.
Proof. intros P. unfold dnorm. rewrite dsqrt_fin by (rewrite dsum_fst; exact P). eexists; reflexivity. Qed.
Lemma fin_sphere r x : 0 < r -> 0 < sumsq x -> fin (jsphere r) x.
Proof.
  intros Hr P X EX. unfold jsphere. destruct (dnorm_fin X) as (p & ->); [rewrite EX; exact P|]. cbn [bind].
  unfold ddivc. rewrite !fdiv_ok by lra. eexists; reflexivity.
Qed.
Lemma fin_cylinder r x : 0 < r -> (2 <= length x)%nat -> nth 0 x 0 <> 0 \/ nth 1 x 0 <> 0 -> fin (jcylinder r) x.
Proof.
  intros Hr L N X EX. apply (fin_sphere r (firstn 2 x) Hr); [|rewrite <- EX; symmetry; apply firstn_map].
  destruct x as [|a [|b x]]; cbn in L; try lia. cbn in N |- *. unfold sumsq. cbn. apply (Rle_lt_trans _ 0); [lra|].
  destruct N as [N|N]; apply Rsqr_pos_lt in N; unfold Rsqr in N; pose proof (Rle_0_sqr a); pose proof (Rle_0_sqr b); unfold Rsqr in *; lra.
Qed.

(** ** Transformations *)
Lemma dscal_1 (r : res du) : r = bind r (fun v => Ok (dscal 1 v)).
Proof. destruct r as [[a b]|]; [|reflexivity]. cbn. unfold dscal. cbn. now rewrite !Rmult_1_l. Qed.
Lemma jtranslate_eq J y X : length X = length y -> jtranslate J (A1 y) X = J (map2 (fun a y => dsub a (dconst y)) X y).
Proof. intros L. unfold jtranslate. rewrite jbop_eq by exact L. reflexivity. Qed.
Lemma dlen2 (X : list du) : length X = 2%nat -> exists a b, X = [a; b].
Proof. destruct X as [|a [|b [|]]]; try discriminate. eauto. Qed.
Lemma dlen3 (X : list du) : length X = 3%nat -> exists a b c, X = [a; b; c].
Proof. destruct X as [|a [|b [|c [|]]]]; try discriminate. eauto. Qed.


Lemma jmove_eval n m (X : list du) : good_move n m -> length X = n -> off_axis m (map fst X) -> exists Y : list du, length Y = source m n /\
  forall J, exists J', jbuild_move m J = Ok J' /\ J' X = bind (J Y) (fun v => Ok (dscal (factor m) v)).
Proof.
  intros G L O. destruct m as [y|k|a|t o1 o2|t ax o|t1 t2 t3 o|v o|v o|b]; cbn [good_move source factor jbuild_move] in *.
  - eexists; split; [|intros J; eexists; split; [reflexivity|]; rewrite <- dscal_1; apply jtranslate_eq; congruence]. rewrite map2_length_eq; congruence.
  - exists (map (fun a => (fst a / k, snd a / k)) X). split; [rewrite map_length; exact L|]. intros J. eexists; split; [reflexivity|]. cbv beta.
    rewrite (sequence_map_ext _ (fun a => (fst a / k, snd a / k))); [reflexivity|]. intros a _. unfold ddivc. rewrite !fdiv_ok by lra. reflexivity.
  - destruct G as [La Ha]. eexists; split; [|intros J; eexists; split; [reflexivity|]; rewrite <- dscal_1; unfold jstretch; cbn [ravel];
      rewrite jbop_eq by congruence; cbn [bind]; rewrite seq_div2 by (auto; congruence); reflexivity].
    transitivity (length X); [apply (map2_length_eq _ X a); congruence|exact L].
  - subst n. destruct (dlen2 X L) as (a & b & ->). eexists; split; [|intros J; eexists; split; [reflexivity|]; rewrite <- dscal_1; reflexivity]. reflexivity.
  - destruct G as [-> U]. destruct (dlen3 X L) as (a & b & c & ->). eexists; split; [|intros J; eexists; split; [reflexivity|]; rewrite <- dscal_1].
    2:{ destruct ax as [n1 n2 n3]. rewrite jtranslate_eq by reflexivity. cbn [map2 list3].
        rewrite !axis_angle_rodrigues by exact U. cbn [bind]. reflexivity. }
    reflexivity.
  - subst n. destruct (dlen3 X L) as (a & b & c & ->). eexists; split; [|intros J; eexists; split; [reflexivity|]; rewrite <- dscal_1].
    2:{ rewrite jtranslate_eq by reflexivity. cbn [map2 list3]. rewrite !euler_rotation. cbn [bind]. reflexivity. }
    reflexivity.
  - destruct G as (Lv & Lo & NZ). eexists; split; [|intros J; eexists; split; [reflexivity|]; rewrite <- dscal_1].
    2:{ unfold jreflect. rewrite jtranslate_eq by congruence. unfold jalong. rewrite map2_length_eq, L, Lv, Nat.eqb_refl by congruence. cbn [bind].
        unfold ddivc. rewrite !fdiv_ok by (cbn [anorm ravel]; unfold anorm; cbn [ravel]; rewrite normR_pow2, <- dotR_self; exact NZ). cbn [bind].
        rewrite jbop_eq by (rewrite map2_length_eq; congruence). cbn [bind amap].
        rewrite jtranslate_eq by (rewrite !map2_length_eq, map_length; rewrite ?map2_length_eq; congruence). reflexivity. }
    rewrite !map2_length_eq; rewrite ?map_length; rewrite ?map2_length_eq; try congruence; rewrite ?map2_length_eq; congruence.
  - destruct G as (Lv & Lo & NZ). eexists; split; [|intros J; eexists; split; [reflexivity|]; rewrite <- dscal_1].
    2:{ unfold jproject. rewrite jtranslate_eq by congruence. unfold jalong. rewrite map2_length_eq, L, Lv, Nat.eqb_refl by congruence. cbn [bind].
        unfold ddivc. rewrite !fdiv_ok by (cbn [anorm ravel]; unfold anorm; cbn [ravel]; rewrite normR_pow2, <- dotR_self; exact NZ). cbn [bind].
        rewrite jbop_eq by (rewrite map2_length_eq; congruence). cbn [bind amap].
        rewrite jtranslate_eq by (rewrite !map2_length_eq, map_length; rewrite ?map2_length_eq; congruence). reflexivity. }
    rewrite !map2_length_eq; rewrite ?map_length; rewrite ?map2_length_eq; try congruence; rewrite ?map2_length_eq; congruence.
  - subst n. destruct (dlen3 X L) as (x0 & x1 & x2 & ->). destruct b; cbn in O; (eexists; split; [|intros J; eexists; split; [reflexivity|];
      rewrite <- dscal_1; cbn; rewrite dsqrt_fin by (cbn; lra); cbn [bind]; reflexivity]); reflexivity.
Qed.
(** the values are moved like points *)
Definition coord (i : nat) : adf := fun a => match a with A1 l => Ok (nth i l 0) | A0 _ => Err TypeError end.
Definition jcoord (i : nat) : jadf := fun X => Ok (nth i X (0, 0)).
Lemma tracks_coord n i : tracks n (jcoord i) (coord i).
Proof.
  intros fs x p _ H E. injection E as <-. cbn. apply t_ok. revert i. induction H as [|f a fs x Hf _ IH]; intros [|i]; cbn; auto; exact (d_const 0).
Qed.
Lemma factor_pos n m : good_move n m -> 0 < factor m.
Proof. destruct m; cbn; intros; try lra. Qed.
Lemma jmove_point n m (X Y : list du) : good_move n m -> length X = n -> length Y = source m n ->
  (forall J, exists J', jbuild_move m J = Ok J' /\ J' X = bind (J Y) (fun v => Ok (dscal (factor m) v))) -> map fst Y = back m (map fst X).
Proof.
  intros G L LY K. pose proof (factor_pos n m G) as P.
  assert (LX : length (map fst X) = n) by (rewrite map_length; exact L).
  apply vec_ext; [rewrite map_length, (back_length n m _ G LX); exact LY|]. intros i _.
  destruct (K (jcoord i)) as (J' & EJ & EX). destruct (tracks_move n m _ _ G (tracks_coord (source m n) i)) as (J2 & f' & EJ2 & Ef & T).
  assert (J2 = J') as -> by congruence. destruct (move_eval n m (coord i) G) as (g & Eg & Vg). assert (g = f') as -> by congruence.
  cbn in EX. pose proof (value_of n J' f' X _ T L EX) as V. rewrite (Vg _ LX) in V. cbn in V. injection V as V.
  apply Rmult_eq_reg_l in V; [|lra]. rewrite V. change 0 with (fst (0, 0) : R) at 1. apply map_nth.
Qed.
Lemma fin_move n m J J' x : good_move n m -> length x = n -> off_axis m x -> fin J (back m x) -> jbuild_move m J = Ok J' -> fin J' x.
Proof.
  intros G L O F E X EX. assert (LX : length X = n) by (rewrite <- EX in L; rewrite map_length in L; exact L). rewrite <- EX in O.
  destruct (jmove_eval n m X G LX O) as (Y & LY & K). pose proof (jmove_point n m X Y G LX LY K) as PY. rewrite EX in PY.
  destruct (K J) as (J2 & E2 & V). assert (J2 = J') as -> by congruence. destruct (F Y PY) as (p & Ep). rewrite V, Ep. eexists; reflexivity.
Qed.

(** ** Programs *)
Lemma fin_op2 n o d s J K f g x a b : sys_tracks d s -> sys_finite d -> sign_correct s -> tracks n J f -> tracks n K g -> length x = n ->
  f (A1 x) = Ok a -> g (A1 x) = Ok b -> a <> 0 \/ b <> 0 -> fin J x -> fin K x -> fin (jbuild_op2 o d J K) x.
Proof.
  intros [Oc Od] F SC T U L Ea Eb NZ FJ FK X EX. destruct (FJ X EX) as (p & Ep). destruct (FK X EX) as (q & Eq).
  assert (LX : length X = n) by (rewrite <- EX in L; rewrite map_length in L; exact L).
  pose proof (value_of n J f X p T LX Ep) as Vp. rewrite EX, Ea in Vp. injection Vp as ->.
  pose proof (value_of n K g X q U LX Eq) as Vq. rewrite EX, Eb in Vq. injection Vq as ->.
  assert (NZ1 : fst p <> 0 \/ fst (dneg q) <> 0) by (cbn; destruct NZ; [left|right]; lra).
  assert (NZ2 : fst (dneg p) <> 0 \/ fst q <> 0) by (cbn; destruct NZ; [left|right]; lra).
  assert (sg_opp : forall z, sg (- z) = (- sg z)%Z) by (intros z; unfold sg; repeat destruct Rlt_dec; try lra; auto).
  assert (sg_nz : forall z, z <> 0 -> sg z <> 0%Z) by (intros z Hz; unfold sg; repeat destruct Rlt_dec; try discriminate; lra).
  assert (sg_0 : sg 0 = 0%Z) by (unfold sg; repeat destruct Rlt_dec; try lra; auto).
  assert (Nsg : (sg (fst p) <> 0 \/ sg (fst q) <> 0)%Z) by (destruct NZ; auto).
  destruct o; unfold jbuild_op2, jpointwise; rewrite Ep; cbn [bind]; rewrite Eq; cbn [bind].
  - apply F, NZ.
  - apply F, NZ.
  - destruct (F _ _ NZ1) as [_ (c1 & E1)]. destruct (F _ _ NZ2) as [_ (c2 & E2)]. rewrite E1. cbn [bind]. rewrite E2. cbn [bind]. apply F.
    destruct (SC (fst p) (- fst q)) as (_ & (w1 & W1 & S1)). destruct (SC (- fst p) (fst q)) as (_ & (w2 & W2 & S2)). rewrite sg_opp in S1, S2.
    pose proof (op_value _ _ _ _ _ Od E1) as V1. pose proof (op_value _ _ _ _ _ Od E2) as V2. cbn [fst dneg] in V1, V2.
    assert (w1 = fst c1) as -> by congruence. assert (w2 = fst c2) as -> by congruence.
    destruct (Req_dec (fst c1) 0) as [Z1|]; auto. right. intros Z2. rewrite Z1, Z2, sg_0 in *. lia.
  - apply F, NZ2.
  - apply F, NZ1.
  - destruct (F _ _ NZ1) as [(c1 & E1) _]. destruct (F _ _ NZ2) as [(c2 & E2) _]. rewrite E1. cbn [bind]. rewrite E2. cbn [bind]. apply F.
    destruct (SC (fst p) (- fst q)) as ((w1 & W1 & S1) & _). destruct (SC (- fst p) (fst q)) as ((w2 & W2 & S2) & _). rewrite sg_opp in S1, S2.
    pose proof (op_value _ _ _ _ _ Oc E1) as V1. pose proof (op_value _ _ _ _ _ Oc E2) as V2. cbn [fst dneg] in V1, V2.
    assert (w1 = fst c1) as -> by congruence. assert (w2 = fst c2) as -> by congruence.
    destruct (Req_dec (fst c1) 0) as [Z1|]; auto. right. intros Z2. rewrite Z1, Z2, sg_0 in *. lia.
Qed.

Definition finite_prog dsys user (t : solid) : Prop := forall n x J, good (usable dsys) n t -> (forall f, In f (user_parts t) -> user_ok user f) ->
  length x = n -> kink_free t x -> jbuild dsys user t = Ok J -> fin J x.

Lemma usable_sign dsys s : usable dsys s -> sign_correct s.
Proof. intros (S & _). apply S. Qed.
Lemma usable_track dsys n t : good (usable dsys) n t -> good (fun s => sys_tracks (dsys s) s) n t.
Proof. apply good_mono. intros s H. apply H. Qed.
Lemma usable_smooth dsys n t : good (usable dsys) n t -> good smooth_system n t.
Proof. apply good_mono. intros s H. apply H. Qed.
Lemma usable_status dsys n t f x : good (usable dsys) n t -> length x = n -> kink_free t x -> build t = Ok f -> exists v, status t f x v.
Proof.
  intros G L K B. apply (solid_status t n); auto using kink_regular.
  revert G. apply good_mono. intros s H. apply system_cont, H.
Qed.

Lemma fin_prim dsys user n p x : good_prim (usable dsys) n p -> (forall f, In f (user_parts (Prim p)) -> user_ok user f) ->
  length x = n -> kink_free_prim p x -> fin (jbuild_prim dsys user p) x.
Proof.
  intros G U L K. destruct p as [e c s|e c s|r|r|a|f]; cbn [good_prim kink_free_prim jbuild_prim] in *.
  - destruct G as (G1 & G2 & G3). apply (fin_cuboid _ s); try apply G3; auto; try (apply (usable_sign dsys), G3); congruence || lia.
  - destruct G as (G2 & G3). apply (fin_cube _ s); try apply G3; auto; try (apply (usable_sign dsys), G3); lia.
  - apply fin_sphere; [exact G|]. apply sumsq_pos, K.
  - apply fin_cylinder; [apply G|destruct G; lia|exact K].
  - destruct K.
  - intros X EX. destruct (U f) as [_ V]; [left; reflexivity|]. exact (V x K X EX).
Qed.

Lemma fin_list dsys user l n x : Forall (finite_prog dsys user) l -> Forall (good (usable dsys) n) l ->
  (forall f, In f (flat_map user_parts l) -> user_ok user f) -> length x = n ->
  Forall (fun a => kink_free a x) l -> at_most_one (fun a => on_boundary a x) l ->
  forall Js (X : list du), sequence (map (jbuild dsys user) l) = Ok Js -> map fst X = x ->
  exists vs, sequence (map (fun J : jadf => J X) Js) = Ok vs /\ length vs = length l /\ at_most_one zv vs.
Proof.
  intros H G U L K A Js X E EX.
  assert (Fz : exists vs, sequence (map (fun J : jadf => J X) Js) = Ok vs /\ Forall2 (fun t p => zv p -> on_boundary t x) l vs).
  { clear A. revert Js E. induction H as [|t l Ht _ IH]; intros Js E.
    - cbn in E. injection E as <-. exists []. split; [reflexivity|constructor].
    - inversion G as [|? ? Gt Gl]; inversion K as [|? ? Kt Kl]; subst. cbn in E.
      apply bind_ok in E as (J & EJ & E). apply bind_ok in E as (Js' & EJs & E). injection E as <-.
      assert (Ut : forall f, In f (user_parts t) -> user_ok user f) by (intros f Hf; apply U; cbn; apply in_or_app; auto).
      destruct (Ht _ _ J Gt Ut eq_refl Kt EJ X eq_refl) as (p & Ep).
      destruct (IH Gl) with (Js := Js') as (vs & Ev & F); auto; [intros f Hf; apply U; cbn; apply in_or_app; auto|].
      exists (p :: vs). cbn [map sequence]. rewrite Ep. cbn [bind]. rewrite Ev. split; [reflexivity|]. constructor; [|exact F].
      intros Zp. destruct (solid_tracked dsys user t _ (usable_track _ _ _ Gt)) as (J2 & f & EJ2 & Ef & T); [intros f Hf; apply Ut, Hf|].
      assert (J2 = J) as -> by congruence. rewrite map_length in T. pose proof (value_of _ J f X p T eq_refl Ep) as V.
      destruct (usable_status dsys _ t f _ Gt eq_refl Kt Ef) as (v & S). apply (status_zero t f _ v S).
      destruct S as ((Ev' & _) & _). unfold zv in Zp. congruence. }
  destruct Fz as (vs & Ev & F). exists vs. split; [exact Ev|]. split; [symmetry; exact (f2_length _ _ _ F)|].
  exact (amo_transfer _ _ _ _ F A).
Qed.

Lemma solid_finite dsys user t : finite_prog dsys user t.
Proof.
  induction t as [p|m t IH|t IH|o s t1 t2 IH1 IH2|s l IH|s l IH] using solid_rect'; intros n x J G U L K B.
  - cbn in B. injection B as <-. apply (fin_prim dsys user n); auto.
  - destruct G as [G1 G2]. destruct K as [K1 K2]. cbn in B. apply bind_ok in B as (J0 & B0 & B).
    apply (fin_move n m J0); auto. apply (IH (source m n)); auto. apply back_length; auto.
  - cbn in B. apply bind_ok in B as (J0 & B0 & B). injection B as <-. intros X EX. destruct (IH n x J0 G U L K B0 X EX) as (p & Ep).
    unfold jnegate. rewrite Ep. eexists; reflexivity.
  - destruct G as (G0 & G1 & G2). destruct K as (K1 & K2 & K3). cbn in B. apply bind_ok in B as (J1 & B1 & B). apply bind_ok in B as (J2 & B2 & B). injection B as <-.
    assert (U1 : forall f, In f (user_parts t1) -> user_ok user f) by (intros f Hf; apply U; cbn; apply in_or_app; auto).
    assert (U2 : forall f, In f (user_parts t2) -> user_ok user f) by (intros f Hf; apply U; cbn; apply in_or_app; auto).
    destruct (solid_tracked dsys user t1 n (usable_track _ _ _ G1)) as (J1' & f1 & EJ1 & Ef1 & T1); [intros f Hf; apply U1, Hf|].
    destruct (solid_tracked dsys user t2 n (usable_track _ _ _ G2)) as (J2' & f2 & EJ2 & Ef2 & T2); [intros f Hf; apply U2, Hf|].
    assert (J1' = J1) as -> by congruence. assert (J2' = J2) as -> by congruence.
    destruct (usable_status dsys n t1 f1 x G1 L K1 Ef1) as (a & Sa). destruct (usable_status dsys n t2 f2 x G2 L K2 Ef2) as (b & Sb).
    apply (fin_op2 n o _ s J1 J2 f1 f2 x a b);
      [apply G0|apply G0|apply (usable_sign dsys), G0|exact T1|exact T2|exact L|apply Sa|apply Sb| |apply (IH1 n); auto|apply (IH2 n); auto].
    destruct (Req_dec a 0) as [->|]; auto. right. intros ->. apply K3. split; eapply status_zero; eauto.
  - cbn in G, K, B. destruct K as (K1 & K2). rewrite fold_and in G, K1. destruct G as (G0 & G1 & G2).
    apply bind_ok in B as (Js & Es & B). injection B as <-. intros X EX. unfold jcompose.
    destruct (fin_list dsys user l n x IH G2 U L K1 K2 Js X Es EX) as (vs & -> & Lv & A). cbn [bind].
    destruct vs as [|v vs]; [destruct l; cbn in Lv; congruence|].
    apply (reduce_fin _ (conj_ s)); [apply G0|intros a b H; apply G0, H|apply sign_zero, (usable_sign dsys), G0|discriminate|exact A].
  - cbn in G, K, B. destruct K as (K1 & K2). rewrite fold_and in G, K1. destruct G as (G0 & G1 & G2).
    apply bind_ok in B as (Js & Es & B). injection B as <-. intros X EX. unfold jcompose.
    destruct (fin_list dsys user l n x IH G2 U L K1 K2 Js X Es EX) as (vs & -> & Lv & A). cbn [bind].
    destruct vs as [|v vs]; [destruct l; cbn in Lv; congruence|].
    apply (reduce_fin _ (disj_ s)); [apply G0|intros a b H; apply G0, H|apply sign_zero, (usable_sign dsys), G0|discriminate|exact A].
Qed.

(** ** The tangent is the gradient times the direction *)
Lemma line_at x dx s : length dx = length x -> at_ s (line (combine x dx)) = vadd x (vscal s dx).
Proof.
  unfold line. rewrite map_map. revert dx. induction x as [|a x IH]; intros [|b dx] L; try discriminate; [reflexivity|].
  cbn in L. cbn. unfold vadd, vscal in *. cbn. f_equal. apply IH. lia.
Qed.
Lemma line_sub x dx s : length dx = length x -> vsub (vadd x (vscal s dx)) x = vscal s dx.
Proof.
  revert dx. induction x as [|a x IH]; intros [|b dx] L; try discriminate; [reflexivity|].
  cbn in L. unfold vsub, vadd, vscal in *. cbn. f_equal; [ring|]. apply IH. lia.
Qed.
Lemma dotR_vscal g s dx : dotR g (vscal s dx) = s * dotR g dx.
Proof.
  revert dx. induction g as [|a g IH]; intros [|b dx]; try (cbn; ring). unfold vscal in *. cbn [map]. rewrite !dotR_cons, IH. ring.
Qed.
Lemma gradient_line f x v g dx p : has_gradient f x v g -> length dx = length x ->
  dtrack (fun s => f (A1 (at_ s (line (combine x dx))))) p -> p = (v, dotR g dx).
Proof.
  intros (Ev & Lg & H) L (phi & [P0 PD] & Lo).
  assert (E0 : phi 0 = v).
  { pose proof (locally_singleton _ _ Lo) as Q. cbv beta in Q. rewrite line_at in Q by exact L.
    replace (vadd x (vscal 0 dx)) with x in Q; [congruence|].
    clear -L. revert dx L. induction x as [|a x IH]; intros [|b dx] L; try discriminate; [reflexivity|]. unfold vadd, vscal in *. cbn in *. f_equal; [ring|]. apply IH. lia. }
  assert (D : is_derive phi 0 (dotR g dx)).
  { split; [apply is_linear_scal_l|]. intros z Hz. pose proof (is_filter_lim_locally_unique (V := R_NormedModule) 0 z Hz) as Ez. subst z. intros e.
    pose proof (normR_nonneg dx) as N. set (N1 := normR dx + 1). assert (HN : 0 < N1) by (unfold N1; lra).
    assert (He : 0 < e / N1) by (apply Rdiv_lt_0_compat; [apply cond_pos|exact HN]).
    destruct (H (e / N1) He) as (d & Hd & B). assert (Hd' : 0 < d / N1) by (apply Rdiv_lt_0_compat; auto).
    assert (Near : locally 0 (fun s => Rabs s < d / N1)).
    { exists (mkposreal _ Hd'). intros s Hs. change (Rabs (s - 0) < d / N1) in Hs. rewrite Rminus_0_r in Hs. exact Hs. }
    generalize (filter_and _ _ Lo Near). apply filter_imp. intros s [Q S]. rewrite line_at in Q by exact L.
    assert (ED : edist (vadd x (vscal s dx)) x = Rabs s * normR dx) by (unfold edist; rewrite line_sub by exact L; apply normR_scal).
    assert (Rabs s * N1 < d) by (apply (Rmult_lt_compat_r N1) in S; [|exact HN]; unfold Rdiv in S; rewrite Rmult_assoc, Rinv_l, Rmult_1_r in S by lra; exact S).
    pose proof (Rabs_pos s) as As.
    destruct (B (vadd x (vscal s dx))) as (w & Ew & Lw).
    - unfold vadd, vscal. rewrite map2_length, map_length, L. apply Nat.min_id.
    - rewrite ED. unfold N1 in *. nra.
    - rewrite Q in Ew. injection Ew as <-. rewrite ED, line_sub, dotR_vscal in Lw by exact L.
      rewrite E0. change (Rabs (phi s + - v + - ((s + - 0) * dotR g dx)) <= e * Rabs (s + - 0)). rewrite Ropp_0, Rplus_0_r.
      replace (phi s + - v + - (s * dotR g dx)) with (phi s - v - s * dotR g dx) by (unfold Rminus; reflexivity). eapply Rle_trans; [exact Lw|].
      assert (e / N1 * normR dx <= e).
      { unfold Rdiv. rewrite Rmult_assoc. rewrite <- (Rmult_1_r e) at 2. apply Rmult_le_compat_l; [apply Rlt_le, cond_pos|].
        apply (Rmult_le_reg_l N1); [exact HN|]. rewrite <- Rmult_assoc, Rinv_r, Rmult_1_l, Rmult_1_r by lra. unfold N1; lra. }
      replace (e / N1 * (Rabs s * normR dx)) with (e / N1 * normR dx * Rabs s) by ring. apply Rmult_le_compat_r; auto. }
  apply is_derive_unique in D. apply is_derive_unique in PD. destruct p as [a b]. cbn in *. congruence.
Qed.

Lemma combine_fst (x dx : list R) : length dx = length x -> map fst (combine x dx : list du) = x.
Proof. revert dx. induction x as [|a x IH]; intros [|b dx] L; try discriminate; [reflexivity|]. cbn in *. f_equal. apply IH. lia. Qed.

Lemma solid_jvp dsys user t n x : good (usable dsys) n t -> (forall f, In f (user_parts t) -> user_ok user f) ->
  length x = n -> kink_free t x -> exists J f v g, jbuild dsys user t = Ok J /\ build t = Ok f /\ has_gradient f x v g /\
  forall dx, length dx = n -> jvp J x dx = Ok (v, dotR g dx).
Proof.
  intros G U L K. destruct (solid_tracked dsys user t n (usable_track _ _ _ G)) as (J & f & EJ & Ef & T); [intros f Hf; apply U, Hf|].
  destruct (smooth_grad f x) as (v & g & Hg); [exact (solid_smooth t n x f (usable_smooth _ _ _ G) L K Ef)|].
  exists J, f, v, g. repeat (split; [assumption|]). intros dx Ld. unfold jvp.
  destruct (solid_finite dsys user t n x J G U L K EJ (combine x dx)) as (p & Ep); [apply combine_fst; congruence|].
  rewrite Ep. f_equal. apply (gradient_line f x v g dx p Hg); [congruence|].
  apply (T (line (combine x dx)) (combine x dx) p); [|apply line_dual|exact Ep].
  transitivity (Nat.min (length x) (length dx)); [exact (combine_length x dx)|]. rewrite L, Ld. apply Nat.min_id.
Qed.
Lemma dotR_basis g n i : length g = n -> dotR g (basis n i) = nth i g 0.
Proof.
  intros <-. unfold basis. revert i. induction g as [|a g IH]; intros i.
  - destruct i; reflexivity.
  - destruct i as [|i]; cbn [length repeat upd nth]; rewrite dotR_cons; [|rewrite IH; ring].
    replace (dotR g (repeat 0 (length g))) with 0; [ring|]. clear. induction g as [|b g IH]; [reflexivity|]. cbn [length repeat]. rewrite dotR_cons, <- IH. ring.
Qed.
Lemma map_nth_seq (g : list R) : map (fun i => nth i g 0) (seq 0 (length g)) = g.
Proof. induction g as [|a g IH]; [reflexivity|]. cbn. f_equal. rewrite <- seq_shift, map_map. exact IH. Qed.
Lemma solid_gradient dsys user t n x : good (usable dsys) n t -> (forall f, In f (user_parts t) -> user_ok user f) ->
  length x = n -> kink_free t x -> exists J f v g, jbuild dsys user t = Ok J /\ build t = Ok f /\ has_gradient f x v g /\
  gradient J x = Ok g.
Proof.
  intros G U L K. destruct (solid_jvp dsys user t n x G U L K) as (J & f & v & g & EJ & Ef & Hg & V).
  exists J, f, v, g. repeat (split; [assumption|]). unfold gradient.
  assert (Lg : length g = length x) by apply Hg.
  rewrite (sequence_map_ext _ (fun i => nth i g 0)).
  - rewrite <- Lg, map_nth_seq. reflexivity.
  - intros i _. rewrite V by (rewrite basis_length; exact L). cbn [bind snd]. f_equal. apply dotR_basis. exact Lg.
Qed.
