(** Proofs: derivatives of ellipsoids are finite, and where derivatives of ADFs are not finite. *)
From Coquelicot Require Import Coquelicot.
From Verif Require Import Base BaseFacts M_Quat S_Quat M_RFun S_RFun M_Solid M_RDual S_Solid S_SolidBC S_RDual P_RDual1 P_RDual2 P_RDual3 P_RDual4 P_RDual5
  P_Quat P_RFun1 P_RFun2 P_Vec P_Solid1 P_Solid3 P_Solid5 P_SolidC1 P_SolidC2 P_SolidC3.

Lemma ltrack_value F ps : ltrack F ps -> F 0 = Ok (map fst ps).
Proof. intros (phis & D & L). pose proof (locally_singleton _ _ L) as E. cbv beta in E. rewrite E. f_equal. exact (at_0 _ _ D). Qed.
Lemma quot_fst (X : list du) a : map fst (map2 (fun x k => (fst x / k, snd x / k)) X a : list du) = quot (map fst X) a.
Proof. unfold quot. revert a. induction X as [|p X IH]; intros [|k a]; cbn; f_equal; auto. Qed.

Lemma fin_ellipsoid a x : length x = length a -> Forall (fun e => 0 < e) a -> ~ Forall (fun y => y = 0) x -> fin (jellipsoid (A1 a)) x.
Proof.
  intros Lx Ha NZ X EX. assert (LX : length X = length a) by (rewrite <- Lx, <- EX, map_length; reflexivity).
  pose proof (ell_nz a Ha) as Hz. unfold jellipsoid. cbn [ravel]. rewrite jbop_eq by exact LX. cbn [bind]. rewrite seq_div2 by auto. cbn [bind].
  set (u := map2 (fun x k => (fst x / k, snd x / k)) X a).
  assert (Nq : sumsq (quot x a) <> 0) by (rewrite sumsq_quot_0; auto).
  assert (Pq : 0 < sumsq (quot x a)) by (pose proof (sumsq_nonneg (quot x a)); lra).
  destruct (dnorm_fin u) as (m & Em); [unfold u; rewrite quot_fst, EX; exact Pq|]. rewrite Em. cbn [bind].
  destruct (t_norm _ _ _ (ell_u a (line X) X u (line_dual X) eq_refl) Em) as [_ Pm].
  unfold ddivc at 1. rewrite !fdiv_ok by lra. cbn [bind].
  assert (Lu : @length du u = length a) by (transitivity (length X); [exact (map2_length_eq _ X a LX)|exact LX]).
  assert (Each : forall i, exists p, jscaled_sphere_jvp (A1 a) u m i = Ok p).
  { intros i. unfold jscaled_sphere_jvp. cbn [ravel]. rewrite Lu. rewrite bopf_fdiv by (auto; rewrite basis_length; auto). cbn [bind].
    unfold ddiv. rewrite fdiv_ok by lra. cbn [bind]. unfold ddivc. rewrite !fdiv_ok by lra. eexists; reflexivity. }
  assert (Seq : forall l, exists dy, sequence (map (jscaled_sphere_jvp (A1 a) u m) l) = Ok dy).
  { induction l as [|i l (dy & IH)]; [eexists; reflexivity|]. destruct (Each i) as (p & Ep). cbn. rewrite Ep. cbn. rewrite IH. eexists; reflexivity. }
  destruct (Seq (seq 0 (length X))) as (dy & Edy). rewrite Edy. cbn [bind].
  assert (V : map fst dy = map (fun i => - (nth i x 0 / nth i a 0 ^ 2)) (seq 0 (length x))).
  { assert (T : ltrack (fun s => sequence (map (fun i => scaled_sphere_jvp (A1 a) (A1 (at_ s (line X))) (A1 (basis (length (at_ s (line X))) i))) (seq 0 (length X)))) dy).
    { apply (l_seq (fun s i => scaled_sphere_jvp (A1 a) (A1 (at_ s (line X))) (A1 (basis (length (at_ s (line X))) i))) (jscaled_sphere_jvp (A1 a) u m) (seq 0 (length X)) (seq 0 (length X)));
        [|exact Edy]. generalize (seq 0 (length X)) as l. induction l as [|i l IH]; constructor; auto.
      intros r Er. exact (ell_jvp a (line X) X u m LX Ha (line_dual X) eq_refl Em i r Er). }
    apply ltrack_value in T. rewrite line_0, EX in T. pose proof (jac_scaled_sphere a x Lx Hz Nq) as Ej. unfold jacfwd in Ej.
    replace (length X) with (length x) in T by congruence. rewrite T in Ej. cbn [bind] in Ej. injection Ej as ->. reflexivity. }
  destruct (dnorm_fin dy) as (nd & End).
  { rewrite V. apply sumsq_pos. intros C. apply NZ. rewrite Forall_nth_iff. intros i Hi. rewrite Forall_map, Forall_forall in C.
    specialize (C i). rewrite in_seq in C. assert (E := C ltac:(lia)). pose proof (Forall_nth_neq0 a i Hz ltac:(lia)) as Hai.
    replace (nth i x 0) with (- (- (nth i x 0 / nth i a 0 ^ 2)) * nth i a 0 ^ 2) by (field; auto). rewrite E. ring. }
  rewrite End. cbn [bind]. apply dsqrt_ok in End as (Pd & ->).
  rewrite dsqrt_fin.
  2:{ cbn [fst dadd dsq]. rewrite <- Rsqr_pow2 with (x := sqrt _), Rsqr_sqrt by lra. apply Rplus_le_lt_0_compat; [apply pow2_ge_0|exact Pd]. }
  cbn [bind]. unfold ddiv. rewrite fdiv_ok; [eexists; reflexivity|]. cbn [fst]. apply Rgt_not_eq, sqrt_lt_R0.
  cbn [fst dadd dsq]. rewrite <- Rsqr_pow2 with (x := sqrt _), Rsqr_sqrt by lra. apply Rplus_le_lt_0_compat; [apply pow2_ge_0|exact Pd].
Qed.

(** ** Not finite *)
Lemma dnorm_zero (X : list du) : Forall (fun y => y = 0) (map fst X) -> dnorm X = Err NonFinite.
Proof.
  intros H. apply sumsq_0 in H. unfold dnorm, dsqrt. rewrite dsum_fst, H. rewrite fsqrt_ok by lra. cbn [bind]. rewrite sqrt_0, fdiv_0 by reflexivity. reflexivity.
Qed.
Lemma gradient_err (J : jadf) x : (1 <= length x)%nat -> (forall X : list du, map fst X = x -> J X = Err NonFinite) -> gradient J x = Err NonFinite.
Proof.
  intros L H. unfold gradient. destruct (length x) as [|n] eqn:E; [lia|]. cbn [seq map sequence]. unfold jvp.
  rewrite H by (apply combine_fst; rewrite basis_length; auto). reflexivity.
Qed.
Lemma sphere_centre r n : 0 < r -> (1 <= n)%nat ->
  (exists v g, has_gradient (sphere r) (repeat 0 n) v g) /\ gradient (jsphere r) (repeat 0 n) = Err NonFinite.
Proof.
  intros Hr Hn. split; [apply smooth_grad, smooth_sphere, Hr|]. apply gradient_err; [rewrite repeat_length; exact Hn|].
  intros X EX. unfold jsphere. rewrite dnorm_zero; [reflexivity|]. rewrite EX. clear. induction n; cbn; constructor; auto.
Qed.
Lemma cylinder_axis r z : 0 < r ->
  (exists v g, has_gradient (cylinder r) [0; 0; z] v g) /\ gradient (jcylinder r) [0; 0; z] = Err NonFinite.
Proof.
  intros Hr. split; [apply smooth_grad, smooth_cylinder; [exact Hr|cbn; lia]|]. apply gradient_err; [cbn; lia|].
  intros X EX. unfold jcylinder, jsphere. assert (Q : Forall (fun y => y = 0) (firstn 2 (map fst X))) by (rewrite EX; cbn; auto).
  rewrite dnorm_zero; [reflexivity|]. rewrite firstn_map in Q. exact Q.
Qed.
Lemma r1_self s a da : r1 = Ok s -> disj_ s a a = Ok a /\ conj_ s a a = Ok a /\
  ddisj (dRAlpha 1) (a, da) (a, da) = Err NonFinite /\ dconj (dRAlpha 1) (a, da) (a, da) = Err NonFinite.
Proof.
  unfold r1, RAlpha. intros E. apply bind_ok in E as (u0 & _ & E). injection E as <-. cbn. unfold ralpha_disj, ralpha_conj, dralpha_root.
  rewrite fdiv_ok by lra. cbn [bind].
  replace (a ^ 2 + a ^ 2 - 2 * 1 * a * a) with 0 by ring. rewrite fsqrt_ok by lra. cbn [bind]. rewrite sqrt_0.
  unfold dsqrt. cbn [fst dsub dadd dsq dmul dscal]. replace (a ^ 2 + a ^ 2 - 2 * 1 * a * a) with 0 by ring.
  rewrite fsqrt_ok by lra. cbn [bind]. rewrite sqrt_0, fdiv_0 by reflexivity.
  split; [f_equal; field|]. split; [f_equal; field|]. split; reflexivity.
Qed.
(** the union of a solid with itself, with r1 *)
Lemma r1_union_self s J f n x : r1 = Ok s -> tracks n J f -> length x = n ->
  (forall v, f (A1 x) = Ok v -> union s f f (A1 x) = Ok v) /\
  forall X : list du, map fst X = x -> forall p, jbuild_op2 Union (dRAlpha 1) J J X <> Ok p.
Proof.
  intros E T L. split.
  - intros v Ev. unfold union, disj_adf, pointwise. rewrite Ev. cbn [bind]. apply (r1_self s v 0 E).
  - intros X EX p. cbn. unfold jpointwise. destruct (J X) as [[a da]|e] eqn:EJ; [|discriminate]. cbn [bind].
    pose proof (proj1 (proj2 (proj2 (r1_self s a da E)))) as Q. cbn in Q |- *. rewrite Q. discriminate.
Qed.

(** ** A program: the part of a box outside a ball, cut by a function of the user *)
Definition half : adf := coord 0.
Definition s0 : rsys := mkRsys (ralpha_conj 0) (ralpha_disj 0).
Definition carved : solid :=
  Op2 Intersection s0 (Op2 Difference s0 (Move (Translate [1; 0]) (Prim (Cuboid [2; 2] true s0))) (Prim (Sphere 1))) (Prim (User half)).
Lemma s0_r0 : RAlpha 0 = Ok s0.
Proof. unfold RAlpha. assert (Rltb (-1) 0 = true) as -> by (apply Rltb_true; lra). assert (Rleb 0 1 = true) as -> by (apply Rleb_true; lra). reflexivity. Qed.
Lemma coord_cont i x v : coord i (A1 x) = Ok v -> continuous_adf (coord i) x v.
Proof.
  intros E. split; [exact E|]. intros e He. exists e. split; [exact He|]. intros y Ly Hy. exists (nth i y 0). split; [reflexivity|].
  cbn in E. injection E as <-. eapply Rle_lt_trans; [apply nth_close; exact Ly|exact Hy].
Qed.
Lemma carved_good : good (usable (fun _ => dRAlpha 0)) 2 carved /\ (forall f, In f (user_parts carved) -> user_ok (fun _ => jcoord 0) f).
Proof.
  assert (U : usable (fun _ => dRAlpha 0) s0).
  { split; [apply (RAlpha_smooth 0 s0 s0_r0); lra|]. split; [apply (track_RAlpha 0), s0_r0|apply (finite_RAlpha 0 s0 s0_r0); lra]. }
  split.
  - cbn. refine (conj U (conj (conj U (conj (conj eq_refl (conj eq_refl (conj _ U))) _)) _)); [lia|lra|].
    intros x _. exists (nth 0 x 0). apply coord_cont. reflexivity.
  - cbn. intros f [<-|[]]. split; [intros n; apply tracks_coord|]. intros x _ X _. eexists; reflexivity.
Qed.
Lemma half_smooth x : length x = 2%nat -> smooth_near half x.
Proof.
  intros L. exists 1, (fun _ => [1; 0]). split; [lra|]. intros y Ly _. split.
  - destruct x as [|a [|b [|]]]; try discriminate. destruct y as [|c [|d [|]]]; try discriminate.
    exists c. split; [reflexivity|]. split; [reflexivity|]. intros e He. exists 1. split; [lra|]. intros z Lz _.
    destruct z as [|z0 [|z1 [|]]]; try discriminate. exists z0. split; [reflexivity|]. unfold vsub, dotR. cbn.
    replace (z0 - c - _) with 0 by ring. rewrite Rabs_R0. apply Rmult_le_pos; [lra|apply sqrt_pos].
  - intros i e He. exists 1. split; [lra|]. intros z _ _. rewrite Rminus_eq_0, Rabs_R0. exact He.
Qed.
(** a point on the face of the box *)
Lemma carved_kinks : kink_free carved [2; 0].
Proof.
  assert (N : normR [2; 0] = 2).
  { rewrite normR_sumsq, !sumsq_cons. change (sumsq []) with 0. replace (2 * 2 + (0 * 0 + 0)) with (2 * 2) by ring. apply sqrt_square. lra. }
  unfold carved. cbn [kink_free]. split; [split; [split; [exact I|]|split]|split].
  - unfold kink_free_prim, single_face, lower, upper. cbn. split.
    + intros [|[|i]] Hi; simpl; try lia; lra.
    + intros i j Hij. assert (i = 0%nat /\ j = 1%nat) as (-> & ->) by lia. simpl. lra.
  - cbn. intros H. inversion H. lra.
  - intros (_ & _ & H). apply H. unfold outside, prim_outside. rewrite N. lra.
  - apply half_smooth. reflexivity.
  - intros (_ & H & _). apply H. exists 2. split; [reflexivity|lra].
Qed.
(** directional derivatives of ellipsoids *)
Lemma ellipsoid_jvp a x dx : length x = length a -> length dx = length a -> Forall (fun e => 0 < e) a -> ~ Forall (fun y => y = 0) x ->
  exists p phi, jvp (jellipsoid (A1 a)) x dx = Ok p /\ phi 0 = fst p /\ is_derive phi 0 (snd p) /\
  locally 0 (fun s => ellipsoid (A1 a) (A1 (vadd x (vscal s dx))) = Ok (phi s)).
Proof.
  intros Lx Ld Ha NZ. destruct (fin_ellipsoid a x Lx Ha NZ (combine x dx)) as (p & Ep); [apply combine_fst; congruence|].
  destruct (tracks_ellipsoid (length a) a eq_refl Ha (line (combine x dx)) (combine x dx) p) as (phi & (H0 & H1) & H2); auto.
  - transitivity (length (combine x dx)); [reflexivity|]. rewrite combine_length. lia.
  - apply line_dual.
  - exists p, phi. split; [exact Ep|]. split; [exact H0|]. split; [exact H1|]. revert H2. apply filter_imp. intros s Hs.
    rewrite <- line_at by congruence. exact Hs.
Qed.
