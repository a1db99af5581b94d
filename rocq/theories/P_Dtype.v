(** Proofs for integer arguments. *)
From Coquelicot Require Import Coquelicot.
From Verif Require Import Base BaseFacts S_RFun M_RFun M_Quat M_Integrate S_Integrate P_Integrate1 M_Spline S_Spline P_Spline3 M_Tree M_Ode P_Pi M_Dtype S_Dtype.

Lemma init_dtypes da a dq q : 
  (da = dq -> exists r, t_init da a dq q = Ok r /\ qval r = mkQ a q /\ qtype r = da) /\
  (da <> dq -> t_init da a dq q = Err AssertionError).
Proof.
  split.
  - intros <-. exists (mkTQ da (mkQ a q)). destruct da; auto.
  - intros H. destruct da, dq; auto; congruence.
Qed.
Lemma quat_eta r : mkQ (real r) (imag r) = r. Proof. destruct r; reflexivity. Qed.

Lemma t_mul_ok p o : exists r, t_mul p o = Ok r /\ qval r = q_mul (qval p) (untype o) /\ qtype r = promote (qtype p) (toperand_type o).
Proof.
  destruct p as [[] p]; destruct o as [[[] q]|[] s]; cbn; eexists; (split; [reflexivity|]); cbn; auto.
Qed.
Lemma t_reciprocal_ok p : same_value (t_reciprocal p) (q_reciprocal (qval p)).
Proof.
  unfold t_reciprocal, q_reciprocal. destruct (fdiv 1 (q_abs (qval p) ^ 2)); [|reflexivity]. cbn [bind].
  destruct p as [[] p]; reflexivity.
Qed.
Lemma same_bind (a : res tquat) (b : res quat) (f : tquat -> res tquat) (g : quat -> res quat) :
  same_value a b -> (forall x, same_value (f x) (g (qval x))) -> same_value (x <- a ;; f x) (y <- b ;; g y).
Proof. intros H G. destruct a, b; cbn in *; try tauto. subst. apply G. Qed.
Lemma t_mul_same p o : same_value (t_mul p o) (Ok (q_mul (qval p) (untype o))).
Proof. destruct (t_mul_ok p o) as (r & -> & E & _). exact E. Qed.
Lemma t_right_div_ok p q : same_value (t_right_div p q) (quaternion_right_div (qval p) (qval q)).
Proof. apply same_bind; [apply t_reciprocal_ok|]. intros x. apply (t_mul_same p (TQ x)). Qed.
Lemma t_left_div_ok p q : same_value (t_left_div p q) (quaternion_left_div (qval p) (qval q)).
Proof. apply same_bind; [apply t_reciprocal_ok|]. intros x. apply (t_mul_same x (TQ p)) || apply (t_mul_same x (TQ q)). Qed.
Lemma t_truediv_ok p o : same_value (t_truediv p o) (q_truediv (qval p) (untype o)).
Proof.
  destruct o as [q|d s]; [apply t_right_div_ok|]. cbn [t_truediv q_truediv untype].
  destruct (fdiv 1 s) as [c|e]; [|reflexivity]. cbn [bind]. apply (t_mul_same p (TS Float c)).
Qed.
Lemma t_rotation_ok dx x q : t_rotation dx x q = quaternion_rotation x (qval q).
Proof.
  unfold t_rotation, quaternion_rotation. pose proof (t_reciprocal_ok q) as H.
  destruct (t_reciprocal q) as [i|e], (q_reciprocal (qval q)) as [j|e']; cbn in H; try tauto; subst; [|reflexivity]. cbn [bind].
  destruct (init_dtypes dx 0 dx x) as [I _]. destruct (I eq_refl) as (p & -> & Vp & _). cbn [bind].
  destruct (t_mul_ok i (TQ p)) as (u & -> & Vu & _). cbn [bind].
  destruct (t_mul_ok u (TQ q)) as (w & -> & Vw & _). cbn [bind]. rewrite Vw, Vu. cbn [untype]. rewrite Vp. reflexivity.
Qed.

Lemma integer_values p q o x dx t d ax :
  (exists r, t_add p o = Ok r /\ qval r = q_add (qval p) (untype o)) /\
  (exists r, t_sub p o = Ok r /\ qval r = q_sub (qval p) (untype o)) /\
  (exists r, t_mul p o = Ok r /\ qval r = q_mul (qval p) (untype o)) /\
  (exists r, t_neg p = Ok r /\ qval r = q_neg (qval p)) /\
  (exists r, t_conj p = Ok r /\ qval r = q_conj (qval p)) /\
  same_value (t_reciprocal p) (q_reciprocal (qval p)) /\
  same_value (t_truediv p o) (q_truediv (qval p) (untype o)) /\
  same_value (t_left_div p q) (quaternion_left_div (qval p) (qval q)) /\
  t_rotation dx x q = quaternion_rotation x (qval q) /\
  (exists r, t_from_euler_angles x = Ok r /\ qval r = from_euler_angles x) /\
  (exists r, t_from_axis_angle t d ax = Ok r /\ qval r = from_axis_angle t ax).
Proof.
  split; [|split; [|split; [|split; [|split; [|split; [|split; [|split; [|split; [|split]]]]]]]]].
  - destruct p as [[] p], o as [[[] r]|[] s]; cbn; eexists; (split; [reflexivity|]); reflexivity.
  - destruct p as [[] p], o as [[[] r]|[] s]; cbn; eexists; (split; [reflexivity|]); reflexivity.
  - destruct (t_mul_ok p o) as (r & E & V & _). eauto.
  - destruct p as [[] p]; cbn; eexists; (split; [reflexivity|]); reflexivity.
  - destruct p as [[] p]; cbn; eexists; (split; [reflexivity|]); reflexivity.
  - apply t_reciprocal_ok.
  - apply t_truediv_ok.
  - apply t_left_div_ok.
  - apply t_rotation_ok.
  - eexists. split; reflexivity.
  - destruct d; eexists; (split; [reflexivity|]); reflexivity.
Qed.
Lemma integer_errors eps q x n d t :
  t_exp eps (mkTQ Int q) = Err ValueError /\ t_log eps (mkTQ Int q) = Err ValueError /\
  t_pow eps (mkTQ Int q) d t = Err ValueError /\ t_reflection Int x n = Err AssertionError.
Proof. repeat split. Qed.

Lemma t_exp_ok eps p : qtype p = Float -> same_value (t_exp eps p) (Ok (quat_exp eps (qval p))).
Proof. destruct p as [d p]. cbn. intros ->. reflexivity. Qed.
Lemma t_log_ok eps q : same_value (t_log eps (mkTQ Float q)) (quat_log eps q).
Proof. unfold t_log. cbn. destruct (quat_log eps q); cbn; auto. apply quat_eta. Qed.
Lemma float_values eps q x n d t b :
  (exists r, t_exp eps (mkTQ Float q) = Ok r /\ qval r = quat_exp eps q) /\
  same_value (t_log eps (mkTQ Float q)) (quat_log eps q) /\
  same_value (t_pow eps (mkTQ Float q) d t) (q_pow eps q t) /\
  (forall s, same_value (t_rpow eps (mkTQ s q) b) (q_rpow eps q b)) /\
  t_reflection Float x n = quaternion_reflection x n.
Proof.
  split; [|split; [|split; [|split]]].
  - eexists. split; [reflexivity|]. apply quat_eta.
  - apply t_log_ok.
  - unfold t_pow, q_pow, t_log. cbn [t_sgn qtype bind qval]. destruct (quat_log eps q) as [l|e]; [|reflexivity]. cbn [bind].
    destruct (t_mul_ok (mkTQ Float l) (TS d t)) as (r & E & V & Ty). cbn [t_init dtype_eqb bind]. rewrite quat_eta, E. cbn [bind].
    cbn [qval untype] in V. rewrite <- V. apply t_exp_ok. rewrite Ty. reflexivity.
  - intros s. unfold t_rpow, q_rpow. destruct (flog b) as [l|e]; [|reflexivity]. cbn [bind].
    destruct (t_mul_ok (mkTQ s q) (TS Float l)) as (r & E & V & Ty). rewrite E. cbn [bind]. cbn [qval untype] in V. rewrite <- V.
    apply t_exp_ok. rewrite Ty. destruct s; reflexivity.
  - reflexivity.
Qed.

(** *** truncation *)
Lemma Int_part_spec r z : r - 1 < IZR z <= r -> z = Int_part r.
Proof.
  intros H. unfold Int_part. rewrite <- (up_tech r z); [lia|lra|]. rewrite plus_IZR. simpl. lra.
Qed.
Lemma truncate_small x : Rabs x < 1 -> truncate x = 0.
Proof.
  intros H. assert (Hx : -1 < x < 1) by (apply Rabs_def2 in H; lra). unfold truncate. destruct (Rle_dec 0 x) as [P|P].
  - replace (Int_part x) with 0%Z; [reflexivity|]. apply Int_part_spec. simpl. lra.
  - replace (Int_part (- x)) with 0%Z; [simpl; lra|]. apply Int_part_spec. simpl. lra.
Qed.
Lemma truncate_int n : truncate (IZR n) = IZR n.
Proof.
  unfold truncate. destruct (Rle_dec 0 (IZR n)).
  - f_equal. symmetry. apply Int_part_spec. lra.
  - replace (Int_part (- IZR n)) with (- n)%Z; [rewrite opp_IZR; ring|]. apply Int_part_spec. rewrite opp_IZR. lra.
Qed.
Lemma rotate2d_collapses f n o1 o2 x1 x2 : Rabs (cos (IZR n)) < 1 -> Rabs (sin (IZR n)) < 1 ->
  rotate2d_typed f Int (IZR n) (A1 [o1; o2]) (A1 [x1; x2]) = f (A1 [o1; o2]).
Proof.
  intros Hc Hs. unfold rotate2d_typed, translate. cbn. rewrite !truncate_small by (rewrite ?Rabs_Ropp; auto).
  replace (0 * (x1 - o1) + 0 * (x2 - o2) - - o1) with o1 by ring.
  replace (0 * (x1 - o1) + 0 * (x2 - o2) - - o2) with o2 by ring. reflexivity.
Qed.
Lemma unit_circle_bound a b : a ^ 2 + b ^ 2 = 1 -> a <> 0 -> Rabs b < 1.
Proof. intros H Ha. apply Rabs_def1; assert (0 < a ^ 2) by (replace (a ^ 2) with (Rsqr a) by (unfold Rsqr; ring); apply Rsqr_pos_lt; auto); nra. Qed.
Lemma rotate2d_collapses_all f n o1 o2 x1 x2 : n <> 0%Z ->
  rotate2d_typed f Int (IZR n) (A1 [o1; o2]) (A1 [x1; x2]) = f (A1 [o1; o2]).
Proof.
  intros Hn. pose proof (sin2_cos2 (IZR n)) as E. unfold Rsqr in E. apply rotate2d_collapses.
  - apply (unit_circle_bound (sin (IZR n))); [lra|apply integer_sine; auto].
  - apply (unit_circle_bound (cos (IZR n))); [lra|apply integer_cosine].
Qed.
Lemma rotate2d_float f t o x :
  rotate2d_typed f Float t o x = rotate2d f t o x /\ rotate2d_typed f Int 0 o x = rotate2d f 0 o x.
Proof.
  split; [reflexivity|]. unfold rotate2d_typed, rotate2d, translate. cbn. rewrite sin_0, cos_0.
  rewrite (truncate_int 1). replace (truncate 0) with 0 by (symmetry; apply (truncate_int 0)).
  replace (truncate (- 0)) with (- 0) by (rewrite Ropp_0; symmetry; apply (truncate_int 0)). reflexivity.
Qed.

(** *** grids of spline activations *)
Lemma map_repeat {A B} (f : A -> B) x n : map f (repeat x n) = repeat (f x) n.
Proof. induction n; simpl; congruence. Qed.
Lemma grid_collapses c channels : -1 < node_min c -> node_min c <= node_max c -> node_max c < 1 -> 0 < grid_power c -> (2 <= nodes c)%nat ->
  grid_init_typed Int c channels = Ok (repeat (repeat 0 (nodes c)) channels).
Proof.
  intros H1 H2 H3 Hp Hn. unfold grid_init_typed, grid_init.
  destruct (grid_spec (node_min c) (node_max c) (grid_power c) (nodes c)) as (t & E & L & T0 & T1 & St & _); auto.
  rewrite E. cbn [bind]. f_equal. rewrite map_repeat. f_equal.
  assert (B : forall i, (i < length t)%nat -> Rabs (nth i t 0) < 1).
  { intros i Hi. assert (node_min c <= nth i t 0 <= node_max c); [|apply Rabs_def1; lra].
    rewrite <- T0, <- T1. split; apply St; lia. }
  rewrite <- L. clear - B. induction t as [|a t IH]; [reflexivity|]. cbn [map length repeat]. f_equal.
  - apply truncate_small. apply (B 0%nat). simpl. lia.
  - apply IH. intros i Hi. apply (B (S i)). simpl. lia.
Qed.
Lemma grid_float c channels : grid_init_typed Float c channels = grid_init c channels.
Proof.
  unfold grid_init_typed. destruct (grid_init c channels) as [g|e]; [|reflexivity]. cbn [bind]. f_equal.
  cbn [cast]. rewrite (map_ext (map (fun x : R => x)) (fun l => l)); [apply map_id|]. intros l. apply map_id.
Qed.

(** *** simpson on integer grids *)
Fixpoint simp_xg (g : R -> R) (a : R) (t : list R) : list R :=
  match t with [] => [a] | b :: t' => a :: g ((a + b) / 2) :: simp_xg g b t' end.
Lemma simp_xg_length g a t : length (simp_xg g a t) = (2 * length t + 1)%nat.
Proof. revert a; induction t as [|b t IH]; intros a; simpl; [auto|]. rewrite IH. lia. Qed.
Lemma nodes_g_gen g : forall t a pre,
  let d := pre ++ a :: t in
  np_insert (S (length pre)) t (combine (seq 1 (length d - 1)) (map g (adjacent (fun a b => (a + b) / 2) d))) = tl (simp_xg g a t).
Proof.
  induction t as [|b t IH]; intros a pre d.
  - cbn [np_insert]. rewrite filter_combine_seq by (rewrite map_length, adjacent_length; auto).
    replace (Nat.ltb (S (length pre)) (1 + (length d - 1))) with false; [rewrite Bool.andb_false_r; reflexivity|].
    symmetry; apply Nat.ltb_ge. unfold d. rewrite app_length. simpl. lia.
  - cbn [np_insert]. rewrite filter_combine_seq by (rewrite map_length, adjacent_length; auto).
    assert (Ld : length d = (length pre + S (S (length t)))%nat) by (unfold d; rewrite app_length; reflexivity).
    replace (Nat.leb 1 (S (length pre))) with true by reflexivity.
    replace (Nat.ltb (S (length pre)) (1 + (length d - 1))) with true by (symmetry; apply Nat.ltb_lt; lia).
    cbn [andb app]. replace (S (length pre) - 1)%nat with (length pre) by lia.
    rewrite adjacent_map at 1. rewrite adjacent_nth by lia. unfold d at 1 2. rewrite !app_nth2 by lia.
    rewrite Nat.sub_diag. replace (S (length pre) - length pre)%nat with 1%nat by lia. cbn [nth simp_xg tl].
    f_equal. specialize (IH b (pre ++ [a])). cbv zeta in IH. rewrite <- app_assoc in IH. cbn [app] in IH.
    rewrite app_length in IH. cbn [length] in IH. replace (length pre + 1)%nat with (S (length pre)) in IH by lia.
    fold d in IH. rewrite IH. destruct t; reflexivity.
Qed.
Lemma nodes_g g a t :
  np_insert 0 (a :: t) (combine (seq 1 (length (a :: t) - 1)) (map g (adjacent (fun a b => (a + b) / 2) (a :: t)))) = simp_xg g a t.
Proof.
  cbn [np_insert]. rewrite filter_combine_seq by (rewrite map_length, adjacent_length; auto). cbn [Nat.leb andb app].
  pose proof (nodes_g_gen g t a []) as H. cbv zeta in H. cbn [app length] in H. cbn [length]. rewrite H.
  destruct t; reflexivity.
Qed.
Definition ps_simp_g (g : R -> R) (f : R -> R) a b := (b - a) / 6 * (f a + 4 * f (g ((a + b) / 2)) + f b).
Lemma simp_sum_g g f : forall t a c, dotR (simp_w c a t) (map f (simp_xg g a t)) = c * f a + over_panels (ps_simp_g g f) (a :: t).
Proof.
  induction t as [|b t IH]; intros a c.
  - unfold dotR, sumR. simpl. ring.
  - cbn [simp_w simp_xg map]. rewrite !dotR_cons, IH.
    change (over_panels (ps_simp_g g f) (a :: b :: t)) with (ps_simp_g g f a b + over_panels (ps_simp_g g f) (b :: t)).
    unfold ps_simp_g at 2. field.
Qed.
Lemma simpson_typed_integrate dt f d : (2 <= length d)%nat ->
  integrate (pointwise f) [d] (simpson_typed dt) = Ok (A0 (over_panels (ps_simp_g (cast dt) f) d)).
Proof.
  intros L. destruct d as [|a [|b t]]; simpl in L; try lia.
  unfold integrate. cbn [map sequence bind]. unfold simpson_typed. rewrite simpson_eq. cbn [bind fst].
  rewrite nodes_g. cbn [pointwise bind]. unfold pointwise. cbn [bind].
  rewrite simp_w_length, map_length, simp_xg_length, Nat.eqb_refl. do 2 f_equal. rewrite simp_sum_g. ring.
Qed.

Lemma truncate_half a : truncate ((INR a + INR (S a)) / 2) = INR a.
Proof.
  rewrite S_INR. unfold truncate. pose proof (pos_INR a). destruct (Rle_dec 0 ((INR a + (INR a + 1)) / 2)); [|lra].
  rewrite (INR_IZR_INZ a). f_equal. symmetry. apply Int_part_spec. rewrite <- INR_IZR_INZ. lra.
Qed.
Lemma unit_grid_panels : forall n a, over_panels (ps_simp_g truncate (fun x => x)) (map INR (seq a (S n))) =
  (INR (a + n) ^ 2 - INR a ^ 2) / 2 - INR n / 3.
Proof.
  induction n as [|n IH]; intros a.
  - cbn [seq map over_panels]. rewrite Nat.add_0_r. change (INR 0) with 0. field.
  - change (seq a (S (S n))) with (a :: seq (S a) (S n)).
    change (map INR (a :: seq (S a) (S n))) with (INR a :: map INR (seq (S a) (S n))).
    specialize (IH (S a)). destruct (map INR (seq (S a) (S n))) as [|b t] eqn:E; [discriminate|].
    assert (B : b = INR (S a)) by (cbn [seq map] in E; congruence).
    change (over_panels (ps_simp_g truncate (fun x => x)) (INR a :: b :: t)) with
      (ps_simp_g truncate (fun x => x) (INR a) b + over_panels (ps_simp_g truncate (fun x => x)) (b :: t)).
    rewrite IH. rewrite B. unfold ps_simp_g. rewrite truncate_half.
    replace (S a + n)%nat with (a + S n)%nat by lia. rewrite plus_INR, !S_INR. field.
Qed.
Lemma simpson_unit_grid a n : (1 <= n)%nat ->
  integrate (pointwise (fun x => x)) [map INR (seq a (S n))] (simpson_typed Int) =
  Ok (A0 (RInt (V := R_CompleteNormedModule) (fun x => x) (INR a) (INR (a + n)) - INR n / 3)).
Proof.
  intros H. rewrite simpson_typed_integrate by (rewrite map_length, seq_length; lia). do 2 f_equal.
  change (cast Int) with truncate. rewrite unit_grid_panels. f_equal.
  symmetry. apply is_RInt_unique.
  replace ((INR (a + n) ^ 2 - INR a ^ 2) / 2) with (minus (INR (a + n) ^ 2 / 2) (INR a ^ 2 / 2)).
  - apply (is_RInt_derive (fun x => x ^ 2 / 2) (fun x => x)).
    + intros x _. auto_derive; [auto|field].
    + intros x _. apply continuous_id.
  - unfold minus, plus, opp. simpl. field.
Qed.
Lemma simpson_float d : simpson_typed Float d = simpson d.
Proof.
  unfold simpson_typed. destruct d as [|a [|b t]]; [reflexivity|reflexivity|].
  rewrite simpson_eq. cbn [bind fst]. change (cast Float) with (fun x : R => x). rewrite map_id, simpson_nodes. reflexivity.
Qed.
Lemma simpson_even zs : (forall i, (S i < length zs)%nat -> Z.even (nth i zs 0 + nth (S i) zs 0)%Z = true) ->
  simpson_typed Int (map IZR zs) = simpson (map IZR zs).
Proof.
  intros H. rewrite <- simpson_float. unfold simpson_typed. destruct (simpson (map IZR zs)) as [wn|e]; [|reflexivity]. cbn [bind].
  do 4 f_equal. change (cast Float) with (fun x : R => x). rewrite map_id. change (cast Int) with truncate.
  rewrite adjacent_map. unfold adjacent.
  revert H. induction zs as [|a [|b t] IH]; intros H; [reflexivity|reflexivity|].
  cbn [map tl] in *. cbn [map2]. f_equal.
  - pose proof (H 0%nat ltac:(simpl; lia)) as E. cbn [nth] in E. apply Z.even_spec in E. destruct E as [k E].
    replace ((IZR a + IZR b) / 2) with (IZR k); [apply truncate_int|]. rewrite <- plus_IZR, E, mult_IZR. field.
  - apply IH. intros i Hi. apply (H (S i)). simpl in *; lia.
Qed.

(** *** odeint *)
Lemma odeint_integer_state dft tt df y t ts : odeint_typed rk4_type dft Int tt df y (t :: ts) rk4 = Err TypeError.
Proof. unfold odeint_typed, rk4_type. destruct tt; [destruct (dft Int Int)|destruct (dft Int Float)]; reflexivity. Qed.
Lemma odeint_float_state dft tt df y ts :
  odeint_typed rk4_type dft Float tt df y ts rk4 = odeint df y ts rk4 /\
  odeint_typed euler_type dft Float tt df y ts explicit_euler = odeint df y ts explicit_euler.
Proof. destruct ts; split; reflexivity. Qed.
Lemma odeint_euler_state dft tt df y t ts :
  odeint_typed euler_type dft Int tt df y (t :: ts) explicit_euler =
  if (dtype_eqb tt Int && dtype_eqb (dft Int tt) Int)%bool then odeint df y (t :: ts) explicit_euler else Err TypeError.
Proof. unfold odeint_typed, euler_type. destruct tt; [destruct (dft Int Int)|destruct (dft Int Float)]; reflexivity. Qed.

(** *** dtypes of results *)
Lemma t_init_type da a dq q r : t_init da a dq q = Ok r -> qtype r = da.
Proof. unfold t_init. destruct (dtype_eqb da dq); [|discriminate]. intros H. injection H as <-. reflexivity. Qed.
Lemma promote_float d : promote d Float = Float. Proof. destruct d; reflexivity. Qed.
Lemma result_dtypes : forall eps p q o r d t b x ax,
  (t_add p o = Ok r -> qtype r = promote (qtype p) (toperand_type o)) /\
  (t_sub p o = Ok r -> qtype r = promote (qtype p) (toperand_type o)) /\
  (t_mul p o = Ok r -> qtype r = promote (qtype p) (toperand_type o)) /\
  (t_neg p = Ok r -> qtype r = qtype p) /\ (t_conj p = Ok r -> qtype r = qtype p) /\
  (t_reciprocal p = Ok r -> qtype r = Float) /\ (t_truediv p o = Ok r -> qtype r = Float) /\ (t_left_div p q = Ok r -> qtype r = Float) /\
  (t_exp eps p = Ok r -> qtype r = Float) /\ (t_log eps p = Ok r -> qtype r = Float) /\
  (t_pow eps p d t = Ok r -> qtype r = Float) /\ (t_rpow eps p b = Ok r -> qtype r = Float) /\
  (t_from_euler_angles x = Ok r -> qtype r = Float) /\ (t_from_axis_angle t d ax = Ok r -> qtype r = Float).
Proof.
  assert (M : forall p o r, t_mul p o = Ok r -> qtype r = promote (qtype p) (toperand_type o)).
  { intros p [q|d s] r H; unfold t_mul in H; apply t_init_type in H; rewrite H; cbn; auto.
    destruct (promote (qtype p) (qtype q)); reflexivity. }
  assert (RC : forall p r, t_reciprocal p = Ok r -> qtype r = Float).
  { intros p r H. unfold t_reciprocal in H. destruct (fdiv 1 (q_abs (qval p) ^ 2)); [|discriminate]. cbn [bind] in H.
    destruct (t_conj p); [|discriminate]. cbn [bind] in H. apply M in H. rewrite H. apply promote_float. }
  assert (EX : forall eps p r, t_exp eps p = Ok r -> qtype r = Float).
  { intros eps p r H. unfold t_exp in H. destruct (t_sgn _ _ _); [|discriminate]. cbn [bind] in H. eapply t_init_type; eauto. }
  intros eps p q o r d t b x ax. split; [|split; [|split; [|split; [|split; [|split; [|split; [|split; [|split; [|split; [|split; [|split; [|split]]]]]]]]]]]].
  - intros H. unfold t_add in H. eapply t_init_type; eauto.
  - intros H. unfold t_sub in H. eapply t_init_type; eauto.
  - apply M.
  - intros H. unfold t_neg in H. eapply t_init_type; eauto.
  - intros H. unfold t_conj in H. eapply t_init_type; eauto.
  - apply RC.
  - intros H. destruct o as [o|d' s]; cbn [t_truediv] in H.
    + unfold t_right_div in H. destruct (t_reciprocal o) as [i|] eqn:E; [|discriminate]. cbn [bind] in H. apply M in H. apply RC in E. rewrite H. cbn [toperand_type]. rewrite E. apply promote_float.
    + destruct (fdiv 1 s); [|discriminate]. cbn [bind] in H. apply M in H. rewrite H. apply promote_float.
  - intros H. unfold t_left_div in H. destruct (t_reciprocal q) as [i|] eqn:E; [|discriminate]. cbn [bind] in H. apply M in H. apply RC in E. rewrite H, E. reflexivity.
  - apply EX.
  - intros H. unfold t_log in H. destruct (t_sgn _ _ _); [|discriminate]. cbn [bind] in H. destruct (quat_log _ _); [|discriminate]. cbn [bind] in H. eapply t_init_type; eauto.
  - intros H. unfold t_pow in H. destruct (t_log _ _); [|discriminate]. cbn [bind] in H. destruct (t_mul _ _); [|discriminate]. cbn [bind] in H. eapply EX; eauto.
  - intros H. unfold t_rpow in H. destruct (flog b); [|discriminate]. cbn [bind] in H. destruct (t_mul _ _); [|discriminate]. cbn [bind] in H. eapply EX; eauto.
  - intros H. unfold t_from_euler_angles in H. eapply t_init_type; eauto.
  - intros H. unfold t_from_axis_angle in H. eapply t_init_type; eauto.
Qed.
