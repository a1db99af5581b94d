(** Property theorems about examples/mumag3.py (C84-C91). *)
From Coquelicot Require Import Coquelicot.
From Verif Require Import Base BaseFacts P_Vec S_RFun M_Quat M_RFun M_Domain M_Tensor M_Calc M_Integrate M_Surface M_Mumag.
From Verif Require Import S_Calc P_AD P_Calc S_Integrate P_Integrate3 T_Integrate S_Model P_Model S_Surface S_Mumag.
From Verif Require Import P_Surface1 P_Surface4 P_Mumag1 P_Mumag2 P_Mumag3 P_Mumag4 P_Mumag5 P_Mumag6.

(** ** C84 *)
(** [y - p x y = x + p x x] has exactly one solution and the function returns it *)
Theorem cayley_defined : forall p x, length p = 3%nat -> length x = 3%nat ->
  exists y, cayley_rotation p x = Ok y /\ length y = 3%nat /\
    plus y (times (-1) (vec_prod p y)) = plus x (vec_prod p x) /\
    forall z, length z = 3%nat -> plus z (times (-1) (vec_prod p z)) = plus x (vec_prod p x) -> z = y.
Proof.
  intros p x Hp Hx. exists (cayley_value p x). split; [apply cayley_ok; auto|]. split; [apply cayley_length; auto|].
  split; [apply cayley_eqn; auto|]. intros z Hz E. apply cayley_unique; auto.
Qed.
Print Assumptions cayley_defined.
(** lengths, angles and orientation are kept *)
Theorem cayley_isometry : forall p x y a b, length p = 3%nat -> length x = 3%nat -> length y = 3%nat ->
  exists u v, cayley_rotation p x = Ok u /\ cayley_rotation p y = Ok v /\
    dotR u v = dotR x y /\
    cayley_rotation p (vec_prod x y) = Ok (vec_prod u v) /\
    cayley_rotation p (plus (times a x) (times b y)) = Ok (plus (times a u) (times b v)).
Proof.
  intros p x y a b Hp Hx Hy. exists (cayley_value p x), (cayley_value p y).
  split; [apply cayley_ok; auto|]. split; [apply cayley_ok; auto|]. split; [apply cayley_dot; auto|].
  rewrite <- cayley_vec_prod, <- cayley_linear by auto. split; apply cayley_ok; auto.
  unfold plus, times. rewrite map2_length, !map_length, Hx, Hy. reflexivity.
Qed.
Print Assumptions cayley_isometry.
(** [p] is the axis and [-p] undoes the rotation; with a unit axis [n] and [p = tan(t/2) n]
    the angle is [t] *)
Theorem cayley_axis_angle : forall p x n t, length p = 3%nat -> length x = 3%nat -> length n = 3%nat ->
  cayley_rotation p p = Ok p /\
  (forall y, cayley_rotation p x = Ok y -> cayley_rotation (times (-1) p) y = Ok x) /\
  (dotR n n = 1 -> cos (t / 2) <> 0 ->
     cayley_rotation (times (tan (t / 2)) n) x =
     Ok (plus (plus (times (cos t) x) (times (sin t) (vec_prod n x))) (times ((1 - cos t) * dotR n x) n))).
Proof.
  intros p x n t Hp Hx Hn. split; [rewrite cayley_ok, cayley_axis by auto; auto|]. split.
  - intros y E. rewrite cayley_ok in E by auto. injection E as <-.
    rewrite cayley_ok by (try apply cayley_length; auto; unfold times; rewrite map_length; auto).
    rewrite cayley_inverse by auto. reflexivity.
  - intros H1 Hc. rewrite cayley_ok by (auto; unfold times; rewrite map_length; auto). rewrite cayley_angle by auto. reflexivity.
Qed.
Print Assumptions cayley_axis_angle.
Theorem cayley_wrong_length : forall p x, length p <> 3%nat -> cayley_rotation p x = Err AssertionError.
Proof.
  intros p x H. unfold cayley_rotation. apply Nat.eqb_neq in H. rewrite H. reflexivity.
Qed.
Print Assumptions cayley_wrong_length.
Example cayley_quarter_turn : cayley_rotation [0; 0; 1] [1; 0; 0] = Ok [0; 1; 0].
Proof.
  rewrite cayley_ok by reflexivity. unfold cayley_value. lists3. f_equal. repeat (f_equal; try field).
Qed.
Example cayley_angle_hypotheses : length [0; 0; 1] = 3%nat /\ dotR [0; 0; 1] [0; 0; 1] = 1 /\ cos (PI / 2 / 2) <> 0.
Proof.
  split; [reflexivity|]. split; [unfold dotR, sumR; cbn; ring|].
  replace (PI / 2 / 2) with (PI / 4) by field. rewrite cos_PI4. apply Rgt_not_eq. apply Rdiv_lt_0_compat; [lra|].
  apply sqrt_lt_R0. lra.
Qed.

(** ** C85 *)
Theorem cuboid_constructor : forall xs ys zs,
  (good_grid xs /\ good_grid ys /\ good_grid zs ->
     exists c, Cuboid xs ys zs = Ok c /\ gx c = xs /\ gy c = ys /\ gz c = zs) /\
  (~ (good_grid xs /\ good_grid ys /\ good_grid zs) -> Cuboid xs ys zs = Err AssertionError).
Proof.
  intros xs ys zs. split.
  - intros (Hx & Hy & Hz). rewrite Cuboid_ok by auto. eexists. split; [reflexivity|]. auto.
  - apply Cuboid_err.
Qed.
Print Assumptions cuboid_constructor.
(** the box is mapped linearly to [-1, 1]^3 *)
Theorem cuboid_normalize : forall xs ys zs c x, Cuboid xs ys zs = Ok c -> length x = 3%nat ->
  (first xs < final xs -> first ys < final ys -> first zs < final zs ->
     exists y, cub_normalize c (A1 x) = Ok (A1 y) /\ length y = 3%nat /\
       forall k, (k < 3)%nat ->
         nth k x 0 = first (axis_grid xs ys zs k)
                     + (nth k y 0 + 1) / 2 * (final (axis_grid xs ys zs k) - first (axis_grid xs ys zs k)) /\
         (-1 <= nth k y 0 <= 1 <-> first (axis_grid xs ys zs k) <= nth k x 0 <= final (axis_grid xs ys zs k))) /\
  (first xs = final xs \/ first ys = final ys \/ first zs = final zs -> cub_normalize c (A1 x) = Err NonFinite).
Proof.
  intros xs ys zs c x HC Hx. split; [|apply (normalize_err xs ys zs); auto].
  intros T1 T2 T3. destruct (normalize_ok xs ys zs c x HC Hx T1 T2 T3) as (y & E & Ly & V). exists y. split; auto. split; auto.
  intros k Hk. rewrite V by auto.
  assert (L : first (axis_grid xs ys zs k) < final (axis_grid xs ys zs k)) by (destruct k as [|[|k]]; auto).
  set (a := first (axis_grid xs ys zs k)) in *. set (d := final (axis_grid xs ys zs k)) in *. set (t := nth k x 0).
  assert (E2 : 2 * (t - a) / (d - a) * (d - a) = 2 * (t - a)) by (field; lra).
  split; [field; lra|]. split; intros (A & B).
  - split; nra.
  - assert (P : 0 <= 2 * (t - a) / (d - a)) by (apply Rmult_le_pos; [lra|apply Rlt_le; apply Rinv_0_lt_compat; lra]). split; [lra|].
    assert (Q : 0 <= 2 * (d - t) / (d - a)) by (apply Rmult_le_pos; [lra|apply Rlt_le; apply Rinv_0_lt_compat; lra]).
    replace (2 * (t - a) / (d - a) - 1) with (1 - 2 * (d - t) / (d - a)) by (field; lra). lra.
Qed.
Print Assumptions cuboid_normalize.
Theorem cuboid_adf_membership : forall xs ys zs c x, Cuboid xs ys zs = Ok c -> length x = 3%nat ->
  membership (cub_adf c (A1 x)) [first xs; first ys; first zs] [final xs; final ys; final zs] x.
Proof. exact adf_membership. Qed.
Print Assumptions cuboid_adf_membership.
Lemma unit_grid : good_grid [0; 1].
Proof. split; [cbn; lia|]. cbn. lra. Qed.
Example cuboid_accepts : exists c, Cuboid [0; 1] [0; 1] [0; 1] = Ok c.
Proof. destruct (cuboid_constructor [0; 1] [0; 1] [0; 1]) as (H & _). destruct H as (c & E & _); eauto using unit_grid. Qed.
Example cuboid_rejects : Cuboid [0; 1] [1; 0] [0; 1] = Err AssertionError.
Proof.
  apply cuboid_constructor. intros (_ & (_ & H) & _). cbn in H. lra.
Qed.

(** ** C86 *)
Theorem cuboid_normal : forall xs ys zs c x k upper, Cuboid xs ys zs = Ok c -> shape x = [3%nat] ->
  side_interior xs ys zs k upper (tlist x) ->
  exists n, cub_normal_vec c x = Ok n /\ shape n = [3%nat] /\ forall i, (i < 3)%nat -> entry n [i] = side_normal k upper i.
Proof.
  intros xs ys zs c x k upper HC Sx HS. unfold cub_normal_vec. rewrite Sx. eapply normal_side; eauto.
Qed.
Print Assumptions cuboid_normal.
Theorem cuboid_normal_batch : forall xs ys zs c x n k upper, Cuboid xs ys zs = Ok c -> shape x = [n; 3%nat] -> (0 < n)%nat ->
  (forall r, (r < n)%nat -> side_interior xs ys zs (k r) (upper r) (tlist (trow x r))) ->
  exists y, cub_normal_vec c x = Ok y /\ shape y = [n; 3%nat] /\
    forall r i, (r < n)%nat -> (i < 3)%nat -> entry y [r; i] = side_normal (k r) (upper r) i.
Proof. intros. eapply normal_batch; eauto. Qed.
Print Assumptions cuboid_normal_batch.
Example normal_example : side_interior [0; 1] [0; 1] [0; 1] 2 true (tlist (tvec [/ 2; / 3; 1])).
Proof.
  split; [reflexivity|]. split; [lia|]. split; [reflexivity|]. split; [cbn; lra|].
  intros [|[|[|i]]] Hi Hk; try lia; cbn; lra.
Qed.

(** ** C87 *)
(** the six faces in order, each with its two axes, its plane and the middles of its cells *)
Theorem cuboid_faces : forall xs ys zs c, Cuboid xs ys zs = Ok c ->
  Forall2 (fun fc s => const_axis fc = fst s /\ axis1 fc = first_axis (fst s) /\ axis2 fc = second_axis (fst s) /\
      axis1_vals fc = axis_grid xs ys zs (first_axis (fst s)) /\ axis2_vals fc = axis_grid xs ys zs (second_axis (fst s)) /\
      const_val fc = side_value xs ys zs (fst s) (snd s) /\
      shape (mids fc) = [length (axis1_vals fc) - 1; length (axis2_vals fc) - 1; 3]%nat /\
      forall i j, (S i < length (axis1_vals fc))%nat -> (S j < length (axis2_vals fc))%nat ->
        tlist (trow (trow (mids fc) i) j) = cell_middle xs ys zs (fst s) (snd s) i j)
    (faces c) [(2, false); (2, true); (1, false); (1, true); (0, false); (0, true)]%nat.
Proof.
  intros xs ys zs c HC. rewrite (faces_sides xs ys zs c HC). change [(2, false); (2, true); (1, false); (1, true); (0, false); (0, true)]%nat with sides.
  assert (G : forall L, incl L sides -> Forall2 (fun fc s => const_axis fc = fst s /\ axis1 fc = first_axis (fst s) /\ axis2 fc = second_axis (fst s) /\
      axis1_vals fc = axis_grid xs ys zs (first_axis (fst s)) /\ axis2_vals fc = axis_grid xs ys zs (second_axis (fst s)) /\
      const_val fc = side_value xs ys zs (fst s) (snd s) /\
      shape (mids fc) = [length (axis1_vals fc) - 1; length (axis2_vals fc) - 1; 3]%nat /\
      forall i j, (S i < length (axis1_vals fc))%nat -> (S j < length (axis2_vals fc))%nat ->
        tlist (trow (trow (mids fc) i) j) = cell_middle xs ys zs (fst s) (snd s) i j)
      (map (fun s => side_face (fst s) (axis_grid xs ys zs (first_axis (fst s))) (axis_grid xs ys zs (second_axis (fst s))) (side_value xs ys zs (fst s) (snd s))) L) L).
  { induction L as [|s L IH]; intros HI; constructor.
    - pose proof (sides_lt s (HI s (or_introl eq_refl))) as Hk. unfold side_face. cbn [const_axis axis1 axis2 axis1_vals axis2_vals const_val mids].
      repeat (split; [reflexivity|]). split; [apply face_midpoints_shape|].
      intros i j Hi Hj. apply face_midpoints_row; auto.
    - apply IH. intros z Hz. apply HI. right. auto. }
  apply G. apply incl_refl.
Qed.
Print Assumptions cuboid_faces.

(** ** C88 *)
(** a charge known near the surface, as the potential functions take it *)
Definition charge_on (xs ys zs : list R) (f : tensor -> res tensor) (g : list R -> R) : Prop :=
  exists D, openset 3 D /\ (forall y, on_boundary xs ys zs y -> D y) /\ repD 3 D [] f (fun _ => g).

Lemma box_rule_integral method K xs ys zs c n g X : library_rule method K -> Cuboid xs ys zs = Ok c -> (1 <= n)%nat ->
  box_rule method n xs ys zs (expanded xs ys zs g) X (box_integral xs ys zs method n g X).
Proof.
  intros HL HC Hn. destruct (library_sound _ _ HL) as (N & W & SR & _).
  exists (fun k b i j => side_quad xs ys zs method n g k b i j X). split.
  - intros k b i j Hk Hi Hj. exact (side_quad_quad2 xs ys zs c HC method N W n SR Hn g k b i j X Hi Hj).
  - exact (box_integral_quad xs ys zs method n Hn g X).
Qed.
Theorem box_surface_integral : forall method K xs ys zs c n f g, library_rule method K -> Cuboid xs ys zs = Ok c ->
  (1 <= n)%nat -> charge_on xs ys zs f g ->
  exists F, surface_integral3 c f (SubInt (Z.of_nat n)) method = Ok F /\
    forall x, shape x = [3%nat] -> ~ on_boundary xs ys zs (tlist x) ->
      exists r, F x = Ok r /\ shape r = [] /\ box_rule method n xs ys zs (expanded xs ys zs g) (tlist x) (entry r []).
Proof.
  intros method K xs ys zs c n f g HL HC Hn (D & HO & HD & Hf). destruct (library_sound _ _ HL) as (N & W & SR & _).
  destruct (integral3_ok xs ys zs c HC method N W n SR Hn f g D HO HD Hf) as (F & EF & HF). exists F. split; auto.
  intros x Sx Nx. destruct (HF x Sx (conj (tlist_len3 x Sx) Nx)) as (r & Er & Sr & Vr). exists r. split; auto. split; auto.
  rewrite Vr by constructor. eapply box_rule_integral; eauto.
Qed.
Print Assumptions box_surface_integral.
Theorem box_single_layer : forall method K xs ys zs c n f g, library_rule method K -> Cuboid xs ys zs = Ok c ->
  (1 <= n)%nat -> charge_on xs ys zs f g ->
  exists F, single_layer_potential3 c f (SubInt (Z.of_nat n)) method = Ok F /\
    forall x, shape x = [3%nat] -> ~ on_boundary xs ys zs (tlist x) ->
      exists r q, F x = Ok r /\ shape r = [] /\ box_rule method n xs ys zs (expanded xs ys zs g) (tlist x) q /\
        entry r [] = q / (4 * PI).
Proof.
  intros method K xs ys zs c n f g HL HC Hn (D & HO & HD & Hf). destruct (library_sound _ _ HL) as (N & W & SR & _).
  destruct (potential3_ok xs ys zs c HC method N W n SR Hn f g D HO HD Hf) as (F & EF & HF). exists F. split; auto.
  intros x Sx Nx. destruct (HF x Sx (conj (tlist_len3 x Sx) Nx)) as (r & Er & Sr & Vr).
  exists r, (box_integral xs ys zs method n g (tlist x)). split; auto. split; auto.
  split; [eapply box_rule_integral; eauto|]. rewrite Vr by constructor. field. pose proof PI_RGT_0. lra.
Qed.
Print Assumptions box_single_layer.
(** the expansion is the full Taylor polynomial of degree two when the mixed derivatives
    agree, and it is exact for quadratic charges *)
Lemma box_rule_ext method n xs ys zs h h' X r : (forall k b i j s, (k < 3)%nat ->
   h k b i j (place k (side_value xs ys zs k b) s) = h' k b i j (place k (side_value xs ys zs k b) s)) ->
  box_rule method n xs ys zs h X r -> box_rule method n xs ys zs h' X r.
Proof.
  intros H (q & Hq & E). exists q. split; auto. intros k b i j Hk Hi Hj.
  destruct (Hq k b i j Hk Hi Hj) as (ru & rv & E1 & E2 & V). exists ru, rv. split; auto. split; auto. rewrite V.
  apply iterated_ext. intros s _. cbn zeta. rewrite H by auto. reflexivity.
Qed.
Theorem box_expansion : forall method n xs ys zs g X r,
  ((forall k b i j, (k < 3)%nat -> let m := cell_middle xs ys zs k b i j in
      pd (first_axis k) (pd (second_axis k) g) m = pd (second_axis k) (pd (first_axis k) g) m) ->
   (box_rule method n xs ys zs (expanded xs ys zs g) X r <->
    box_rule method n xs ys zs (fun k b i j => taylor 2 g (cell_middle xs ys zs k b i j)) X r)) /\
  (poly 2 g ->
   (box_rule method n xs ys zs (expanded xs ys zs g) X r <-> box_rule method n xs ys zs (fun _ _ _ _ => g) X r)).
Proof.
  intros method n xs ys zs g X r. split.
  - intros HS. split; apply box_rule_ext; intros k b i j s Hk; unfold expanded, cell_middle; [|symmetry];
      apply plane_taylor_taylor; auto; apply HS; auto.
  - intros Hg. split; apply box_rule_ext; intros k b i j s Hk; unfold expanded, cell_middle; [|symmetry];
      apply plane_taylor_poly; auto.
Qed.
Print Assumptions box_expansion.
Example charge_example : charge_on [0; 1] [0; 1] [0; 1] (fun _ => Ok (tsc 1)) (fun _ => 1) /\ poly 2 (fun _ => 1).
Proof.
  split; [|constructor]. exists len3. split; [apply len3_open|]. split.
  - intros y (k & b & _ & q & _ & ->). destruct k as [|[|k]]; reflexivity.
  - intros t _ _. exists (tsc 1). auto.
Qed.
Example target_example : ~ on_boundary [0; 1] [0; 1] [0; 1] (tlist (tvec [2; 0; 0])).
Proof.
  intros (k & b & Hk & HS). apply on_side_iff in HS; auto. destruct HS as (E & A & B). unfold side_value in E.
  destruct k as [|[|[|k]]]; try lia; destruct b; cbn in *; lra.
Qed.

(** ** C89 *)
(** the precomputed derivative tensors give the same field as differentiating the potential *)
Theorem stray_field_variants : forall method K xs ys zs c n f g p1 phi D x, library_rule method K ->
  Cuboid xs ys zs = Ok c -> (1 <= n)%nat -> charge_on xs ys zs f g ->
  openset 3 D -> repD 3 D [] p1 (fun _ => phi) -> D (tlist x) -> partials 3 phi (tlist x) ->
  shape x = [3%nat] -> ~ on_boundary xs ys zs (tlist x) ->
  exists psi dt h1 h2,
    (forall X, box_rule method n xs ys zs (expanded xs ys zs g) X (psi X)) /\ partials 3 psi (tlist x) /\
    surface_tensors_grad x c (SubInt (Z.of_nat n)) method = Ok dt /\
    hs_precomputed p1 f c x dt = Ok h1 /\ hs_direct p1 f c (SubInt (Z.of_nat n)) method x = Ok h2 /\
    shape h1 = [3%nat] /\ shape h2 = [3%nat] /\
    forall l, (l < 3)%nat -> entry h1 [l] = - pd l phi (tlist x) - pd l psi (tlist x) / (4 * PI) /\ entry h2 [l] = entry h1 [l].
Proof.
  intros method K xs ys zs c n f g p1 phi D x HL HC Hn (Df & HOf & HDf & Hf) HO Hp Dx Px Sx Nx.
  destruct (library_sound _ _ HL) as (N & W & SR & _).
  destruct (field_ok xs ys zs c HC method N W n SR Hn f g Df HOf HDf Hf p1 phi x D HO Hp Dx Px Sx Nx) as (dt & h1 & h2 & E1 & E2 & E3 & S1 & S2 & V).
  exists (box_integral xs ys zs method n g), dt, h1, h2.
  split; [intros X; eapply box_rule_integral; eauto|].
  split; [apply (B_partials xs ys zs c HC method N W n SR Hn); split; auto; apply tlist_len3; auto|].
  repeat (split; [assumption|]). intros l Hl. destruct (V l Hl) as (A & B). split; auto. rewrite A. field. pose proof PI_RGT_0. lra.
Qed.
Print Assumptions stray_field_variants.

(** ** C90 *)
(** the annotated default [(1, 1, 1)] cannot be used: every evaluation raises *)
Theorem default_subintervals_refuted :
  (forall xs ys zs c f F method, Cuboid xs ys zs = Ok c ->
     surface_integral3 c f default_subintervals method = Ok F \/ single_layer_potential3 c f default_subintervals method = Ok F ->
     forall x, F x = Err TypeError) /\
  ~ (forall xs ys zs c f F method K, library_rule method K -> Cuboid xs ys zs = Ok c -> charge_on xs ys zs f (fun _ => 1) ->
       surface_integral3 c f default_subintervals method = Ok F ->
       forall x, shape x = [3%nat] -> ~ on_boundary xs ys zs (tlist x) -> exists r, F x = Ok r).
Proof.
  assert (A : forall xs ys zs c f F method, Cuboid xs ys zs = Ok c ->
     surface_integral3 c f default_subintervals method = Ok F \/ single_layer_potential3 c f default_subintervals method = Ok F ->
     forall x, F x = Err TypeError).
  { intros xs ys zs c f F method HC [E|E] x; [unfold surface_integral3 in E|unfold single_layer_potential3 in E];
      destruct (charges c f) as [cs|]; try discriminate; cbn [bind] in E; injection E as <-;
      unfold integrate_surface3, default_subintervals; rewrite (tuple_err xs ys zs c x _ method HC); reflexivity. }
  split; [exact A|]. intros H. destruct cuboid_accepts as (c & HC).
  destruct charge_example as (HG & _).
  destruct (box_surface_integral midpoint 1 [0; 1] [0; 1] [0; 1] c 1 _ _ lib_midpoint HC (le_n 1) HG) as (F0 & E0 & _).
  assert (EF : exists F, surface_integral3 c (fun _ => Ok (tsc 1)) default_subintervals midpoint = Ok F).
  { unfold surface_integral3 in *. destruct (charges c (fun _ => Ok (tsc 1))); [|discriminate]. eexists. reflexivity. }
  destruct EF as (F & EF).
  destruct (H _ _ _ c _ F midpoint 1%nat lib_midpoint HC HG EF (tvec [2; 0; 0]) eq_refl target_example) as (r & Er).
  rewrite (A _ _ _ c _ F midpoint HC (or_introl EF)) in Er. discriminate.
Qed.
Print Assumptions default_subintervals_refuted.
(** with a positive int every target point off the surface is accepted *)
Theorem int_subintervals_partial : forall method K xs ys zs c n f g, library_rule method K -> Cuboid xs ys zs = Ok c ->
  (1 <= n)%nat -> charge_on xs ys zs f g ->
  exists F P, surface_integral3 c f (SubInt (Z.of_nat n)) method = Ok F /\
    single_layer_potential3 c f (SubInt (Z.of_nat n)) method = Ok P /\
    forall x, shape x = [3%nat] -> ~ on_boundary xs ys zs (tlist x) -> exists r s, F x = Ok r /\ P x = Ok s.
Proof.
  intros method K xs ys zs c n f g HL HC Hn HG.
  destruct (box_surface_integral method K xs ys zs c n f g HL HC Hn HG) as (F & EF & VF).
  destruct (box_single_layer method K xs ys zs c n f g HL HC Hn HG) as (P & EP & VP).
  exists F, P. split; auto. split; auto. intros x Sx Nx. destruct (VF x Sx Nx) as (r & Er & _). destruct (VP x Sx Nx) as (s & q & Es & _). eauto.
Qed.
Print Assumptions int_subintervals_partial.

(** ** C91 *)
(** the first potential is the adf times the network and vanishes on the surface *)
Theorem first_potential : forall xs ys zs c W b p h x, Cuboid xs ys zs = Ok c ->
  first xs < final xs -> first ys < final ys -> first zs < final zs ->
  shape W = [h; 3%nat] -> shape b = [h] -> shape p = [h] -> shape x = [3%nat] ->
  let net := network xs ys zs h (fun j i => entry W [j; i]) (fun j => entry b [j]) (fun j => entry p [j]) in
  exists y z a, phi1 c W b p x = Ok y /\ phi1_without_adf c W b p x = Ok z /\ cub_adf c (A1 (tlist x)) = Ok a /\
    shape y = [] /\ shape z = [] /\ entry z [] = net (tlist x) /\ entry y [] = a * net (tlist x) /\
    (on_boundary xs ys zs (tlist x) -> entry y [] = 0).
Proof.
  intros xs ys zs c W b p h x HC T1 T2 T3 SW Sb Sp Sx net.
  assert (HT : thick xs ys zs) by (split; auto).
  destruct (phi1_ok xs ys zs c W b p h HC HT SW Sb Sp x Sx (tlist_len3 x Sx)) as (y & Ey & Sy & Vy).
  destruct (without_ok xs ys zs c W b p h HC HT SW Sb Sp x Sx (tlist_len3 x Sx)) as (z & Ez & Sz & Vz).
  exists y, z, (box_adf [first xs; first ys; first zs] [final xs; final ys; final zs] (tlist x)).
  split; auto. split; auto. split; [apply cub_adf_ok; auto; apply tlist_len3; auto|]. split; auto. split; auto.
  split; [apply Vz; constructor|]. split; [apply Vy; constructor|].
  intros HB. rewrite Vy by constructor. rewrite (adf_zero xs ys zs c (tlist x) HC HB). ring.
Qed.
Print Assumptions first_potential.
(** the charge of the second potential: [m . n - d phi1 / d n] inside the sides.  Its
    expansions are those with the constant normal of the side, so that the
    [stop_gradient] in [normal_vec] makes no difference. *)
Theorem second_charge : forall xs ys zs c W b p h m M D, Cuboid xs ys zs = Ok c ->
  first xs < final xs -> first ys < final ys -> first zs < final zs ->
  shape W = [h; 3%nat] -> shape b = [h] -> shape p = [h] ->
  openset 3 D -> repD 3 D [3%nat] m (fun q => M (hd 0%nat q)) ->
  exists G phi, repD 3 D [] (stray_charge c W b p m) (fun _ => G) /\ repD 3 len3 [] (phi1 c W b p) (fun _ => phi) /\
    (forall X, length X = 3%nat -> partials 3 (network xs ys zs h (fun j i => entry W [j; i]) (fun j => entry b [j]) (fun j => entry p [j])) X) /\
    forall k upper X, side_interior xs ys zs k upper X ->
      G X = total 3 (fun i => M i X * side_normal k upper i) - normal_derivative k upper phi X /\
      forall Y, plane_taylor (first_axis k) (second_axis k) G X Y =
        plane_taylor (first_axis k) (second_axis k) (fun Z => total 3 (fun i => M i Z * side_normal k upper i)
          + network xs ys zs h (fun j i => entry W [j; i]) (fun j => entry b [j]) (fun j => entry p [j]) Z) X Y.
Proof.
  intros xs ys zs c W b p h m M D HC T1 T2 T3 SW Sb Sp HO Hm.
  assert (HT : thick xs ys zs) by (split; auto).
  exists (stray_value xs ys zs W b p h M). eexists.
  split; [eapply stray_rep; eauto|]. split; [eapply phi1_ok; eauto|].
  split; [intros X LX; apply net_partials; auto|].
  intros k upper X HS. split.
  - rewrite (stray_side xs ys zs W b p h M k upper X HS). rewrite (normal_derivative_side xs ys zs W b p h k upper X HS). ring.
  - apply (stray_taylor xs ys zs W b p h M k upper X HS).
Qed.
Print Assumptions second_charge.
Example network_example : shape (mkT [2; 3]%nat (fun _ => 1)) = [2; 3]%nat /\ shape (tvec [1; 1]) = [2%nat] /\
  first [0; 1] < final [0; 1] /\ repD 3 len3 [3%nat] (fun _ => Ok (tvec [1; 0; 0])) (fun q _ => nth (hd 0%nat q) [1; 0; 0] 0).
Proof.
  split; [reflexivity|]. split; [reflexivity|]. split; [cbn; lra|]. intros t _ _. eexists. split; [reflexivity|].
  split; [reflexivity|]. intros q _. reflexivity.
Qed.
