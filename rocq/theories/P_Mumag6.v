(** Proofs about examples/mumag3.py, part 6: stray field, default arguments. *)
From Coquelicot Require Import Coquelicot.
From Verif Require Import Base BaseFacts P_Vec S_RFun M_Quat M_RFun M_Domain M_Tensor M_Calc M_Integrate M_Surface M_Mumag.
From Verif Require Import S_Calc P_AD P_Calc P_Calc2 S_Integrate P_Integrate1 P_Integrate2 P_Integrate3 S_Model P_Model S_Surface S_Mumag.
From Verif Require Import P_Surface1 P_Surface2 P_Surface3 P_Surface4 P_Surface5 P_Mumag1 P_Mumag2 P_Mumag3 P_Mumag4 P_Mumag5.

(** ** points off the surface form an open set *)
Definition off xs ys zs (X : list R) : Prop := length X = 3%nat /\ ~ on_boundary xs ys zs X.
Lemma on_side_iff xs ys zs k b X : (k < 3)%nat -> length X = 3%nat ->
  on_side xs ys zs k b X <-> nth k X 0 = side_value xs ys zs k b /\
   first (axis_grid xs ys zs (first_axis k)) <= nth (first_axis k) X 0 <= final (axis_grid xs ys zs (first_axis k)) /\
   first (axis_grid xs ys zs (second_axis k)) <= nth (second_axis k) X 0 <= final (axis_grid xs ys zs (second_axis k)).
Proof.
  intros Hk HX. three X x y z. split.
  - intros (q & (a & d & -> & Ha & Hd) & E). destruct k as [|[|[|k]]]; try lia;
      cbn [place nth first_axis second_axis] in *; injection E as -> -> ->; auto.
  - intros (E & H1 & H2). destruct k as [|[|[|k]]]; try lia; cbn [nth first_axis second_axis] in *.
    + exists [y; z]. split; [exists y, z; auto|]. cbn [place nth]. congruence.
    + exists [x; z]. split; [exists x, z; auto|]. cbn [place nth]. congruence.
    + exists [x; y]. split; [exists x, y; auto|]. cbn [place nth]. congruence.
Qed.
Lemma off_side_near xs ys zs k b X : (k < 3)%nat -> length X = 3%nat -> ~ on_side xs ys zs k b X ->
  exists d, 0 < d /\ forall Y, near d X Y -> ~ on_side xs ys zs k b Y.
Proof.
  intros Hk HX H.
  assert (G : forall (P : list R -> Prop), (forall Y, length Y = 3%nat -> on_side xs ys zs k b Y -> P Y) ->
     (exists d, 0 < d /\ forall Y, near d X Y -> ~ P Y) -> exists d, 0 < d /\ forall Y, near d X Y -> ~ on_side xs ys zs k b Y).
  { intros P HP (d & Hd & HN). exists d. split; auto. intros Y NY HY. apply (HN Y NY). apply HP; auto. destruct NY. congruence. }
  assert (Low : forall i a, nth i X 0 < a -> exists d, 0 < d /\ forall Y, near d X Y -> ~ a <= nth i Y 0).
  { intros i a Ha. exists (a - nth i X 0). split; [lra|]. intros Y (_ & N). specialize (N i). apply Rabs_def2 in N. lra. }
  assert (Up : forall i a, a < nth i X 0 -> exists d, 0 < d /\ forall Y, near d X Y -> ~ nth i Y 0 <= a).
  { intros i a Ha. exists (nth i X 0 - a). split; [lra|]. intros Y (_ & N). specialize (N i). apply Rabs_def2 in N. lra. }
  destruct (Rtotal_order (nth k X 0) (side_value xs ys zs k b)) as [L|[E|L]].
  { apply (G (fun Y => side_value xs ys zs k b <= nth k Y 0)); auto. intros Y LY HY. apply on_side_iff in HY; auto. destruct HY. lra. }
  2:{ apply (G (fun Y => nth k Y 0 <= side_value xs ys zs k b)); auto. intros Y LY HY. apply on_side_iff in HY; auto. destruct HY. lra. }
  destruct (Rle_dec (first (axis_grid xs ys zs (first_axis k))) (nth (first_axis k) X 0)) as [A|A].
  2:{ apply (G (fun Y => first (axis_grid xs ys zs (first_axis k)) <= nth (first_axis k) Y 0)); [|apply Low; lra].
      intros Y LY HY. apply on_side_iff in HY; auto. lra. }
  destruct (Rle_dec (nth (first_axis k) X 0) (final (axis_grid xs ys zs (first_axis k)))) as [B|B].
  2:{ apply (G (fun Y => nth (first_axis k) Y 0 <= final (axis_grid xs ys zs (first_axis k)))); [|apply Up; lra].
      intros Y LY HY. apply on_side_iff in HY; auto. lra. }
  destruct (Rle_dec (first (axis_grid xs ys zs (second_axis k))) (nth (second_axis k) X 0)) as [C|C].
  2:{ apply (G (fun Y => first (axis_grid xs ys zs (second_axis k)) <= nth (second_axis k) Y 0)); [|apply Low; lra].
      intros Y LY HY. apply on_side_iff in HY; auto. lra. }
  destruct (Rle_dec (nth (second_axis k) X 0) (final (axis_grid xs ys zs (second_axis k)))) as [E2|E2].
  2:{ apply (G (fun Y => nth (second_axis k) Y 0 <= final (axis_grid xs ys zs (second_axis k)))); [|apply Up; lra].
      intros Y LY HY. apply on_side_iff in HY; auto. lra. }
  exfalso. apply H. apply on_side_iff; auto.
Qed.
Lemma near_min d e X Y : near (Rmin d e) X Y -> near d X Y /\ near e X Y.
Proof.
  intros (L & N). split; split; auto; intros i; specialize (N i).
  - apply (Rlt_le_trans _ _ _ N). apply Rmin_l.
  - apply (Rlt_le_trans _ _ _ N). apply Rmin_r.
Qed.
Lemma off_open xs ys zs : openset 3 (off xs ys zs).
Proof.
  intros X (HX & HN). split; auto.
  assert (S : forall k b, (k < 3)%nat -> exists d, 0 < d /\ forall Y, near d X Y -> ~ on_side xs ys zs k b Y).
  { intros k b Hk. apply off_side_near; auto. intros HS. apply HN. exists k, b. auto. }
  destruct (S 0%nat false ltac:(lia)) as (d1 & P1 & N1). destruct (S 0%nat true ltac:(lia)) as (d2 & P2 & N2).
  destruct (S 1%nat false ltac:(lia)) as (d3 & P3 & N3). destruct (S 1%nat true ltac:(lia)) as (d4 & P4 & N4).
  destruct (S 2%nat false ltac:(lia)) as (d5 & P5 & N5). destruct (S 2%nat true ltac:(lia)) as (d6 & P6 & N6).
  exists (Rmin d1 (Rmin d2 (Rmin d3 (Rmin d4 (Rmin d5 d6))))). split; [repeat apply Rmin_pos; auto|].
  intros Y NY. repeat match goal with H : near (Rmin _ _) _ _ |- _ => apply near_min in H; destruct H end.
  split; [match goal with H : near d1 _ _ |- _ => destruct H end; congruence|].
  intros (k & b & Hk & HS). destruct k as [|[|[|k]]]; try lia; destruct b;
    match goal with F : forall Y, near ?d X Y -> ~ ?P Y, G : near ?d X Y |- _ => exact (F Y G HS) end.
Qed.

(** ** both ways of computing the stray field *)
Section Field.
Variables (xs ys zs : list R) (c : brick).
Hypothesis HC : Cuboid xs ys zs = Ok c.
Variables (method : quadrule) (N W : list R) (n : nat).
Hypothesis SR : sound_rule method N W.
Hypothesis Hn : (1 <= n)%nat.
Variables (f : tensor -> res tensor) (g : list R -> R) (Df : list R -> Prop).
Hypotheses (HOf : openset 3 Df) (HDf : forall y, on_boundary xs ys zs y -> Df y) (Hf : repD 3 Df [] f (fun _ => g)).
Let B := box_integral xs ys zs method n g.
Let sub := SubInt (Z.of_nat n).

Lemma integral3_ok : exists F, surface_integral3 c f sub method = Ok F /\ repD 3 (off xs ys zs) [] F (fun _ => B).
Proof.
  destruct (charges_ok xs ys zs c HC f g Df HOf HDf Hf) as (cs & Ec & _).
  unfold surface_integral3. rewrite Ec. cbn [bind]. eexists. split; [reflexivity|].
  intros t St (_ & Nt). destruct (integral_ok xs ys zs c HC method N W n SR Hn cs f g Df t HOf HDf Hf Ec St Nt) as (r & E & Sr & Vr).
  exists r. split; auto. split; auto. intros p Hp. inversion Hp; subst. exact Vr.
Qed.
Lemma potential3_ok : exists F, single_layer_potential3 c f sub method = Ok F /\
  repD 3 (off xs ys zs) [] F (fun _ X => 1 / (4 * PI) * B X).
Proof.
  destruct (charges_ok xs ys zs c HC f g Df HOf HDf Hf) as (cs & Ec & _).
  unfold single_layer_potential3. rewrite Ec. cbn [bind]. eexists. split; [reflexivity|].
  intros t St (_ & Nt). destruct (integral_ok xs ys zs c HC method N W n SR Hn cs f g Df t HOf HDf Hf Ec St Nt) as (r & E & Sr & Vr).
  unfold sub. rewrite E. cbn [bind]. eexists. split; [reflexivity|]. split; [exact Sr|].
  intros p Hp. inversion Hp; subst. cbn [tmap entry]. rewrite Vr. reflexivity.
Qed.
Lemma B_partials X : off xs ys zs X -> partials 3 B X.
Proof. intros (L & NX) l Hl. eexists. apply (box_integral_derive xs ys zs c HC method N W n SR Hn g X l L Hl NX). Qed.

Lemma field_ok p1 phi x (Dp : list R -> Prop) : openset 3 Dp -> repD 3 Dp [] p1 (fun _ => phi) -> Dp (tlist x) -> partials 3 phi (tlist x) ->
  shape x = [3%nat] -> ~ on_boundary xs ys zs (tlist x) ->
  exists dt H1 H2, surface_tensors_grad x c sub method = Ok dt /\
    hs_precomputed p1 f c x dt = Ok H1 /\ hs_direct p1 f c sub method x = Ok H2 /\
    shape H1 = [3%nat] /\ shape H2 = [3%nat] /\
    forall l, (l < 3)%nat -> entry H1 [l] = - pd l phi (tlist x) - 1 / (4 * PI) * pd l B (tlist x) /\ entry H2 [l] = entry H1 [l].
Proof.
  intros HOp Hp Dx Px Sx NX. set (X := tlist x) in *.
  assert (OX : off xs ys zs X) by (split; auto; apply tlist_len3; auto).
  destruct (charges_ok xs ys zs c HC f g Df HOf HDf Hf) as (cs & Ec & _).
  destruct (grad_ok xs ys zs c HC method N W n SR Hn cs f g Df (off xs ys zs) x HOf HDf Hf Ec (off_open xs ys zs)) as (dt & v & Edt & Ev & Sv & Vv); auto.
  { intros y (_ & Hy). auto. }
  destruct (jacfwd_repD 3 Dp [] p1 _ HOp Hp x Sx Dx) as (J & EJ & SJ & VJ). cbn [app] in SJ, VJ.
  destruct (tbop_same Rminus (tmap Ropp J) (tmap (fun e => 1 / (4 * PI) * e) v) [3%nat] SJ Sv) as (H1 & E1 & S1 & V1).
  destruct potential3_ok as (F & EF & HF).
  pose (Dq := fun Y => Dp Y /\ off xs ys zs Y).
  assert (HOq : openset 3 Dq).
  { intros Y (A1 & A2). destruct (HOp Y A1) as (L & d1 & Q1 & N1). destruct (off_open xs ys zs Y A2) as (_ & d2 & Q2 & N2).
    split; auto. exists (Rmin d1 d2). split; [apply Rmin_pos; auto|]. intros Z HZ. apply near_min in HZ. destruct HZ. split; auto. }
  assert (HQ : repD 3 Dq [] (fun z => a <- p1 z ;; b <- F z ;; tbop Rplus a b) (fun _ Y => phi Y + 1 / (4 * PI) * B Y)).
  { intros t St (D1 & D2). destruct (Hp t St D1) as (a & Ea & Sa & Va). destruct (HF t St D2) as (b & Eb & Sb & Vb).
    rewrite Ea. cbn [bind]. rewrite Eb. cbn [bind]. destruct (tbop_same Rplus a b [] Sa Sb) as (y & Ey & Sy & Vy).
    exists y. split; auto. split; auto. intros p Hp'. rewrite Vy, Va, Vb by auto. reflexivity. }
  destruct (jacfwd_repD 3 Dq [] _ _ HOq HQ x Sx (conj Dx OX)) as (K & EK & SK & VK). cbn [app] in SK, VK.
  exists dt, H1, (tmap Ropp K). split; auto. split.
  { unfold hs_precomputed. rewrite Ec. cbn [bind]. rewrite EJ. cbn [bind]. rewrite Ev. cbn [bind]. exact E1. }
  split. { unfold hs_direct. rewrite EF. cbn [bind]. rewrite EK. reflexivity. }
  split; auto. split; auto. intros l Hl.
  assert (I : inside [3%nat] [l]) by (apply inside1; auto).
  rewrite V1 by auto. cbn [tmap entry]. rewrite (VJ [l] I), (VK [l] I), (Vv l Hl). cbn [last removelast].
  fold X. split; [reflexivity|].
  assert (Ep : pd l (fun Y => phi Y + 1 / (4 * PI) * B Y) X = pd l phi X + 1 / (4 * PI) * pd l B X).
  { rewrite (pd_plus_at l phi (fun Y => 1 / (4 * PI) * B Y) X).
    - rewrite pd_scale. reflexivity.
    - apply Px; auto.
    - apply (ex_derive_scal (fun t => B (upd X l t))). apply B_partials; auto. }
  rewrite Ep. fold B. ring.
Qed.
End Field.

(** ** the default value of [subintervals] *)
Lemma sequence_all_err {A} (l : list (res A)) e : l <> [] -> (forall r, In r l -> r = Err e) -> sequence l = Err e.
Proof. destruct l as [|r l]; [tauto|]. intros _ H. rewrite (H r (or_introl eq_refl)). reflexivity. Qed.
Lemma vmapT_err {A} (h : A -> res tensor) l e : l <> [] -> (forall a, In a l -> h a = Err e) -> vmapT h l = Err e.
Proof.
  intros Hl H. unfold vmapT. rewrite (sequence_all_err (map h l) e); auto.
  - destruct l; [tauto|discriminate].
  - intros r Hr. apply in_map_iff in Hr. destruct Hr as (a & <- & Ha). auto.
Qed.
Lemma cells_nonempty u : (2 <= length u)%nat -> cells u <> [].
Proof. destruct u as [|a [|b u]]; cbn [length]; try lia. intros _. discriminate. Qed.
Lemma tuple_err xs ys zs c x l method : Cuboid xs ys zs = Ok c -> surface_tensors x c (SubTuple l) method = Err TypeError.
Proof.
  intros HC. unfold surface_tensors. rewrite (faces_sides xs ys zs c HC), map_map. apply sequence_all_err; [discriminate|].
  intros r Hr. apply in_map_iff in Hr. destruct Hr as (s & <- & Hs). unfold integrate_face. unfold side_face. cbn [axis1_vals axis2_vals].
  apply vmapT_err; [apply cells_nonempty; apply (good_axis xs ys zs c HC)|]. intros d1 _.
  apply vmapT_err; [apply cells_nonempty; apply (good_axis xs ys zs c HC)|]. intros d2 _. reflexivity.
Qed.

(** ** the ansatz for the first potential *)
Lemma ex_derive_tanh t : ex_derive tanh t.
Proof.
  unfold tanh. apply (ex_derive_div sinh cosh).
  - eexists. apply is_derive_Reals. apply derivable_pt_lim_sinh.
  - eexists. apply is_derive_Reals. apply derivable_pt_lim_cosh.
  - pose proof (exp_pos t). pose proof (exp_pos (- t)). unfold cosh. lra.
Qed.
Lemma ex_derive_lsum n (F : nat -> R -> R) t : (forall i, (i < n)%nat -> ex_derive (F i) t) -> ex_derive (fun t => lsum n (fun i => F i t)) t.
Proof.
  intros H. exists (lsum n (fun i => Derive (F i) t)). apply (is_derive_lsum n F). intros i Hi. apply Derive_correct. auto.
Qed.
Definition thick xs ys zs : Prop := first xs < final xs /\ first ys < final ys /\ first zs < final zs.
Section Network.
Variables (xs ys zs : list R) (c : brick) (W b p : tensor) (k : nat).
Hypothesis HC : Cuboid xs ys zs = Ok c.
Hypothesis HT : thick xs ys zs.
Hypotheses (SW : shape W = [k; 3%nat]) (Sb : shape b = [k]) (Sp : shape p = [k]).
Let net := network xs ys zs k (fun j i => entry W [j; i]) (fun j => entry b [j]) (fun j => entry p [j]).
Let adf := box_adf [first xs; first ys; first zs] [final xs; final ys; final zs].

Lemma h_elm_ok x : shape x = [3%nat] -> exists h, h_elm c W b x = Ok h /\ shape h = [k] /\
  forall j, (j < k)%nat -> entry h [j] = tanh (total 3 (fun i => entry W [j; i] * scaled xs ys zs (tlist x) i) + entry b [j]).
Proof.
  intros Sx. unfold h_elm. rewrite Sx. destruct HT as (T1 & T2 & T3).
  destruct (normalize_ok xs ys zs c (tlist x) HC (tlist_len3 x Sx) T1 T2 T3) as (y & -> & Ly & Vy). cbn [bind ravel].
  assert (Sy : shape (tvec y) = [3%nat]) by (cbn; congruence).
  destruct (tmatvec_mat W (tvec y) k 3 SW Sy) as (a & -> & Sa & Va). cbn [bind].
  destruct (tbop_same Rplus a b [k] Sa Sb) as (s & -> & Ss & Vs). cbn [bind].
  eexists. split; [reflexivity|]. split; [exact Ss|]. intros j Hj. cbn [tmap entry].
  rewrite Vs by (apply inside1; auto). rewrite Va. change total with lsum. do 2 f_equal. apply lsum_ext. intros i Hi.
  f_equal. cbn [tvec entry hd]. rewrite Vy by auto. reflexivity.
Qed.
Lemma without_ok : repD 3 len3 [] (phi1_without_adf c W b p) (fun _ => net).
Proof.
  intros x Sx Lx. unfold phi1_without_adf. destruct (h_elm_ok x Sx) as (h & -> & Sh & Vh). cbn [bind].
  destruct (tmatvec_vec h p k Sh Sp) as (y & Ey & Sy & Vy). exists y. split; auto. split; auto.
  intros q Hq. inversion Hq; subst. rewrite Vy. unfold net, network. change total with lsum. apply lsum_ext. intros j Hj.
  rewrite Vh by auto. reflexivity.
Qed.
Lemma phi1_ok : repD 3 len3 [] (phi1 c W b p) (fun _ X => adf X * net X).
Proof.
  intros x Sx Lx. unfold phi1, u_elm. destruct (h_elm_ok x Sx) as (h & -> & Sh & Vh). cbn [bind].
  destruct (cub_adfT_rep xs ys zs c HC x Sx Lx) as (a & -> & Sa & Va). cbn [bind].
  destruct (tbop_scal_r Rmult h a [k] Sh Sa) as (u & -> & Su & Vu). cbn [bind].
  destruct (tmatvec_vec u p k Su Sp) as (y & Ey & Sy & Vy). exists y. split; auto. split; auto.
  intros q Hq. inversion Hq; subst. rewrite Vy. unfold net, network. change total with lsum. rewrite <- lsum_scal. apply lsum_ext. intros j Hj.
  rewrite Vu, Vh, Va by (auto; try apply inside1; auto; constructor). change lsum with total. fold adf. ring.
Qed.
Lemma net_partials X : length X = 3%nat -> partials 3 net X.
Proof.
  intros LX l Hl. unfold net, network. change total with lsum.
  apply (ex_derive_lsum k (fun j t => tanh (lsum 3 (fun i => entry W [j; i] * scaled xs ys zs (upd X l t) i) + entry b [j]) * entry p [j])).
  intros j Hj. apply (ex_derive_mult (fun t => tanh (lsum 3 (fun i => entry W [j; i] * scaled xs ys zs (upd X l t) i) + entry b [j])) (fun _ => entry p [j])); [|apply ex_derive_const].
  apply (ex_derive_comp tanh (fun t => lsum 3 (fun i => entry W [j; i] * scaled xs ys zs (upd X l t) i) + entry b [j])); [apply ex_derive_tanh|].
  apply (ex_derive_plus (fun t => lsum 3 (fun i => entry W [j; i] * scaled xs ys zs (upd X l t) i)) (fun _ => entry b [j])); [|apply ex_derive_const].
  apply (ex_derive_lsum 3 (fun i t => entry W [j; i] * scaled xs ys zs (upd X l t) i)). intros i Hi.
  apply (ex_derive_scal (fun t => scaled xs ys zs (upd X l t) i)). unfold scaled.
  three X x y z. destruct l as [|[|[|l]]]; try lia; destruct i as [|[|[|i]]]; try lia; cbn [upd nth]; auto_derive; auto.
Qed.
End Network.

Lemma grid_le g : good_grid g -> first g <= final g.
Proof.
  intros (L & N). destruct (nondecreasing_cell g 0 N ltac:(lia)) as (A & B & C). lra.
Qed.
Lemma adf_zero xs ys zs c X : Cuboid xs ys zs = Ok c -> on_boundary xs ys zs X ->
  box_adf [first xs; first ys; first zs] [final xs; final ys; final zs] X = 0.
Proof.
  intros HC (k & b & Hk & HS).
  assert (HX : length X = 3%nat) by (destruct HS as (q & _ & ->); destruct k as [|[|k]]; reflexivity).
  apply on_side_iff in HS; auto. destruct HS as (E & A & B).
  destruct (Cuboid_inv _ _ _ _ HC) as (Gx & Gy & Gz & _).
  apply grid_le in Gx. apply grid_le in Gy. apply grid_le in Gz.
  destruct (adf_membership xs ys zs c X HC HX) as (v & Ev & _ & Z & _). rewrite (cub_adf_ok xs ys zs c X HC HX) in Ev. injection Ev as <-.
  apply Z. split.
  - split; [auto|]. split; [auto|]. three X x y z. destruct k as [|[|[|k]]]; try lia; destruct b; unfold side_value in E;
      cbn [axis_grid nth first_axis second_axis] in *; intros [|[|[|i]]] Hi; cbn [length] in Hi; try lia; cbn [nth]; lra.
  - exists k. split; [lia|]. destruct k as [|[|[|k]]]; try lia; destruct b; unfold side_value in E; cbn [axis_grid nth] in *; auto.
Qed.

(** ** expansions only depend on the values on the plane *)
Lemma near_upd1 d X i t : (i < length X)%nat -> 0 < d -> Rabs (t - nth i X 0) < d -> near d X (upd X i t).
Proof.
  intros Hi Hd Ht. split; [apply upd_length|]. intros j. destruct (Nat.eq_dec i j) as [<-|E].
  - rewrite upd_nth_same by auto. auto.
  - rewrite upd_nth_other by auto. unfold Rminus. rewrite Rplus_opp_r, Rabs_R0. auto.
Qed.
Lemma pd_ext_plane k i d X (g h : list R -> R) : (i < length X)%nat -> i <> k -> 0 < d ->
  (forall Y, near d X Y -> nth k Y 0 = nth k X 0 -> g Y = h Y) -> pd i g X = pd i h X.
Proof.
  intros Hi Hk Hd H. unfold pd. apply Derive_ext_loc. exists (mkposreal d Hd). intros t Ht. apply H.
  - apply near_upd1; auto.
  - rewrite upd_nth_other by auto. reflexivity.
Qed.
Lemma near_half d X Y Z : near (d / 2) X Y -> near (d / 2) Y Z -> near d X Z.
Proof.
  intros (L1 & N1) (L2 & N2). split; [congruence|]. intros i. specialize (N1 i). specialize (N2 i).
  apply Rabs_def2 in N1. apply Rabs_def2 in N2. apply Rabs_def1; lra.
Qed.
Lemma plane_taylor_local k d g h C : (k < 3)%nat -> length C = 3%nat -> 0 < d ->
  (forall Y, near d C Y -> nth k Y 0 = nth k C 0 -> g Y = h Y) ->
  forall Y, plane_taylor (first_axis k) (second_axis k) g C Y = plane_taylor (first_axis k) (second_axis k) h C Y.
Proof.
  intros Hk LC Hd H Y.
  assert (A : first_axis k <> k /\ second_axis k <> k) by (destruct k as [|[|[|k]]]; try lia; cbn; lia).
  destruct A as (A1 & A2). destruct (axes_lt k Hk) as (L1 & L2).
  assert (P : forall i, (i < 3)%nat -> i <> k -> forall Z, near (d / 2) C Z -> nth k Z 0 = nth k C 0 -> pd i g Z = pd i h Z).
  { intros i Hi Ei Z NZ EZ. apply (pd_ext_plane k i (d / 2) Z); auto; try lra.
    - destruct NZ. lia.
    - intros V NV EV. apply H; [eapply near_half; eauto|congruence]. }
  assert (NC : near (d / 2) C C) by (split; auto; intros i; unfold Rminus; rewrite Rplus_opp_r, Rabs_R0; lra).
  assert (Q : forall i j, (i < 3)%nat -> i <> k -> (j < 3)%nat -> j <> k -> pd j (pd i g) C = pd j (pd i h) C).
  { intros i j Hi Ei Hj Ej. apply (pd_ext_plane k j (d / 2) C); auto; try lra; try lia. }
  unfold plane_taylor. rewrite !Q by auto. rewrite !P by auto. rewrite (H C); auto.
  destruct NC as (_ & N). split; auto. intros i. specialize (N i). lra.
Qed.
Lemma side_interior_near xs ys zs k b X : side_interior xs ys zs k b X ->
  exists d, 0 < d /\ forall Y, near d X Y -> nth k Y 0 = nth k X 0 -> side_interior xs ys zs k b Y.
Proof.
  intros (LX & Hk & E & T & HI).
  assert (One : forall i, (i < 3)%nat -> exists d, 0 < d /\ forall Y, near d X Y -> i <> k ->
     first (axis_grid xs ys zs i) < nth i Y 0 < final (axis_grid xs ys zs i)).
  { intros i Hi. destruct (Nat.eq_dec i k) as [->|Ne]; [exists 1; split; [lra|tauto]|].
    destruct (HI i Hi Ne) as (A & B).
    exists (Rmin (nth i X 0 - first (axis_grid xs ys zs i)) (final (axis_grid xs ys zs i) - nth i X 0)).
    split; [apply Rmin_pos; lra|]. intros Y NY _. apply near_min in NY. destruct NY as ((_ & N1) & (_ & N2)).
    specialize (N1 i). specialize (N2 i). apply Rabs_def2 in N1. apply Rabs_def2 in N2. lra. }
  destruct (One 0%nat ltac:(lia)) as (d0 & P0 & N0). destruct (One 1%nat ltac:(lia)) as (d1 & P1 & N1).
  destruct (One 2%nat ltac:(lia)) as (d2 & P2 & N2).
  exists (Rmin d0 (Rmin d1 d2)). split; [repeat apply Rmin_pos; auto|]. intros Y NY EY.
  apply near_min in NY. destruct NY as (M0 & NY). apply near_min in NY. destruct NY as (M1 & M2).
  split; [destruct M0; congruence|]. split; auto. split; [congruence|]. split; auto.
  intros i Hi Ne. destruct i as [|[|[|i]]]; try lia; auto.
Qed.

Section Stray.
Variables (xs ys zs : list R) (c : brick) (W b p : tensor) (h : nat).
Hypothesis HC : Cuboid xs ys zs = Ok c.
Hypothesis HT : thick xs ys zs.
Hypotheses (SW : shape W = [h; 3%nat]) (Sb : shape b = [h]) (Sp : shape p = [h]).
Let net := network xs ys zs h (fun j i => entry W [j; i]) (fun j => entry b [j]) (fun j => entry p [j]).
Let adf := box_adf [first xs; first ys; first zs] [final xs; final ys; final zs].
Variables (m : tensor -> res tensor) (M : nat -> list R -> R) (D : list R -> Prop).
Hypotheses (HO : openset 3 D) (Hm : repD 3 D [3%nat] m (fun q => M (hd 0%nat q))).

Definition stray_value (X : list R) : R := total 3 (fun i => M i X * - pd i adf X) + net X.
Lemma stray_rep : repD 3 D [] (stray_charge c W b p m) (fun _ => stray_value).
Proof.
  intros x Sx Dx. unfold stray_charge. destruct (Hm x Sx Dx) as (v & -> & Sv & Vv). cbn [bind].
  unfold cub_normal_vec. rewrite Sx. destruct (normal1_ok xs ys zs c x HC Sx) as (n & -> & Sn & Vn). cbn [bind].
  destruct (tmatvec_vec v n 3 Sv Sn) as (d & -> & Sd & Vd). cbn [bind].
  destruct (without_ok xs ys zs c W b p h HC HT SW Sb Sp x Sx (tlist_len3 x Sx)) as (q & -> & Sq & Vq). cbn [bind].
  destruct (tbop_same Rplus d q [] Sd Sq) as (y & Ey & Sy & Vy). exists y. split; auto. split; auto.
  intros r Hr. rewrite Vy, Vq by auto. inversion Hr; subst. rewrite Vd. unfold stray_value. f_equal.
  change total with lsum. apply lsum_ext. intros i Hi. rewrite Vv, Vn by (auto; apply inside1; auto). reflexivity.
Qed.
Lemma stray_side k u X : side_interior xs ys zs k u X ->
  stray_value X = total 3 (fun i => M i X * side_normal k u i) + net X.
Proof.
  intros HS. unfold stray_value. f_equal. change total with lsum. apply lsum_ext. intros i Hi. f_equal.
  unfold pd. unfold adf. rewrite (is_derive_unique _ _ _ (proj2 (box_normal _ _ _ _ _ _ _ HS Hi))). ring.
Qed.
Lemma normal_derivative_side k u X : side_interior xs ys zs k u X ->
  normal_derivative k u (fun Y => adf Y * net Y) X = - net X.
Proof.
  intros HS. unfold normal_derivative. change total with lsum.
  assert (LX : length X = 3%nat) by apply HS. assert (Hk : (k < 3)%nat) by apply HS.
  rewrite (lsum_ext 3 _ (fun i => - net X * (side_normal k u i * side_normal k u i))).
  - rewrite lsum_scal. replace (lsum 3 (fun i => side_normal k u i * side_normal k u i)) with 1; [ring|].
    unfold lsum, sumR, side_normal. destruct k as [|[|[|k]]]; try lia; destruct u; cbn; ring.
  - intros i Hi. destruct (box_normal _ _ _ _ _ _ _ HS Hi) as (Z & DZ). rewrite upd_self in Z by lia.
    rewrite (pd_product_zero i adf net X Z) by
      (try lia; try (eexists; exact DZ); apply net_partials; auto).
    unfold pd, adf. rewrite (is_derive_unique _ _ _ DZ). ring.
Qed.
Lemma stray_taylor k u C : side_interior xs ys zs k u C -> forall Y,
  plane_taylor (first_axis k) (second_axis k) stray_value C Y =
  plane_taylor (first_axis k) (second_axis k) (fun X => total 3 (fun i => M i X * side_normal k u i) + net X) C Y.
Proof.
  intros HS. destruct (side_interior_near _ _ _ _ _ _ HS) as (d & Hd & HN).
  apply (plane_taylor_local k d); auto; try apply HS. intros Y NY EY. apply (stray_side k u). auto.
Qed.
End Stray.
