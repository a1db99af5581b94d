(** Property C109: errors of surface integrals and of the potentials of surface charges. *)
From Coquelicot Require Import Coquelicot.
From Verif Require Import Base BaseFacts P_Vec S_RFun M_Quat M_RFun M_Domain M_Tensor M_Calc M_Integrate M_Surface M_Mumag.
From Verif Require Import S_Calc P_AD P_Calc P_Calc2 S_Integrate S_IntErr P_Integrate1 P_Integrate2 P_Integrate3 P_Integrate4 T_Integrate S_Model P_Model S_Surface S_Mumag.
From Verif Require Import P_Surface1 P_Surface2 P_Surface3 P_Surface4 P_Surface5 T_Surface P_Mumag1 P_Mumag2 P_Mumag3 P_Mumag4 P_Mumag5 T_Mumag.
From Verif Require Import S_IntOrder P_IntOrder S_SurfErr P_SurfErr P_SurfErr2 P_SurfErr3 P_SurfErr4.

(** ** C109 *)
(** integrate_surface: a rule made for degree K has order K + 1 *)
Theorem surface_integral_order method K P pf u v f args s G h M : library_rule method K -> grids u v ->
  steps_at_most h u -> steps_at_most h v ->
  parametrizes P pf u v -> repD 3 (on_surface pf u v) s (fun r => f (r :: args)) G ->
  (forall p, inside s p -> smooth_box (covered [u; v]) K M (fun q => G p (point pf q) * area pf q)) ->
  exists T, integrate_surface f P u v args method = Ok T /\ shape T = s /\
    forall p, inside s p ->
      Rabs (entry T p - rect_integral u v (fun q => G p (point pf q) * area pf q)) <=
      4 * M / INR (fact (S K)) * (h / 2) ^ S K * (extent u * extent v).
Proof.
  intros HL HG Su Sv HP Hf HS. destruct (surface_integral_formula method K P pf u v f args s G HL HG HP Hf) as (T & E & ST & V).
  exists T. split; [exact E|]. split; [exact ST|]. intros p Hp. destruct (V p Hp) as (ru & rv & E1 & E2 & ->).
  destruct HG as (Lu & Lv & Nu & Nv). destruct (library_sound _ _ HL) as (n & w & SR & HK & Hw & Hn & S2).
  destruct (sound_rules_of _ _ _ [u; v] SR) as [rs HR]; [repeat constructor; auto|].
  assert (ER : rs = [ru; rv]).
  { inversion HR as [|? r0 ? ? (F1 & _) HR1]; subst. inversion HR1 as [|? r1 ? ? (F2 & _) HR2]; subst. inversion HR2; subst. congruence. }
  subst rs.
  pose proof (iterated_order method n w K h [u; v] [ru; rv] SR HK Hw S2 Hn HR) as B.
  specialize (B ltac:(repeat constructor; auto) M _ (HS p Hp)). unfold rect_integral.
  eapply Rle_trans; [exact B|]. apply Req_le. unfold volume, covered, extent, prodR. cbn [map fst snd fold_right length].
  replace (INR 2) with 2 by (cbn; lra). unfold Rdiv. ring.
Qed.
Print Assumptions surface_integral_order.

(** single_layer_potential with an expansion of order n: the error has a part of order
    n + 1 from the charge and a part of order K + 1 from the quadrature *)
Theorem single_layer_potential_error method K P pf u v f args s g D order x h M M' L A delta : library_rule method K -> grids u v ->
  steps_at_most h u -> steps_at_most h v ->
  parametrizes P pf u v -> openset 3 D -> convex D -> (forall y, on_surface pf u v y -> D y) -> nprod s <> 0%nat ->
  repD 3 D s (fun y => f (y :: args)) g -> (0 <= order)%Z -> shape x = [3%nat] ->
  let n := Z.to_nat order in
  0 <= M -> 0 <= L -> 0 < delta -> stretches pf u v L ->
  (forall q, rect u v q -> delta <= dist (tlist x) (point pf q) /\ area pf q <= A) ->
  (forall p, inside s p -> smooth 3 D (S n) (g p) /\ derivatives_below (S n) D (g p) M /\
     smooth_box (covered [u; v]) K M' (fun q => g p (point pf q) / dist (tlist x) (point pf q) * area pf q)) ->
  exists src C V, source_tensor x P u v method order false = Ok (SVal src) /\ charge_tensor f P u v args order = Ok C /\
    single_layer_potential src C = Ok V /\ shape V = rot s /\
    forall p, inside s p ->
      Rabs (entry V (rot p) - 1 / (4 * PI) * rect_integral u v (fun q => g p (point pf q) / dist (tlist x) (point pf q) * area pf q)) <=
      1 / (4 * PI) * (M * (L * h) ^ S n / INR (fact (S n)) * A / delta + 4 * M' / INR (fact (S K)) * (h / 2) ^ S K) * (extent u * extent v).
Proof.
  intros HL HG Su Sv HP HO HC HD Ns Hf Ho Sx n M0 L0 Hd HT HX HS.
  assert (Nx : ~ on_surface pf u v (tlist x)).
  { intros (q & Hq & E). destruct (HX q Hq) as [B _]. rewrite <- E in B. rewrite dist_same in B. lra. }
  destruct (single_layer_potential_taylor method K P pf u v f args s g D order x HL HG HP HO HD Ns Hf Ho Sx Nx)
    as (src & C & V & E1 & E2 & E3 & SV & HV).
  exists src, C, V. repeat (split; [assumption|]). intros p Hp. destruct (HV p Hp) as (Q & HQ & ->).
  destruct (HS p Hp) as (S1 & S2 & S3). destruct HG as (Lu & Lv & Nu & Nv).
  destruct (library_sound _ _ HL) as (N & w & SR & HK & Hw & Hn & W2).
  pose proof (layer_error method N w K h u v pf D n (g p) (tlist x) Q M M' L A delta SR HK Hw W2 Hn Lu Lv Nu Nv Su Sv HO HC HD S1 S2 M0 L0 HT Hd HX S3 HQ) as B.
  rewrite <- Rmult_minus_distr_l, Rabs_mult.
  assert (P0 : 0 < 1 / (4 * PI)) by (apply Rdiv_lt_0_compat; pose proof PI_RGT_0; lra).
  rewrite (Rabs_right (1 / (4 * PI))) by lra. rewrite Rmult_assoc. apply Rmult_le_compat_l; [lra|]. exact B.
Qed.
Print Assumptions single_layer_potential_error.

(** the potential of charges on the surface of a cuboid; every side may have its own
    domain of smoothness *)
Theorem box_potential_error : forall method K xs ys zs c n f g D x H M M' delta, library_rule method K ->
  Cuboid xs ys zs = Ok c -> (1 <= n)%nat -> charge_on xs ys zs f g ->
  steps_at_most H xs -> steps_at_most H ys -> steps_at_most H zs ->
  (forall k b, (k < 3)%nat -> openset 3 (D k b) /\ convex (D k b) /\ (forall y, on_side xs ys zs k b y -> D k b y) /\
     smooth 3 (D k b) 3 g /\ derivatives_below 3 (D k b) g M) ->
  shape x = [3%nat] -> 0 <= M -> 0 < delta -> (forall y, on_boundary xs ys zs y -> delta <= dist (tlist x) y) ->
  (forall k b, (k < 3)%nat ->
     smooth_box (covered [axis_grid xs ys zs (first_axis k); axis_grid xs ys zs (second_axis k)]) K M'
       (fun q => g (place k (side_value xs ys zs k b) q) / dist (tlist x) (place k (side_value xs ys zs k b) q))) ->
  exists F r, single_layer_potential3 c f (SubInt (Z.of_nat n)) method = Ok F /\ F x = Ok r /\ shape r = [] /\
    Rabs (entry r [] - box_potential xs ys zs g (tlist x) / (4 * PI)) <=
    (M * H ^ 3 / 6 / delta + 4 * M' / INR (fact (S K)) * (H / INR n / 2) ^ S K) * box_area xs ys zs / (4 * PI).
Proof.
  intros method K xs ys zs c n f g D x H M M' delta HL HC Hn Hf Sx Sy Sz HD Shx M0 Hd HX HS.
  destruct (box_single_layer method K xs ys zs c n f g HL HC Hn Hf) as (F & EF & HF).
  assert (Nx : ~ on_boundary xs ys zs (tlist x)).
  { intros B. apply HX in B. rewrite dist_same in B. lra. }
  destruct (HF x Shx Nx) as (r & q & Er & Sr & (Q & HQ & Eq) & Eq'). exists F, r. repeat (split; [assumption|]). rewrite Eq', Eq.
  destruct (library_sound _ _ HL) as (N & w & SR & HK & Hw & Hnd & W2).
  assert (GA : forall k, good_grid (axis_grid xs ys zs k)) by (apply (good_axis xs ys zs c HC)).
  assert (SA : forall k, steps_at_most H (axis_grid xs ys zs k)) by (intros [|[|k]]; auto).
  set (E := M * H ^ 3 / 6 / delta + 4 * M' / INR (fact (S K)) * (H / INR n / 2) ^ S K).
  assert (B : forall k b, (k < 3)%nat ->
    Rabs (total (length (axis_grid xs ys zs (first_axis k)) - 1) (fun i =>
          total (length (axis_grid xs ys zs (second_axis k)) - 1) (fun j => Q k b i j)) -
          rect_integral (axis_grid xs ys zs (first_axis k)) (axis_grid xs ys zs (second_axis k))
            (fun q => let y := place k (side_value xs ys zs k b) q in g y / dist (tlist x) y)) <=
    E * (extent (axis_grid xs ys zs (first_axis k)) * extent (axis_grid xs ys zs (second_axis k)))).
  { intros k b Hk. destruct (HD k b Hk) as (D1 & D2 & D3 & D4 & D5).
    apply (side_error method N w K H n k (side_value xs ys zs k b) _ _ (D k b) g (tlist x) (Q k b) M M' delta); auto; try apply GA.
    - intros s Hs. apply D3. exists s. auto.
    - intros s Hs. apply HX. exists k, b. split; auto. exists s. auto.
    - intros i j Hi Hj. apply (HQ k b i j Hk Hi Hj). }
  assert (P0 : 0 < 4 * PI) by (pose proof PI_RGT_0; lra).
  pose proof (six_error _ _ _ B) as B6. unfold box_potential.
  unfold Rdiv at 1 2. rewrite <- Rmult_minus_distr_r, Rabs_mult, (Rabs_right (/ (4 * PI))) by (apply Rle_ge, Rlt_le, Rinv_0_lt_compat; auto).
  apply Rmult_le_compat_r; [apply Rlt_le, Rinv_0_lt_compat; auto|]. eapply Rle_trans; [exact B6|].
  apply Req_le. unfold six, box_area. cbn [first_axis second_axis axis_grid]. ring.
Qed.
Print Assumptions box_potential_error.

(** *** examples *)
(** the flat plate [0,3] x [0,1] *)
Lemma flat_area1 q : length q = 2%nat -> area flat q = 1.
Proof.
  destruct q as [|a [|b [|]]]; try discriminate. intros _.
  assert (D : forall k i, pd i (flat k) [a; b] = match i, k with O, O => 1 | S O, S O => 1 | _, _ => 0 end).
  { intros k i. unfold pd. destruct k as [|[|k]]; destruct i as [|[|i]]; unfold flat; cbn [upd nth];
      first [apply Derive_id|apply Derive_const]. }
  unfold area. rewrite !D. match goal with |- sqrt ?z = _ => replace z with 1 by ring end. apply sqrt_1.
Qed.
Lemma flat_point a b : point flat [a; b] = [a; b; 0].
Proof. reflexivity. Qed.
Example surface_order_case : exists T,
  integrate_surface (fun a => match a with r :: _ => Ok (tsc (nth 0 (tlist r) 0 ^ 2 * nth 1 (tlist r) 0)) | _ => Err TypeError end)
    flatP [0; 1; 3] [0; 1] [] trap = Ok T /\
  Rabs (entry T [] - rect_integral [0; 1; 3] [0; 1] (fun q => nth 0 q 0 ^ 2 * nth 1 q 0 * area flat q)) <= 4 * 9 / INR (fact 2) * (2 / 2) ^ 2 * (3 * 1).
Proof.
  destruct (surface_integral_order trap 1 flatP flat [0; 1; 3] [0; 1]
    (fun a => match a with r :: _ => Ok (tsc (nth 0 (tlist r) 0 ^ 2 * nth 1 (tlist r) 0)) | _ => Err TypeError end) [] []
    (fun _ y => nth 0 y 0 ^ 2 * nth 1 y 0) 2 9 lib_trap unit_grids) as (T & E & S & V).
  - simpl; repeat split; lra.
  - simpl; repeat split; lra.
  - apply flat_ok.
  - intros t St Dt. eexists. split; [reflexivity|]. split; reflexivity.
  - intros p _. unfold covered, first, final. cbn [map hd last].
    apply (smooth_box2 0 3 0 1 (fun x y => x ^ 2 * y) (fun x y => 2 * x * y) (fun x y => x ^ 2) (fun x y => 2 * y) (fun x y => 2 * x)
      (fun x y => 2 * x) (fun x y => 0) 9 9); try lra; try (intros; auto_derive; auto; ring).
    + intros x y Hx Hy. split; apply Rabs_le; nra.
    + intros x y Hx Hy. repeat split; apply Rabs_le; lra.
    + intros x y. rewrite flat_area1 by reflexivity. rewrite flat_point. cbn [nth]. ring.
  - exists T. split; [exact E|]. eapply Rle_trans; [exact (V [] ltac:(constructor))|].
    apply Req_le. unfold extent, first, final. cbn [hd last]. ring.
Qed.
Lemma dist3 a b c a' b' c' : dist [a; b; c] [a'; b'; c'] = sqrt ((a - a') ^ 2 + (b - b') ^ 2 + (c - c') ^ 2).
Proof. unfold dist, normR, sumR. cbn [map2 map fold_right]. f_equal. ring. Qed.
(** charge y_0, expansion of order 0, target at height 1 *)
Example potential_error_case : exists src C V,
  source_tensor target flatP [0; 1; 3] [0; 1] trap 0 false = Ok (SVal src) /\
  charge_tensor charge0 flatP [0; 1; 3] [0; 1] [] 0 = Ok C /\ single_layer_potential src C = Ok V /\
  Rabs (entry V [] - 1 / (4 * PI) * rect_integral [0; 1; 3] [0; 1]
    (fun q => nth 0 (point flat q) 0 / dist (tlist target) (point flat q) * area flat q)) <=
  1 / (4 * PI) * (1 * (1 * 2) ^ 1 / INR (fact 1) * 1 / 1 + 4 * (7 * 3) / INR (fact 2) * (2 / 2) ^ 2) * (extent [0; 1; 3] * extent [0; 1]).
Proof.
  destruct (single_layer_potential_error trap 1 flatP flat [0; 1; 3] [0; 1] charge0 [] [] (fun _ y => nth 0 y 0) three 0 target 2 1 (7 * 3) 1 1 1
    lib_trap unit_grids) as (src & C & V & E1 & E2 & E3 & _ & H).
  - simpl; repeat split; lra.
  - simpl; repeat split; lra.
  - apply flat_ok.
  - apply three_open.
  - apply three_convex.
  - intros y Hy. apply flat_height in Hy. apply Hy.
  - discriminate.
  - intros t St Dt. eexists. split; [reflexivity|]. split; reflexivity.
  - lia.
  - reflexivity.
  - lra.
  - lra.
  - lra.
  - intros a b a' b' _ _. rewrite !flat_point, Rmult_1_l.
    exact (place_dist 2 0 [a; b] [a'; b'] ltac:(lia)).
  - intros q (a & b & -> & _). rewrite flat_area1 by reflexivity. split; [|lra]. rewrite flat_point. unfold target. rewrite tlist_tvec, dist3.
    rewrite <- sqrt_1 at 1. apply sqrt_le_1_alt. pose proof (pow2_ge_0 (0 - a)). pose proof (pow2_ge_0 (0 - b)). lra.
  - intros p _. change (Z.to_nat 0) with 0%nat. split; [|split].
    + apply (power_smooth 1 1 1). intros y _. ring.
    + apply linear_below.
    + unfold covered, first, final. cbn [map hd last].
      apply (smooth_layer (fun s => s) (fun _ => 1) (fun _ => 0) 0 0 1); try lra.
      * intros s. apply (is_derive_id (K := R_AbsRing)).
      * intros s. exact (is_derive_const (V := R_NormedModule) 1 s).
      * intros s Hs. rewrite Rabs_R0, Rabs_R1. split; [apply Rabs_le; lra|lra].
      * intros s t. rewrite flat_area1 by reflexivity. rewrite flat_point. unfold target. rewrite tlist_tvec, dist3. unfold inv_dist, Rdiv. cbn [nth].
        rewrite Rmult_1_r. do 3 f_equal. ring.
  - exists src, C, V. repeat (split; [assumption|]). exact (H [] ltac:(constructor)).
Qed.
(** charge y_0^3 on the unit cube, target (3, 3, 3) *)
Lemma cube_side k (b : bool) s t : (k < 3)%nat -> let v := if b then 1 else 0 in
  place k (side_value [0; 1/2; 1] [0; 1] [0; 1] k b) [s; t] = place k v [s; t] /\
  1 <= dist [3; 3; 3] (place k (side_value [0; 1/2; 1] [0; 1] [0; 1] k b) [s; t]) /\
  forall z, z / dist [3; 3; 3] (place k (side_value [0; 1/2; 1] [0; 1] [0; 1] k b) [s; t]) = z * inv_dist 3 3 (3 - v) s t.
Proof.
  intros Hk v. assert (E : side_value [0; 1/2; 1] [0; 1] [0; 1] k b = v).
  { destruct k as [|[|[|k]]]; try lia; destruct b; reflexivity. }
  rewrite E. split; [reflexivity|].
  assert (E' : dist [3; 3; 3] (place k v [s; t]) = sqrt ((s - 3) ^ 2 + (t - 3) ^ 2 + (3 - v) ^ 2)).
  { destruct k as [|[|[|k]]]; try lia; unfold place; cbn [nth]; rewrite dist3; f_equal; ring. }
  rewrite E'. split; [|reflexivity]. rewrite <- sqrt_1 at 1. apply sqrt_le_1_alt. apply height_sq. unfold v. destruct b; lra.
Qed.
Example box_error_case : exists c F r, Cuboid [0; 1/2; 1] [0; 1] [0; 1] = Ok c /\
  single_layer_potential3 c (fun t => Ok (tsc (nth 0 (tlist t) 0 ^ 3))) (SubInt 4) trap = Ok F /\ F (tvec [3; 3; 3]) = Ok r /\
  Rabs (entry r [] - box_potential [0; 1/2; 1] [0; 1] [0; 1] (fun y => nth 0 y 0 ^ 3) [3; 3; 3] / (4 * PI)) <=
  (6 * 1 ^ 3 / 6 / 1 + 4 * (7 * 6) / INR (fact 2) * (1 / INR 4 / 2) ^ 2) * box_area [0; 1/2; 1] [0; 1] [0; 1] / (4 * PI).
Proof.
  assert (EC : exists c, Cuboid [0; 1/2; 1] [0; 1] [0; 1] = Ok c) 
    by (destruct (cuboid_constructor [0; 1/2; 1] [0; 1] [0; 1]) as (H & _); destruct H as (c & E & _); eauto;
        split; [|split; apply unit_grid]; split; [simpl; lia|simpl; lra]).
  destruct EC as [c EC]. exists c.
  destruct (box_potential_error trap 1 [0; 1/2; 1] [0; 1] [0; 1] c 4 (fun t => Ok (tsc (nth 0 (tlist t) 0 ^ 3))) (fun y => nth 0 y 0 ^ 3)
    (fun _ _ => three) (tvec [3; 3; 3]) 1 6 (7 * 6) 1 lib_trap EC) as (F & r & E1 & E2 & E3 & B).
  - lia.
  - exists three. split; [apply three_open|]. split.
    + intros y (k & b & _ & q & _ & ->). destruct k as [|[|k]]; reflexivity.
    + intros t St _. eexists. split; [reflexivity|]. split; reflexivity.
  - simpl; repeat split; lra.
  - simpl; repeat split; lra.
  - simpl; repeat split; lra.
  - intros k b Hk. split; [apply three_open|]. split; [apply three_convex|]. split; [|split; [|apply cube_below]].
    + intros y (q & _ & ->). destruct k as [|[|k]]; reflexivity.
    + apply (power_smooth 3 1 3). intros y _. ring.
  - reflexivity.
  - lra.
  - lra.
  - intros y (k & b & Hk & q & (s & t & -> & _) & ->). rewrite tlist_tvec.
    destruct (cube_side k b s t Hk) as (_ & H & _). exact H.
  - intros k b Hk. rewrite tlist_tvec.
    replace (covered [axis_grid [0; 1/2; 1] [0; 1] [0; 1] (first_axis k); axis_grid [0; 1/2; 1] [0; 1] [0; 1] (second_axis k)]) with [(0, 1); (0, 1)]
      by (destruct k as [|[|[|k]]]; try lia; reflexivity).
    destruct k as [|k].
    + apply (smooth_layer (fun _ => (if b then 1 else 0) ^ 3) (fun _ => 0) (fun _ => 0) 3 3 (3 - if b then 1 else 0)); try (destruct b; lra).
      * intros s. exact (is_derive_const (V := R_NormedModule) _ s).
      * intros s. exact (is_derive_const (V := R_NormedModule) 0 s).
      * intros s _. rewrite Rabs_R0. split; [apply Rabs_le; destruct b; lra|lra].
      * intros s t. destruct (cube_side 0 b s t Hk) as (E & _ & ->). rewrite E. reflexivity.
    + apply (smooth_layer (fun s => s ^ 3) (fun s => 3 * s ^ 2) (fun s => 6 * s) 3 3 (3 - if b then 1 else 0)); try (destruct b; lra).
      * intros s. auto_derive; auto. ring.
      * intros s. auto_derive; auto. ring.
      * intros s Hs. assert (0 <= s ^ 2 <= 1) by nra. assert (0 <= s ^ 3 <= 1) by (replace (s ^ 3) with (s * s ^ 2) by ring; nra).
        split; [|split]; apply Rabs_le; lra.
      * intros s t. destruct (cube_side (S k) b s t Hk) as (E & _ & ->). rewrite E.
        destruct k as [|[|k]]; try lia; reflexivity.
  - exists F, r. rewrite tlist_tvec in B. auto.
Qed.
