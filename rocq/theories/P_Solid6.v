(** Proofs about solids, part 6: the boundary separates inside from outside. *)
From Coq Require Import Ranalysis5.
From Coquelicot Require Import Coquelicot.
From Verif Require Import Base BaseFacts M_Quat S_Quat P_Quat M_RFun S_RFun P_RFun1 P_Vec P_RFun2 M_Solid S_Solid
  P_Solid1 P_Solid2 P_Solid3 P_Solid4 P_Solid5.

Lemma near_all (P : solid -> list R -> Prop) l x :
  Forall (fun t => exists d, 0 < d /\ forall y, length y = length x -> edist y x < d -> P t y) l ->
  exists d, 0 < d /\ forall y, length y = length x -> edist y x < d -> Forall (fun t => P t y) l.
Proof.
  induction 1 as [|t l (d & Hd & B) _ (d' & Hd' & B')]; [exists 1; split; [lra|constructor]|].
  exists (Rmin d d'). split; [apply Rmin_pos; auto|]. intros y Hy L. constructor.
  - apply B; auto. eapply Rlt_le_trans; [exact L|apply Rmin_l].
  - apply B'; auto. eapply Rlt_le_trans; [exact L|apply Rmin_r].
Qed.

Lemma regular_near (Sys : rsys -> Prop) t : forall n x, good Sys n t -> length x = n -> regular t x ->
  exists d, 0 < d /\ forall y, length y = length x -> edist y x < d -> regular t y.
Proof.
  induction t using solid_rect'; intros n x G Hx Rg; simpl in G, Rg |- *.
  - destruct p; simpl in *; try (exists 1; split; [lra|auto]; fail).
    destruct G as [G1 G2]. apply (ellipsoid_noncentre axes x); auto. congruence.
  - destruct G as [G1 G2]. destruct (IHt _ _ G2 (back_length n m x G1 Hx) Rg) as (d & Hd & B).
    destruct (back_lipschitz n m G1) as (K & HK & L). exists (d / K). split; [apply Rdiv_lt_0_compat; auto|].
    intros y Hy E. apply B; [rewrite !(back_length n m) by congruence; reflexivity|].
    eapply Rle_lt_trans; [apply L; congruence|]. replace d with (K * (d / K)) by (field; lra).
    apply Rmult_lt_compat_l; auto.
  - eauto.
  - destruct G as (_ & G1 & G2). destruct Rg as [R1 R2].
    destruct (IHt1 n x G1 Hx R1) as (d & Hd & B). destruct (IHt2 n x G2 Hx R2) as (d' & Hd' & B').
    exists (Rmin d d'). split; [apply Rmin_pos; auto|]. intros y Hy L. split.
    + apply B; auto. eapply Rlt_le_trans; [exact L|apply Rmin_l].
    + apply B'; auto. eapply Rlt_le_trans; [exact L|apply Rmin_r].
  - destruct G as (_ & _ & G). rewrite fold_and in G, Rg.
    destruct (near_all regular l x) as (d & Hd & B).
    + rewrite Forall_forall in *. intros t It. eapply H; eauto.
    + exists d. split; auto. intros y Hy L. rewrite fold_and. auto.
  - destruct G as (_ & _ & G). rewrite fold_and in G, Rg.
    destruct (near_all regular l x) as (d & Hd & B).
    + rewrite Forall_forall in *. intros t It. eapply H; eauto.
    + exists d. split; auto. intros y Hy L. rewrite fold_and. auto.
Qed.

Lemma dotR_self_norm g : dotR g g = normR g * normR g.
Proof. rewrite dotR_self, normR_sq. reflexivity. Qed.

Lemma vsub_step (x g : list R) (t : R) : length g = length x -> vsub (vadd x (vscal t g)) x = vscal t g.
Proof.
  revert x. induction g as [|b g IH]; intros [|a x] H; simpl in H; try lia; [reflexivity|].
  unfold vsub, vadd, vscal in *. simpl. f_equal; [ring|]. apply IH. lia.
Qed.
Lemma step_length (x g : list R) (t : R) : length g = length x -> length (vadd x (vscal t g)) = length x.
Proof. intros H. unfold vadd, vscal. rewrite map2_length, map_length, H. lia. Qed.

(** moving along a unit gradient changes the sign *)
Lemma unit_crossing f x g : has_gradient f x 0 g -> normR g = 1 -> exists d, 0 < d /\ forall t, 0 < t < d ->
  (exists v, f (A1 (vadd x (vscal t g))) = Ok v /\ 0 < v) /\ (exists v, f (A1 (vadd x (vscal (- t) g))) = Ok v /\ v < 0).
Proof.
  intros (V & Lg & H) N. destruct (H (1 / 2) ltac:(lra)) as (d & Hd & B). exists d. split; auto. intros t Ht.
  assert (C : forall u, Rabs u < d -> exists w, f (A1 (vadd x (vscal u g))) = Ok w /\ Rabs (w - u) <= 1 / 2 * Rabs u).
  { intros u Hu. destruct (B (vadd x (vscal u g))) as (w & E & Q).
    - apply step_length; auto.
    - unfold edist. rewrite vsub_step by auto. unfold vscal. rewrite normR_scal, N. lra.
    - exists w. split; auto. revert Q. unfold edist. rewrite vsub_step by auto. unfold vscal at 2. rewrite normR_scal, N, Rmult_1_r.
      replace (dotR g (vscal u g)) with u; [rewrite Rminus_0_r; auto|].
      rewrite (dotR_comm g), dotR_vscal, dotR_self_norm, N. ring. }
  destruct (C t) as (w & E & Q); [rewrite Rabs_right; lra|].
  destruct (C (- t)) as (w' & E' & Q'); [rewrite Rabs_Ropp, Rabs_right; lra|].
  rewrite Rabs_Ropp in Q'. rewrite (Rabs_right t) in Q, Q' by lra. split.
  - exists w. split; auto. apply Rabs_le_between in Q. lra.
  - exists w'. split; auto. apply Rabs_le_between in Q'. lra.
Qed.

Lemma solid_crossing t n x f g : good normalized_system n t -> length x = n -> regular t x -> build t = Ok f ->
  has_gradient f x 0 g -> normR g = 1 -> exists d, 0 < d /\ forall u, 0 < u < d ->
    inside t (vadd x (vscal u g)) /\ outside t (vadd x (vscal (- u) g)).
Proof.
  intros G Hx Rg B HG N. assert (Lg : length g = length x) by apply HG.
  destruct (unit_crossing f x g HG N) as (d & Hd & C). destruct (regular_near _ t n x G Hx Rg) as (d' & Hd' & R').
  exists (Rmin d d'). split; [apply Rmin_pos; auto|]. intros u Hu.
  assert (U1 : u < d) by (eapply Rlt_le_trans; [apply Hu|apply Rmin_l]).
  assert (U2 : u < d') by (eapply Rlt_le_trans; [apply Hu|apply Rmin_r]).
  assert (RR : forall w, Rabs w < d' -> regular t (vadd x (vscal w g))).
  { intros w Hw. apply R'; [apply step_length; auto|]. unfold edist. rewrite vsub_step by auto. unfold vscal.
    rewrite normR_scal, N. lra. }
  destruct (solid_signed t n (good_mono _ _ t cont_sign n (good_mono _ _ t norm_cont n G))) as (f' & B' & D).
  assert (f' = f) by congruence. subst f'.
  destruct (C u ltac:(lra)) as ((v & E & P) & (v' & E' & P')). split.
  - destruct (D (vadd x (vscal u g))) as (w & Ew & Pw & Nw).
    + rewrite step_length; auto.
    + apply RR. rewrite Rabs_right; lra.
    + apply Pw. congruence.
  - destruct (D (vadd x (vscal (- u) g))) as (w & Ew & Pw & Nw).
    + rewrite step_length; auto.
    + apply RR. rewrite Rabs_Ropp, Rabs_right; lra.
    + apply Nw. congruence.
Qed.

(** *** Continuous paths *)
Lemma path_continuous f p v s : (forall u, length (p u) = length (p s)) ->
  (forall e, 0 < e -> exists d, 0 < d /\ forall u, Rabs (u - s) < d -> edist (p u) (p s) < e) ->
  continuous_adf f (p s) v -> continuity_pt (fun u => match f (A1 (p u)) with Ok v => v | Err _ => 0 end) s.
Proof.
  intros L C (V & H). intros e He. destruct (H e He) as (d & Hd & B). destruct (C d Hd) as (d' & Hd' & B').
  exists d'. split; auto. intros u [_ Hu]. simpl in *. unfold R_dist in *.
  destruct (B (p u) (L u) (B' u Hu)) as (w & E & Q). rewrite E, V. exact Q.
Qed.

Lemma solid_path t n f p : good continuous_system n t -> build t = Ok f ->
  (forall s, length (p s) = n) ->
  (forall s e, 0 < e -> exists d, 0 < d /\ forall u, Rabs (u - s) < d -> edist (p u) (p s) < e) ->
  (forall s, 0 <= s <= 1 -> regular t (p s)) ->
  (inside t (p 0) /\ outside t (p 1)) \/ (outside t (p 0) /\ inside t (p 1)) ->
  exists s, 0 < s < 1 /\ f (A1 (p s)) = Ok 0.
Proof.
  intros G B L C Rg H.
  set (h := fun u => match f (A1 (p u)) with Ok v => v | Err _ => 0 end).
  assert (S : forall s, 0 <= s <= 1 -> f (A1 (p s)) = Ok (h s) /\ (0 < h s <-> inside t (p s)) /\ (h s < 0 <-> outside t (p s)) /\ continuity_pt h s).
  { intros s Hs. destruct (solid_status t n (p s) f G (L s) (Rg s Hs) B) as (v & Cv & Pv & Nv).
    assert (E : h s = v) by (unfold h; destruct Cv as [E _]; rewrite E; reflexivity). rewrite E.
    split; [apply Cv|]. split; [exact Pv|]. split; [exact Nv|]. eapply path_continuous; eauto. intros; rewrite !L; auto. }
  assert (Z : forall s, 0 <= s <= 1 -> h s = 0 -> (inside t (p 0) \/ outside t (p 0)) -> (inside t (p 1) \/ outside t (p 1)) ->
    exists s, 0 < s < 1 /\ f (A1 (p s)) = Ok 0).
  { intros s Hs E Q0 Q1. exists s. destruct (S s Hs) as (Ev & _). rewrite Ev, E. split; auto.
    destruct (S 0 ltac:(lra)) as (_ & A1 & A2 & _). destruct (S 1 ltac:(lra)) as (_ & B1 & B2 & _).
    assert (s <> 0) by (intros ->; destruct Q0 as [Q|Q]; [apply A1 in Q|apply A2 in Q]; lra).
    assert (s <> 1) by (intros ->; destruct Q1 as [Q|Q]; [apply B1 in Q|apply B2 in Q]; lra). lra. }
  destruct (S 0 ltac:(lra)) as (_ & A1 & A2 & _). destruct (S 1 ltac:(lra)) as (_ & B1 & B2 & _).
  destruct H as [[I O]|[O I]].
  - pose proof (proj2 A1 I) as P0. pose proof (proj2 B2 O) as P1.
    destruct (IVT_interv (fun u => - h u) 0 1) as (s & Hs & E); [|lra|lra|lra|apply (Z s); auto; lra].
    intros a Ha. apply continuity_pt_opp. apply S. auto.
  - pose proof (proj2 A2 O) as P0. pose proof (proj2 B1 I) as P1.
    destruct (IVT_interv h 0 1) as (s & Hs & E); [|lra|lra|lra|apply (Z s); auto; lra].
    intros a Ha. apply S. auto.
Qed.

(** *** A stretched sphere is not normalized *)
Lemma stretched_sphere : let t := Move (Stretch [2]) (Prim (Sphere 1)) in
  exists f, build t = Ok f /\ good normalized_system 1 t /\ regular t [2] /\
    has_gradient f [2] 0 [- (1 / 2)] /\ forall g, has_gradient f [2] 0 g -> normR g = 1 / 2.
Proof.
  intros t. assert (Gt : good normalized_system 1 t).
  { simpl. repeat split; auto; try lra. }
  destruct (move_eval 1 (Stretch [2]) (sphere 1)) as (f & B & V); [apply Gt|].
  exists f. split; [exact B|]. split; auto. split; [simpl; auto|].
  assert (E : forall y, f (A1 [y]) = Ok ((1 - y * y / 4) / 2)).
  { intros y. rewrite V by reflexivity. simpl back. rewrite sphere_value by lra. simpl. f_equal.
    unfold quot. simpl. rewrite sumsq_cons. change (sumsq []) with 0. field. }
  assert (N : forall y, edist [y] [2] = Rabs (y - 2)).
  { intros y. unfold edist, vsub. simpl. rewrite normR_sumsq, sumsq_cons. change (sumsq []) with 0. rewrite Rplus_0_r.
    apply sqrt_Rsqr_abs. }
  assert (L1 : forall y : list R, length y = 1%nat -> exists c, y = [c]).
  { intros [|c [|? ?]] H; simpl in H; try lia. eauto. }
  split.
  - split; [rewrite E; f_equal; lra|]. split; auto. intros e He. exists e. split; auto. intros y Hy Hd.
    destruct (L1 y Hy) as (c & ->). rewrite N in *. eexists. split; [apply E|].
    unfold vsub. simpl. rewrite dotR_cons. change (dotR [] []) with 0.
    replace ((1 - c * c / 4) / 2 - 0 - (- (1 / 2) * (c - 2) + 0)) with (- (1 / 8) * ((c - 2) * (c - 2))) by field.
    rewrite !Rabs_mult. rewrite Rabs_left by lra. pose proof (Rabs_pos (c - 2)). nra.
  - intros g (_ & Lg & H). destruct (L1 g Lg) as (b & ->).
    assert (Hb : b = - (1 / 2)).
    { destruct (Req_dec b (- (1 / 2))) as [|Nb]; auto. exfalso.
      set (k := Rabs (b + 1 / 2)). assert (Hk : 0 < k) by (apply Rabs_pos_lt; lra).
      destruct (H (k / 4) ltac:(lra)) as (d & Hd & Q). set (u := Rmin (d / 2) k).
      assert (Hu : 0 < u) by (apply Rmin_pos; lra). assert (U1 : u <= d / 2) by apply Rmin_l. assert (U2 : u <= k) by apply Rmin_r.
      destruct (Q [2 + u] eq_refl) as (w & Ew & Qw).
      - rewrite N. replace (2 + u - 2) with u by ring. rewrite Rabs_right; lra.
      - rewrite E in Ew. injection Ew as <-. rewrite N in Qw. unfold vsub in Qw. simpl in Qw.
        rewrite dotR_cons in Qw. change (dotR [] []) with 0 in Qw. replace (2 + u - 2) with u in Qw by ring.
        replace ((1 - (2 + u) * (2 + u) / 4) / 2 - 0 - (b * u + 0)) with (- (u * ((b + 1 / 2) + u / 8))) in Qw by field.
        rewrite Rabs_Ropp, Rabs_mult, (Rabs_right u) in Qw by lra.
        assert (k - u / 8 <= Rabs (b + 1 / 2 + u / 8)).
        { pose proof (Rabs_triang (b + 1 / 2 + u / 8) (- (u / 8))) as T. rewrite Rabs_Ropp, (Rabs_right (u / 8)) in T by lra.
          replace (b + 1 / 2 + u / 8 + - (u / 8)) with (b + 1 / 2) in T by ring. fold k in T. lra. }
        nra. }
    rewrite Hb, normR_sumsq, sumsq_cons. change (sumsq []) with 0.
    replace (- (1 / 2) * - (1 / 2) + 0) with ((1 / 2) * (1 / 2)) by field. apply sqrt_square. lra.
Qed.
