(** Proofs about surface_integral.py, part 1: arrays, Jacobians on open sets, the
    quadrature over a patch and its elements. *)
From Coquelicot Require Import Coquelicot.
From Verif Require Import Base BaseFacts P_Vec M_Tensor M_Calc S_Calc P_AD P_Calc P_Calc2 S_Model.
From Verif Require Import M_Integrate S_Integrate P_Integrate1 P_Integrate2 P_Integrate3 T_Integrate M_Surface S_Surface.

(** ** arrays *)
Lemma Forall2_nth_error {A B} (P : A -> B -> Prop) l m k a : Forall2 P l m -> nth_error l k = Some a ->
  exists b, nth_error m k = Some b /\ P a b.
Proof.
  intros F. revert k. induction F as [|x y l m Pxy F IH]; intros [|k] E; try discriminate.
  - injection E as <-. exists y. auto.
  - apply IH. exact E.
Qed.

Lemma vmapT_ok {A} (f : A -> res tensor) xs s (Q : A -> tensor -> Prop) : xs <> [] ->
  (forall x, In x xs -> exists y, f x = Ok y /\ shape y = s /\ Q x y) ->
  exists Y, vmapT f xs = Ok Y /\ shape Y = length xs :: s /\
    forall k x, nth_error xs k = Some x -> exists y, f x = Ok y /\ shape y = s /\ Q x y /\
      forall p, entry Y (k :: p) = entry y p.
Proof.
  intros Ne H. unfold vmapT.
  destruct (sequence_map_ok f xs (fun x y => f x = Ok y /\ shape y = s /\ Q x y)) as (ys & -> & F).
  { intros x Hx. destruct (H x Hx) as (y & E & S & q). eauto. }
  cbn [bind]. pose proof (Forall2_length _ _ _ F) as L.
  destruct ys as [|y0 ys']; [destruct xs; [congruence|discriminate L]|]. remember (y0 :: ys') as ys eqn:Eys.
  assert (Hs : forall y, In y ys -> shape y = s).
  { clear -F. induction F as [|x y l m (_ & Hy & _) F IH]; cbn; [tauto|]. intros z [<-|Hz]; auto. }
  assert (H0 : shape y0 = s) by (apply Hs; subst ys; left; auto).
  replace (forallb (fun y => list_eqb (shape y) (shape y0)) ys) with true.
  2:{ symmetry. apply forallb_forall. intros y Hy. rewrite H0, (Hs y Hy). apply list_eqb_refl. }
  eexists. split; [reflexivity|]. cbn [shape entry]. rewrite H0, <- L. split; [reflexivity|].
  intros k x Hk. destruct (Forall2_nth_error _ _ _ _ _ F Hk) as (y & Ey & E & S & q). exists y.
  repeat split; auto. intros p. cbn [hd tl]. rewrite (nth_error_nth _ _ y0 Ey). reflexivity.
Qed.

Lemma inside_app s t p q : inside s p -> inside t q -> inside (s ++ t) (p ++ q).
Proof. intros H1 H2. apply Forall2_app; auto. Qed.
Lemma inside_length s p : inside s p -> length p = length s.
Proof. intros H. eapply Forall2_length; eauto. Qed.
Lemma inside_snoc s n pq : inside (s ++ [n]) pq -> exists p i, pq = p ++ [i] /\ inside s p /\ (i < n)%nat.
Proof.
  unfold inside. intros H. apply Forall2_app_inv_r in H. destruct H as (p & r & H1 & H2 & E).
  inversion H2 as [|i ? r' ? Hi H3]; subst. inversion H3; subst. exists p, i. auto.
Qed.

Lemma nprod_app s t : nprod (s ++ t) = (nprod s * nprod t)%nat.
Proof.
  induction s as [|a s IH]; [cbn; unfold nprod; lia|]. cbn [app].
  change (nprod (a :: s ++ t)) with (a * nprod (s ++ t))%nat. change (nprod (a :: s)) with (a * nprod s)%nat. rewrite IH. lia.
Qed.
Lemma unravel_ravel s p : inside s p -> unravel s (ravel_idx s p) = p /\ (ravel_idx s p < nprod s)%nat.
Proof.
  induction 1 as [|i n p s Hi H [IH1 IH2]]; [cbn; auto|]. cbn [unravel ravel_idx nprod fold_right].
  fold (nprod s). split.
  - rewrite Nat.div_add_l by lia. rewrite (Nat.div_small (ravel_idx s p)) by auto.
    rewrite (Nat.add_comm (i * nprod s)), Nat.mod_add by lia. rewrite Nat.mod_small by auto. rewrite IH1. f_equal. lia.
  - nia.
Qed.
Lemma unravel_inside s k : (k < nprod s)%nat -> inside s (unravel s k) /\ ravel_idx s (unravel s k) = k.
Proof.
  revert k. induction s as [|n s IH]; intros k Hk.
  - cbn in *. split; [constructor|lia].
  - cbn [nprod fold_right] in Hk. fold (nprod s) in Hk. cbn [unravel ravel_idx].
    assert (P0 : nprod s <> 0%nat) by lia.
    destruct (IH (k mod nprod s)%nat) as (I1 & I2). { apply Nat.mod_upper_bound; auto. }
    split.
    + constructor; auto. apply Nat.div_lt_upper_bound; auto. lia.
    + rewrite I2. rewrite (Nat.div_mod k (nprod s)) at 3 by auto. lia.
Qed.
Lemma ravel_app s t p q : length p = length s ->
  ravel_idx (s ++ t) (p ++ q) = (ravel_idx s p * nprod t + ravel_idx t q)%nat.
Proof.
  revert p. induction s as [|n s IH]; intros [|i p] L; try discriminate L; [reflexivity|].
  cbn [app ravel_idx]. rewrite IH by (cbn in L; lia). rewrite nprod_app. lia.
Qed.
Lemma unravel_app s t p m : inside s p -> (m < nprod t)%nat ->
  unravel (s ++ t) (ravel_idx s p * nprod t + m) = p ++ unravel t m.
Proof.
  intros Hp Hm. destruct (unravel_inside t m Hm) as (I1 & I2).
  rewrite <- I2 at 1. rewrite <- ravel_app by (apply inside_length; auto).
  apply unravel_ravel. apply inside_app; auto.
Qed.
Lemma reshape_last s t v p m : shape v = s ++ t -> inside s p -> (m < nprod t)%nat ->
  entry (treshape (s ++ [nprod t]) v) (p ++ [m]) = entry v (p ++ unravel t m).
Proof.
  intros Sv Hp Hm. cbn [treshape entry]. rewrite Sv, ravel_app by (apply inside_length; auto).
  rewrite <- (unravel_app s t p m Hp Hm). cbn [ravel_idx nprod fold_right]. do 2 f_equal. fold (nprod t). lia.
Qed.
Lemma reshape_first t rest v p m : shape v = t ++ rest -> inside rest p -> (m < nprod t)%nat ->
  entry (treshape (nprod t :: rest) v) (m :: p) = entry v (unravel t m ++ p).
Proof.
  intros Sv Hp Hm. cbn [treshape entry]. rewrite Sv. cbn [ravel_idx].
  destruct (unravel_inside t m Hm) as (I1 & I2). rewrite <- I2 at 1.
  rewrite <- ravel_app by (apply inside_length; auto). f_equal. apply unravel_ravel. apply inside_app; auto.
Qed.
Lemma travel_entry a m : entry (travel a) [m] = entry a (unravel (shape a) m).
Proof. reflexivity. Qed.

(** ** Jacobians on open sets *)
Lemma repD_weaken n (D D' : list R -> Prop) s F f : (forall q, D' q -> D q) -> repD n D s F f -> repD n D' s F f.
Proof. intros H HF t Ht Dt. apply HF; auto. Qed.
Lemma repT_repD n D s F f : repT n s F f -> repD n D s F f.
Proof. intros H t Ht _. apply H; auto. Qed.
Lemma repD_entry_of n D s F f t p : repD n D s F f -> shape t = [n] -> D (tlist t) -> inside s p ->
  entry_of (F t) p = f p (tlist t).
Proof. intros H Ht Dt Hp. destruct (H t Ht Dt) as (y & -> & _ & E). apply E; auto. Qed.

Lemma jacfwd_repD n D s F f : openset n D -> repD n D s F f ->
  repD n D (s ++ [n]) (jacfwd F) (fun pq => pd (last pq 0%nat) (f (removelast pq))).
Proof.
  intros HO H t Ht Dt. destruct (H t Ht Dt) as (y & E & S & V). unfold jacfwd. rewrite E. cbn [bind].
  eexists. split; [reflexivity|]. cbn [shape entry]. rewrite S, Ht. split; [reflexivity|].
  intros pq Hpq. destruct (inside_snoc _ _ _ Hpq) as (p & i & -> & Hp & Hi).
  rewrite last_last, removelast_last.
  rewrite <- (inside_length _ _ Hp), firstn_app, firstn_all, skipn_app, skipn_all, Nat.sub_diag. cbn [firstn skipn app].
  rewrite app_nil_r. rewrite <- (Derive_unit (f p)).
  destruct (HO _ Dt) as (L & d & Hd & Hn). apply Derive_ext_loc. exists (mkposreal d Hd).
  intros h Hh. unfold ball in Hh; cbn in Hh. unfold AbsRing_ball, abs, minus, plus, opp in Hh; cbn in Hh.
  rewrite Ropp_0, Rplus_0_r in Hh.
  rewrite (repD_entry_of n D s F f); auto.
  - rewrite (tlist_unit _ _ n) by auto. reflexivity.
  - rewrite (tlist_unit _ _ n) by auto. apply Hn. apply near_upd; [apply near_refl; auto|].
    assert (Eh : forall a b : R, a + b - a = b) by (intros; ring). rewrite Eh. auto.
Qed.

(** ** quadrature *)
Lemma tlist_tvec l : tlist (tvec l) = l.
Proof.
  apply vec_ext; [unfold tlist; rewrite map_length, seq_length; reflexivity|].
  intros i Hi. unfold tlist in Hi. rewrite map_length, seq_length in Hi. cbn [shape tvec hd] in Hi.
  rewrite (tlist_nth _ (length l)) by auto. reflexivity.
Qed.

Lemma sumR_seq_map2 (W : list R) (X : list (list R)) (g : nat -> R) (h : list R -> R) :
  length W = length X -> (forall k x, nth_error X k = Some x -> g k = h x) ->
  sumR (map (fun k => nth k W 0 * g k) (seq 0 (length W))) = sumR (map2 (fun w x => w * h x) W X).
Proof.
  revert X g. induction W as [|w W IH]; intros [|x X] g L H; try discriminate L; [reflexivity|].
  cbn [length seq map map2 nth]. rewrite <- seq_shift, map_map. change (sumR (?a :: ?b)) with (a + sumR b).
  rewrite (H 0%nat x eq_refl). f_equal. rewrite <- (IH X (fun k => g (S k))).
  - reflexivity.
  - cbn in L. lia.
  - intros k z Hk. apply H. exact Hk.
Qed.

Lemma meshgrid2_in a b q : In q (meshgrid [a; b]) -> exists x y, q = [x; y] /\ In x a /\ In y b.
Proof.
  intros H. apply in_meshgrid in H. inversion H as [|x ? q' ? Hx H1]; subst.
  inversion H1 as [|y ? q'' ? Hy H2]; subst. inversion H2; subst. eauto.
Qed.

Lemma tintegrate_ok method n w f g s u v : sound_rule method n w -> (2 <= length u)%nat -> (2 <= length v)%nat ->
  nondecreasing u -> nondecreasing v -> repD 2 (rect u v) s f g ->
  exists T ru rv, tintegrate f u v method = Ok T /\ shape T = s /\ method u = Ok ru /\ method v = Ok rv /\
    forall p, inside s p -> entry T p = iterated [ru; rv] (g p).
Proof.
  intros S Hu Hv Nu Nv Hf. unfold tintegrate.
  destruct (sound_rules_of _ _ _ [u; v] S ltac:(repeat constructor; auto)) as (rs & HR).
  inversion HR as [|? ru ? rs' (E1 & L1 & N1) HR']; subst. inversion HR' as [|? rv ? rs'' (E2 & L2 & N2) HR'']; subst.
  inversion HR''; subst. rewrite E1. cbn [bind]. rewrite E2. cbn [bind].
  assert (Bu : all_between (first u) (final u) (snd ru)).
  { eapply (sr_between _ _ _ S); eauto. rewrite E1, <- surjective_pairing; reflexivity. }
  assert (Bv : all_between (first v) (final v) (snd rv)).
  { eapply (sr_between _ _ _ S); eauto. rewrite E2, <- surjective_pairing; reflexivity. }
  assert (Bal : balanced [ru; rv]) by (repeat constructor; auto).
  pose proof (meshgrid_length _ Bal) as LM. cbn [map] in LM.
  destruct (vmapT_ok (fun p => f (tvec p)) (meshgrid [snd ru; snd rv]) s
              (fun q y => forall p, inside s p -> entry y p = g p q)) as (F & EF & SF & VF).
  - intros E0. apply (mesh_nonempty _ _ _ HR). apply length_zero_iff_nil. rewrite map_length. cbn [map].
    rewrite LM, E0. reflexivity.
  - intros q Hq. destruct (meshgrid2_in _ _ _ Hq) as (a & b & -> & Ha & Hb).
    assert (RT : rect u v [a; b]).
    { exists a, b. split; auto. unfold all_between in Bu, Bv. rewrite Forall_forall in Bu, Bv. auto. }
    destruct (Hf (tvec [a; b]) eq_refl) as (y & Ey & Sy & Vy); [rewrite tlist_tvec; auto|].
    exists y. rewrite tlist_tvec in Vy. auto.
  - rewrite EF. cbn [bind]. rewrite map_length, LM, Nat.eqb_refl.
    eexists; exists ru, rv. split; [reflexivity|]. split; [cbn [shape]; rewrite SF; reflexivity|]. split; auto. split; auto.
    intros p Hp. cbn [entry].
    assert (L2' : length (map prodR (meshgrid [fst ru; fst rv])) = length (meshgrid [snd ru; snd rv]))
      by (rewrite map_length; auto).
    rewrite <- LM.
    rewrite <- (map_length prodR (meshgrid [fst ru; fst rv])).
    rewrite (sumR_seq_map2 _ (meshgrid [snd ru; snd rv]) (fun k => entry F (k :: p)) (g p)); auto.
    + exact (wsum_meshgrid [ru; rv] (g p) Bal ltac:(cbn; lia)).
    + intros k x Hk. destruct (VF k x Hk) as (y & _ & _ & Q & Ent). rewrite Ent. apply Q; auto.
Qed.

Lemma rect_tlist u v t : shape t = [2%nat] -> rect u v (tlist t) -> length (tlist t) = 2%nat.
Proof. intros H _. apply tlist_length; auto. Qed.

Lemma tnorm3 c : shape c = [3%nat] ->
  tnorm c = sqrt (entry c [0%nat] ^ 2 + entry c [1%nat] ^ 2 + entry c [2%nat] ^ 2).
Proof.
  intros H. unfold tnorm. destruct (travel_1d c 3 H) as (_ & ->). unfold tlist. rewrite H. cbn [hd seq map].
  unfold normR. f_equal. unfold sumR. cbn [map fold_right]. ring.
Qed.
Lemma tlist3 c : shape c = [3%nat] -> tlist c = [entry c [0%nat]; entry c [1%nat]; entry c [2%nat]].
Proof. intros H. unfold tlist. rewrite H. reflexivity. Qed.

Lemma surface_integrand_rep P pf u v f args s G : parametrizes P pf u v ->
  repD 3 (on_surface pf u v) s (fun r => f (r :: args)) G ->
  repD 2 (rect u v) s (surface_integrand f P args) (fun p q => G p (point pf q) * area pf q).
Proof.
  intros (D & HO & HD & HP) Hf t Ht Rt. unfold surface_integrand.
  destruct (jacfwd_repD _ _ _ _ _ HO HP t Ht (HD _ Rt)) as (J & EJ & SJ & VJ). rewrite EJ. cbn [bind].
  rewrite SJ. cbn [list_eqb Nat.eqb app andb assert_ bind].
  unfold tcross. cbn [shape list_eqb Nat.eqb andb bind].
  destruct (HP t Ht (HD _ Rt)) as (r & Er & Sr & Vr). rewrite Er. cbn [bind].
  assert (Er' : tlist r = point pf (tlist t)).
  { rewrite (tlist3 r Sr). rewrite !Vr by (repeat constructor; lia). reflexivity. }
  destruct (Hf r Sr) as (y & Ey & Sy & Vy). { exists (tlist t). auto. }
  rewrite Ey. cbn [bind]. eexists. split; [reflexivity|]. split; [exact Sy|].
  intros p Hp. cbn [tmap entry]. rewrite Vy by auto. rewrite Er'. f_equal.
  rewrite tnorm3 by reflexivity. cbn [entry hd cross_at]. unfold area. cbn [app] in VJ.
  rewrite !VJ by (repeat constructor; lia). reflexivity.
Qed.

Lemma integrate_surface_ok method n w P pf u v f args s G : sound_rule method n w ->
  (2 <= length u)%nat -> (2 <= length v)%nat -> nondecreasing u -> nondecreasing v -> parametrizes P pf u v ->
  repD 3 (on_surface pf u v) s (fun r => f (r :: args)) G ->
  exists T ru rv, integrate_surface f P u v args method = Ok T /\ shape T = s /\ method u = Ok ru /\ method v = Ok rv /\
    forall p, inside s p -> entry T p = iterated [ru; rv] (fun q => G p (point pf q) * area pf q).
Proof.
  intros S Hu Hv Nu Nv HP Hf. unfold integrate_surface.
  eapply (tintegrate_ok method n w); eauto. apply surface_integrand_rep; auto.
Qed.

(** ** elements *)
Lemma cells_nth u i c : nth_error (cells u) i = Some c -> (S i < length u)%nat /\ c = (nth i u 0, nth (S i) u 0).
Proof.
  unfold cells. intros H. assert (L : (i < length (adjacent (fun a b : R => (a, b)) u))%nat).
  { apply nth_error_Some. congruence. }
  rewrite adjacent_length in L. assert (Hi : (S i < length u)%nat) by lia. split; auto.
  apply nth_error_nth with (d := (0, 0)) in H. rewrite <- H. apply adjacent_nth. auto.
Qed.
Lemma cells_some u i : (S i < length u)%nat -> nth_error (cells u) i = Some (nth i u 0, nth (S i) u 0).
Proof.
  intros Hi. destruct (nth_error (cells u) i) as [c|] eqn:E.
  - f_equal. apply cells_nth in E. apply E.
  - apply nth_error_None in E. unfold cells in E. rewrite adjacent_length in E. lia.
Qed.
Lemma cells_length u : length (cells u) = (length u - 1)%nat.
Proof. apply adjacent_length. Qed.
Lemma cells_nonempty u : (2 <= length u)%nat -> cells u <> [].
Proof. intros H E. assert (L : length (cells u) = 0%nat) by (rewrite E; auto). rewrite cells_length in L. lia. Qed.
Lemma nondecreasing_cell u i : nondecreasing u -> (S i < length u)%nat ->
  first u <= nth i u 0 /\ nth i u 0 <= nth (S i) u 0 /\ nth (S i) u 0 <= final u.
Proof.
  intros N Hi. pose proof (nondecreasing_first_final u N ltac:(lia)) as B. unfold all_between in B. rewrite Forall_forall in B.
  split; [apply B; apply nth_In; lia|]. split; [|apply B; apply nth_In; lia].
  clear B. revert i Hi. induction u as [|a u IH]; intros i Hi; [cbn in Hi; lia|].
  destruct u as [|b u]; [cbn in Hi; lia|]. destruct N as (Hab & N). destruct i as [|i]; [exact Hab|].
  apply (IH N i). cbn in *. lia.
Qed.
Lemma rect_cell u v i j q : nondecreasing u -> nondecreasing v -> (S i < length u)%nat -> (S j < length v)%nat ->
  rect (cell u i) (cell v j) q -> rect u v q.
Proof.
  intros Nu Nv Hi Hj (a & b & -> & Ha & Hb). exists a, b. split; auto. unfold cell, first, final in Ha, Hb. cbn in Ha, Hb.
  destruct (nondecreasing_cell u i Nu Hi) as (? & ? & ?). destruct (nondecreasing_cell v j Nv Hj) as (? & ? & ?).
  unfold first, final in *. split; lra.
Qed.
Lemma cell_nondecreasing u i : nondecreasing u -> (S i < length u)%nat -> nondecreasing (cell u i).
Proof. intros N Hi. cbn. split; auto. apply nondecreasing_cell; auto. Qed.
Lemma parametrizes_cell P pf u v i j : nondecreasing u -> nondecreasing v -> (S i < length u)%nat -> (S j < length v)%nat ->
  parametrizes P pf u v -> parametrizes P pf (cell u i) (cell v j).
Proof.
  intros Nu Nv Hi Hj (D & HO & HD & HP). exists D. split; auto. split; auto.
  intros q Hq. apply HD. eapply rect_cell; eauto.
Qed.
Lemma rect_middle u v i j : nondecreasing u -> nondecreasing v -> (S i < length u)%nat -> (S j < length v)%nat ->
  rect (cell u i) (cell v j) [middle u i; middle v j].
Proof.
  intros Nu Nv Hi Hj. exists (middle u i), (middle v j). split; auto. unfold cell, first, final, middle. cbn.
  destruct (nondecreasing_cell u i Nu Hi) as (? & ? & ?). destruct (nondecreasing_cell v j Nv Hj) as (? & ? & ?).
  split; lra.
Qed.

(** the centre of a cell is the image of its parameter midpoint *)
Lemma center_ok P pf u v i j : nondecreasing u -> nondecreasing v -> (S i < length u)%nat -> (S j < length v)%nat ->
  parametrizes P pf u v -> exists c, center P (nth i u 0, nth (S i) u 0) (nth j v 0, nth (S j) v 0) = Ok c /\
    shape c = [3%nat] /\ tlist c = point pf [middle u i; middle v j].
Proof.
  intros Nu Nv Hi Hj (D & HO & HD & HP). unfold center. cbn [fst snd].
  replace (nth (S i) u 0 + nth i u 0) with (nth i u 0 + nth (S i) u 0) by ring.
  replace (nth (S j) v 0 + nth j v 0) with (nth j v 0 + nth (S j) v 0) by ring.
  fold (middle u i). fold (middle v j).
  destruct (HP (tvec [middle u i; middle v j]) eq_refl) as (c & E & S & V).
  - rewrite tlist_tvec. apply HD. eapply (rect_cell u v i j); eauto. apply rect_middle; auto.
  - exists c. split; auto. split; auto. rewrite (tlist3 c S), !V by (repeat constructor; lia).
    rewrite tlist_tvec. reflexivity.
Qed.

Lemma midpoints_ok P pf u v : (2 <= length u)%nat -> (2 <= length v)%nat -> nondecreasing u -> nondecreasing v ->
  parametrizes P pf u v ->
  exists C, midpoints P u v = Ok C /\ shape C = [length u - 1; length v - 1; 3]%nat /\
    forall i j, (S i < length u)%nat -> (S j < length v)%nat ->
      tlist (trow (trow C i) j) = point pf [middle u i; middle v j].
Proof.
  intros Hu Hv Nu Nv HP. unfold midpoints.
  destruct (vmapT_ok (fun a => vmapT (fun b => center P a b) (cells v)) (cells u) [(length v - 1)%nat; 3%nat]
     (fun a y => forall i j, (S i < length u)%nat -> (S j < length v)%nat -> a = (nth i u 0, nth (S i) u 0) ->
        map (fun k => entry y [j; k]) (seq 0 3) = point pf [middle u i; middle v j])) as (C & EC & SC & VC).
  - apply cells_nonempty; auto.
  - intros a Ha. apply In_nth_error in Ha. destruct Ha as (i & Hia). destruct (cells_nth _ _ _ Hia) as (Hi & ->).
    destruct (vmapT_ok (fun b => center P (nth i u 0, nth (S i) u 0) b) (cells v) [3%nat]
       (fun b y => forall j, (S j < length v)%nat -> b = (nth j v 0, nth (S j) v 0) ->
          forall i, (nth i u 0, nth (S i) u 0) = (nth i u 0, nth (S i) u 0) -> True)) as (Y & EY & SY & VY).
    + apply cells_nonempty; auto.
    + intros b Hb. apply In_nth_error in Hb. destruct Hb as (j & Hjb). destruct (cells_nth _ _ _ Hjb) as (Hj & ->).
      destruct (center_ok P pf u v i j) as (c & Ec & Sc & Vc); auto. exists c. auto.
    + exists Y. split; auto. rewrite cells_length in SY. split; auto.
      intros i' j Hi' Hj Ea. destruct (VY j _ (cells_some v j Hj)) as (y & Ey & Sy & _ & Ent).
      destruct (center_ok P pf u v i j) as (c & Ec & Sc & Vc); auto. rewrite Ec in Ey. injection Ey as <-.
      cbn [seq map]. rewrite !Ent. rewrite (tlist3 c Sc) in Vc. rewrite Vc. f_equal.
      injection Ea as Ea1 Ea2. unfold middle. rewrite Ea1, Ea2. reflexivity.
  - exists C. split; auto. rewrite cells_length in SC. split; auto.
    intros i j Hi Hj. destruct (VC i _ (cells_some u i Hi)) as (y & Ey & Sy & Q & Ent).
    unfold tlist, trow. cbn [shape entry]. rewrite SC. cbn [tl hd]. rewrite <- (Q i j Hi Hj eq_refl).
    apply map_ext. intros k. apply Ent.
Qed.

Lemma elements_ok method n w P pf u v f args s G : sound_rule method n w ->
  (2 <= length u)%nat -> (2 <= length v)%nat -> nondecreasing u -> nondecreasing v -> parametrizes P pf u v ->
  (forall i j c, (S i < length u)%nat -> (S j < length v)%nat ->
     shape c = [3%nat] -> tlist c = point pf [middle u i; middle v j] ->
     repD 3 (on_surface pf u v) s (fun r => f (r :: c :: args)) (G (tlist c))) ->
  exists E, integrate_surface_elements f P u v args method = Ok E /\
    shape E = (length u - 1)%nat :: (length v - 1)%nat :: s /\
    forall i j, (S i < length u)%nat -> (S j < length v)%nat ->
      exists ru rv, method (cell u i) = Ok ru /\ method (cell v j) = Ok rv /\
        forall p, inside s p -> entry E (i :: j :: p) =
          iterated [ru; rv] (fun q => G (point pf [middle u i; middle v j]) p (point pf q) * area pf q).
Proof.
  intros SR Hu Hv Nu Nv HP Hf. unfold integrate_surface_elements.
  rewrite (proj2 (Nat.leb_le _ _) Hu), (proj2 (Nat.leb_le _ _) Hv). cbn [assert_ bind].
  set (val := fun i j T => exists ru rv, method (cell u i) = Ok ru /\ method (cell v j) = Ok rv /\
        forall p, inside s p -> entry T p =
          iterated [ru; rv] (fun q => G (point pf [middle u i; middle v j]) p (point pf q) * area pf q)).
  assert (One : forall i j, (S i < length u)%nat -> (S j < length v)%nat ->
    exists T, (c <- center P (nth i u 0, nth (S i) u 0) (nth j v 0, nth (S j) v 0) ;;
       integrate_surface f P [fst (nth i u 0, nth (S i) u 0); snd (nth i u 0, nth (S i) u 0)]
         [fst (nth j v 0, nth (S j) v 0); snd (nth j v 0, nth (S j) v 0)] (c :: args) method) = Ok T /\
      shape T = s /\ val i j T).
  { intros i j Hi Hj. destruct (center_ok P pf u v i j) as (c & Ec & Sc & Vc); auto. rewrite Ec. cbn [bind fst snd].
    change [nth i u 0; nth (S i) u 0] with (cell u i). change [nth j v 0; nth (S j) v 0] with (cell v j).
    destruct (integrate_surface_ok method n w P pf (cell u i) (cell v j) f (c :: args) s (G (tlist c)))
      as (T & ru & rv & ET & ST & E1 & E2 & VT); auto.
    - apply cell_nondecreasing; auto.
    - apply cell_nondecreasing; auto.
    - apply parametrizes_cell; auto.
    - eapply repD_weaken; [|eapply Hf; [exact Hi|exact Hj|exact Sc|exact Vc]].
      intros y (q & Rq & ->). exists q. split; auto. eapply rect_cell; eauto.
    - exists T. split; auto. split; auto. exists ru, rv. rewrite <- Vc. auto. }
  destruct (vmapT_ok (fun a => vmapT (fun b =>
           c <- center P a b ;; integrate_surface f P [fst a; snd a] [fst b; snd b] (c :: args) method) (cells v))
     (cells u) ((length v - 1)%nat :: s) (fun _ _ => True)) as (E & EE & SE & VE).
  - apply cells_nonempty; auto.
  - intros a Ha. apply In_nth_error in Ha. destruct Ha as (i & Hia). destruct (cells_nth _ _ _ Hia) as (Hi & ->).
    destruct (vmapT_ok (fun b => c <- center P (nth i u 0, nth (S i) u 0) b ;;
         integrate_surface f P [fst (nth i u 0, nth (S i) u 0); snd (nth i u 0, nth (S i) u 0)] [fst b; snd b] (c :: args) method)
         (cells v) s (fun _ _ => True)) as (Y & EY & SY & VY).
    + apply cells_nonempty; auto.
    + intros b Hb. apply In_nth_error in Hb. destruct Hb as (j & Hjb). destruct (cells_nth _ _ _ Hjb) as (Hj & ->).
      destruct (One i j Hi Hj) as (T & ET & ST & _). exists T. auto.
    + exists Y. rewrite cells_length in SY. auto.
  - exists E. rewrite cells_length in SE. split; auto. split; auto. intros i j Hi Hj.
    destruct (VE i _ (cells_some u i Hi)) as (Y & EY & SY & _ & EntY).
    destruct (vmapT_ok (fun b => c <- center P (nth i u 0, nth (S i) u 0) b ;;
         integrate_surface f P [fst (nth i u 0, nth (S i) u 0); snd (nth i u 0, nth (S i) u 0)] [fst b; snd b] (c :: args) method)
         (cells v) s (fun _ _ => True)) as (Y' & EY' & SY' & VY').
    + apply cells_nonempty; auto.
    + intros b Hb. apply In_nth_error in Hb. destruct Hb as (j' & Hjb). destruct (cells_nth _ _ _ Hjb) as (Hj' & ->).
      destruct (One i j' Hi Hj') as (T & ET & ST & _). exists T. auto.
    + rewrite EY' in EY. injection EY as <-. destruct (VY' j _ (cells_some v j Hj)) as (T & ET & ST & _ & EntT).
      destruct (One i j Hi Hj) as (T' & ET' & ST' & VT'). rewrite ET' in ET. injection ET as <-.
      destruct VT' as (ru & rv & E1 & E2 & V). exists ru, rv. split; auto. split; auto.
      intros p Hp. rewrite EntY, EntT. apply V. auto.
Qed.

(** ** the sum over the cells *)
Lemma over_panels_lsum q u : over_panels q u = lsum (length u - 1) (fun i => q (nth i u 0) (nth (S i) u 0)).
Proof.
  induction u as [|a u IH]; [reflexivity|]. destruct u as [|b u]; [reflexivity|].
  change (over_panels q (a :: b :: u)) with (q a b + over_panels q (b :: u)). rewrite IH.
  unfold lsum. replace (length (a :: b :: u) - 1)%nat with (S (length (b :: u) - 1)) by (cbn; lia).
  cbn [seq map]. rewrite <- seq_shift, map_map. reflexivity.
Qed.
Lemma ps_gauss_ext n w f g a b : (forall x, f x = g x) -> ps_gauss n w f a b = ps_gauss n w g a b.
Proof. intros H. unfold ps_gauss. f_equal. apply sum_map2_ext. intros. rewrite H. reflexivity. Qed.
Lemma ps_gauss_lsum n w m (F : R -> nat -> R) a b :
  ps_gauss n w (fun x => lsum m (F x)) a b = lsum m (fun j => ps_gauss n w (fun x => F x j) a b).
Proof.
  induction m as [|m IH].
  - unfold ps_gauss, lsum. cbn [seq map]. change (sumR []) with 0.
    rewrite (sum_map2_ext _ (fun w x => 0 * (w * x))) by (intros; ring). rewrite sum_map2_scal. ring.
  - rewrite lsum_S, <- IH. unfold ps_gauss. rewrite <- Rmult_plus_distr_l, <- sum_map2_add. f_equal.
    apply sum_map2_ext. intros. rewrite lsum_S. ring.
Qed.

Lemma iterated_panels method n w u v ru rv h : sound_rule method n w -> (2 <= length u)%nat -> (2 <= length v)%nat ->
  method u = Ok ru -> method v = Ok rv ->
  iterated [ru; rv] h = over_panels (ps_gauss n w (fun x => over_panels (ps_gauss n w (fun y => h [x; y])) v)) u.
Proof.
  intros SR Hu Hv E1 E2. destruct ru as [wu xu], rv as [wv xv]. cbn [iterated].
  rewrite (sum_map2_ext _ (fun wi xi => wi * (fun x => over_panels (ps_gauss n w (fun y => h [x; y])) v) xi)).
  - exact (rule_sum method n w u (wu, xu) _ SR Hu E1).
  - intros wi xi. f_equal. exact (rule_sum method n w v (wv, xv) (fun y => h [xi; y]) SR Hv E2).
Qed.
Lemma iterated_cell method n w u v ru rv i j h : sound_rule method n w ->
  method (cell u i) = Ok ru -> method (cell v j) = Ok rv ->
  iterated [ru; rv] h = ps_gauss n w (fun x => ps_gauss n w (fun y => h [x; y]) (nth j v 0) (nth (S j) v 0))
                                 (nth i u 0) (nth (S i) u 0).
Proof.
  intros SR E1 E2. rewrite (iterated_panels method n w (cell u i) (cell v j)) by (auto; cbn; lia).
  unfold cell. cbn [over_panels]. rewrite Rplus_0_r. apply ps_gauss_ext. intros x. apply Rplus_0_r.
Qed.

Lemma cells_sum method n w u v ru rv h (E : nat -> nat -> R) : sound_rule method n w ->
  (2 <= length u)%nat -> (2 <= length v)%nat -> method u = Ok ru -> method v = Ok rv ->
  (forall i j, (S i < length u)%nat -> (S j < length v)%nat ->
     exists ri rj, method (cell u i) = Ok ri /\ method (cell v j) = Ok rj /\ E i j = iterated [ri; rj] h) ->
  lsum (length u - 1) (fun i => lsum (length v - 1) (fun j => E i j)) = iterated [ru; rv] h.
Proof.
  intros SR Hu Hv E1 E2 HE. rewrite (iterated_panels method n w u v) by auto. rewrite over_panels_lsum.
  apply lsum_ext. intros i Hi.
  rewrite (ps_gauss_ext n w _ (fun x => lsum (length v - 1)
     (fun j => ps_gauss n w (fun y => h [x; y]) (nth j v 0) (nth (S j) v 0)))) by (intros; apply over_panels_lsum).
  rewrite ps_gauss_lsum. apply lsum_ext. intros j Hj.
  destruct (HE i j ltac:(lia) ltac:(lia)) as (ri & rj & Ei & Ej & ->). apply (iterated_cell method n w u v ri rj i j h); auto.
Qed.
