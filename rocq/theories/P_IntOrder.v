(** Order of convergence of the quadrature rules in several dimensions. *)
From Coquelicot Require Import Coquelicot.
From Verif Require Import Base BaseFacts P_Vec M_Integrate S_Integrate S_IntErr S_IntOrder P_Integrate1 P_Integrate2 P_Integrate3 P_Integrate4.

(** *** linearity of the iterated integral on Lipschitz functions *)
Lemma lipschitz_box_le box L L' F : L <= L' -> lipschitz_box box L F -> lipschitz_box box L' F.
Proof.
  intros H HF p q Hp Hq. eapply Rle_trans; [apply HF; auto|]. apply Rmult_le_compat_r; auto.
  clear. revert q. induction p as [|x p IH]; intros [|y q]; unfold sumR in *; simpl; try lra. specialize (IH q). pose proof (Rabs_pos (x - y)). lra.
Qed.
Lemma lipschitz_box_plus box L L' F G : lipschitz_box box L F -> lipschitz_box box L' G -> lipschitz_box box (L + L') (fun p => F p + G p).
Proof.
  intros HF HG p q Hp Hq. specialize (HF p q Hp Hq). specialize (HG p q Hp Hq).
  replace (F p + G p - (F q + G q)) with ((F p - F q) + (G p - G q)) by ring. eapply Rle_trans; [apply Rabs_triang|]. lra.
Qed.
Lemma lipschitz_box_scal box L c F : lipschitz_box box L F -> lipschitz_box box (Rabs c * L) (fun p => c * F p).
Proof.
  intros HF p q Hp Hq. specialize (HF p q Hp Hq). replace (c * F p - c * F q) with (c * (F p - F q)) by ring.
  rewrite Rabs_mult, Rmult_assoc. apply Rmult_le_compat_l; auto. apply Rabs_pos.
Qed.
Definition lips (box : list (R * R)) (F : list R -> R) : Prop := exists L, 0 <= L /\ lipschitz_box box L F.
Lemma lips_plus box F G : lips box F -> lips box G -> lips box (fun p => F p + G p).
Proof. intros (L & P & H) (L' & P' & H'). exists (L + L'). split; [lra|]. apply lipschitz_box_plus; auto. Qed.
Lemma lips_scal box c F : lips box F -> lips box (fun p => c * F p).
Proof. intros (L & P & H). exists (Rabs c * L). split; [apply Rmult_le_pos; auto; apply Rabs_pos|]. apply lipschitz_box_scal; auto. Qed.
Lemma lips_sum box (H : nat -> list R -> R) (c : nat -> R) n : (forall k, (k <= n)%nat -> lips box (H k)) ->
  lips box (fun p => sum_f_R0 (fun k => c k * H k p) n).
Proof.
  induction n as [|n IH]; intros HL; cbn [sum_f_R0].
  - apply lips_scal, HL. lia.
  - apply lips_plus; [apply IH; intros; apply HL; lia|]. apply lips_scal, HL. lia.
Qed.
Lemma lips_tail a b box F x : a <= x <= b -> lips ((a, b) :: box) F -> lips box (fun p => F (x :: p)).
Proof. intros Hx (L & P & H). exists L. split; auto. eapply lipschitz_box_tail; eauto. Qed.
Lemma lips_ex a b box F : a <= b -> Forall (fun ab => fst ab <= snd ab) box -> lips ((a, b) :: box) F ->
  forall u v, a <= u <= b -> a <= v <= b -> ex_RInt (fun x => iterated_RInt box (fun p => F (x :: p))) u v.
Proof.
  intros Hab HB (L & P & H). apply (lipschitz_ex_RInt a b (L * volume box)); auto.
  - apply Rmult_le_pos; auto. apply volume_nonneg; auto.
  - apply iterated_RInt_lipschitz; auto.
Qed.
Lemma iterated_RInt_ext_in box : Forall (fun ab => fst ab <= snd ab) box -> forall F G, (forall p, in_box box p -> F p = G p) ->
  iterated_RInt box F = iterated_RInt box G.
Proof.
  induction 1 as [|[a b] box H HB IH]; intros F G E; cbn [iterated_RInt]; [apply E; constructor|].
  cbn in H. apply RInt_ext. intros x Hx. rewrite Rmin_left, Rmax_right in Hx by auto. apply IH. intros p Hp. apply E. constructor; auto. cbn; lra.
Qed.
Lemma iterated_RInt_plus box : Forall (fun ab => fst ab <= snd ab) box -> forall F G, lips box F -> lips box G ->
  iterated_RInt box (fun p => F p + G p) = iterated_RInt box F + iterated_RInt box G.
Proof.
  induction 1 as [|[a b] box H HB IH]; intros F G HF HG; cbn [iterated_RInt]; [reflexivity|]. cbn in H.
  rewrite <- (RInt_plus (V := R_CompleteNormedModule) (fun x => iterated_RInt box (fun p => F (x :: p))) (fun x => iterated_RInt box (fun p => G (x :: p))))
    by (apply (lips_ex a b); auto; lra).
  apply (RInt_ext (V := R_CompleteNormedModule)). intros x Hx. rewrite Rmin_left, Rmax_right in Hx by auto.
  apply IH; eapply lips_tail; eauto; lra.
Qed.
Lemma iterated_RInt_scal box : Forall (fun ab => fst ab <= snd ab) box -> forall c F, lips box F ->
  iterated_RInt box (fun p => c * F p) = c * iterated_RInt box F.
Proof.
  induction 1 as [|[a b] box H HB IH]; intros c F HF; cbn [iterated_RInt]; [reflexivity|]. cbn in H.
  rewrite <- (RInt_scal (V := R_CompleteNormedModule) (fun x => iterated_RInt box (fun p => F (x :: p)))) by (apply (lips_ex a b); auto; lra).
  apply (RInt_ext (V := R_CompleteNormedModule)). intros x Hx. rewrite Rmin_left, Rmax_right in Hx by auto.
  apply IH. eapply lips_tail; eauto; lra.
Qed.
Lemma iterated_RInt_sum box (H : nat -> list R -> R) (c : nat -> R) n : Forall (fun ab => fst ab <= snd ab) box ->
  (forall k, (k <= n)%nat -> lips box (H k)) ->
  iterated_RInt box (fun p => sum_f_R0 (fun k => c k * H k p) n) = sum_f_R0 (fun k => c k * iterated_RInt box (H k)) n.
Proof.
  intros HB. induction n as [|n IH]; intros HL; cbn [sum_f_R0].
  - apply iterated_RInt_scal; auto.
  - rewrite (iterated_RInt_plus box HB (fun p => sum_f_R0 (fun k => c k * H k p) n) (fun p => c (S n) * H (S n) p)).
    + rewrite IH by (intros; apply HL; lia). rewrite iterated_RInt_scal by auto. reflexivity.
    + apply lips_sum. intros; apply HL; lia.
    + apply lips_scal, HL. lia.
Qed.
Lemma iterated_RInt_near box F G E : Forall (fun ab => fst ab <= snd ab) box -> lips box F -> lips box G ->
  (forall p, in_box box p -> Rabs (F p - G p) <= E) -> Rabs (iterated_RInt box F - iterated_RInt box G) <= E * volume box.
Proof.
  intros HB (L & P & H) (L' & P' & H') HE. apply (iterated_RInt_close box HB (Rmax L L')); auto.
  - eapply Rle_trans; [exact P|apply Rmax_l].
  - eapply lipschitz_box_le; [apply Rmax_l|auto].
  - eapply lipschitz_box_le; [apply Rmax_r|auto].
Qed.

(** *** smooth integrands *)
Lemma centered_poly (g : nat -> R) n m : exists c, length c = S n /\ forall x, peval c x = sum_f_R0 (fun k => (x - m) ^ k * g k) n.
Proof.
  exists (pcomp (- m) 1 (map g (seq 0 (S n)))). split.
  - rewrite pcomp_length, map_length, seq_length. auto.
  - intros x. rewrite pcomp_eval. replace (- m + 1 * x) with (x - m) by ring.
    pose proof (pevk_sum g n 0 (x - m)) as P. rewrite pevk_peval in P. cbn [pow] in P. rewrite Rmult_1_l in P. rewrite P.
    apply sum_eq. intros k _. cbn [Nat.add]. ring.
Qed.
Lemma smooth_tail a b box K M F x : a <= x <= b -> smooth_box ((a, b) :: box) K M F -> smooth_box box K M (fun p => F (x :: p)).
Proof.
  intros Hx ((L & P & HL) & H). split; [exists L; split; auto; eapply lipschitz_box_tail; eauto|].
  intros i Hi. destruct (H (S i)) as (lo & hi & H1 & H2 & H3 & H4 & H5); [cbn; lia|]. cbn [nth] in H1, H2.
  exists lo, hi. split; auto. split; auto. split; [|split].
  - intros p Hp. apply (H3 (x :: p)). constructor; auto.
  - intros p Hp. apply (H4 (x :: p)). constructor; auto.
  - intros k Hk. destruct (H5 k Hk) as (L' & P' & HL'). exists L'. split; auto. eapply (lipschitz_box_tail a b box L' _ x) in HL'; auto.
Qed.
Lemma boxes_ordered h ds : Forall (fun d => (2 <= length d)%nat /\ nondecreasing d /\ steps_at_most h d) ds ->
  Forall (fun ab => fst ab <= snd ab) (covered ds).
Proof.
  induction 1 as [|d ds (D1 & D2 & D3) _ IH]; constructor; auto. cbn.
  pose proof (nondecreasing_first_final d D2 ltac:(lia)) as A. destruct d as [|a0 d0]; [simpl in D1; lia|]. inversion A; subst. lra.
Qed.

Lemma iterated_order rule nodes weights K h ds rs : sound_rule rule nodes weights -> reference_exact K nodes weights ->
  Forall (fun w => 0 <= w) weights -> sumR weights = 2 -> Forall (fun x => -1 <= x <= 1) nodes ->
  rules_of rule ds rs -> Forall (fun d => (2 <= length d)%nat /\ nondecreasing d /\ steps_at_most h d) ds ->
  forall M F, smooth_box (covered ds) K M F ->
  Rabs (iterated rs F - iterated_RInt (covered ds) F) <= INR (length ds) * (2 * M / INR (fact (S K)) * (h / 2) ^ S K * volume (covered ds)).
Proof.
  intros S HK Hw Hs Hn HR. induction HR as [|d r ds rs (E & Lr & Ne) HR IH]; intros HD M F HF.
  - simpl. rewrite Rminus_diag_eq, Rabs_R0 by auto. lra.
  - pose proof (boxes_ordered h _ HD) as HB0. inversion HD as [|? ? (D1 & D2 & D3) HD2]; subst. destruct r as [W X].
    set (a := first d). set (b := final d).
    change (covered (d :: ds)) with ((a, b) :: covered ds) in *. inversion HB0 as [|? ? Hab HB]; subst. cbn [fst snd] in Hab.
    pose proof (volume_nonneg _ HB) as V.
    pose proof (proj1 HF) as LF. destruct (proj2 HF 0%nat) as (lo & hi & Hlo & Hhi & SM & SB & SL); [cbn; lia|]. cbn [nth fst snd] in Hlo, Hhi.
    set (G := fun x => iterated_RInt (covered ds) (fun p => F (x :: p))) in *.
    cbn [iterated iterated_RInt]. fold G.
    set (I := fun x => iterated rs (fun p => F (x :: p))).
    change (sumR (map2 (fun wi xi => wi * iterated rs (fun p => F (xi :: p))) W X)) with
      (sumR (map2 (fun w x => w * I x) (fst (W, X)) (snd (W, X)))).
    rewrite (rule_sum rule nodes weights d (W, X) I S D1 E).
    set (P := over_panels (ps_gauss nodes weights I) d).
    set (C := 2 * M / INR (fact (Datatypes.S K)) * (h / 2) ^ Datatypes.S K).
    assert (E1 : Rabs (P - over_panels (ps_gauss nodes weights G) d) <= INR (length ds) * (C * volume (covered ds)) * (b - a)).
    { unfold P. rewrite over_panels_minus. apply panels_bound; auto; [apply HK|lia|]. intros x Hx.
      apply (IH HD2 M (fun p => F (x :: p))). eapply smooth_tail; eauto. }
    pose proof (lips_ex a b (covered ds) F Hab HB LF) as EX. fold G in EX.
    pose proof (INR_fact_lt_0 (Datatypes.S K)) as FK.
    assert (Bv : Rabs (over_panels (ps_gauss nodes weights G) d - RInt G a b) <= C * volume (covered ds) * (b - a)).
    { apply panels_close; auto; [lia|].
      intros u v t1 t2 Ed. destruct (panel_inside d u v t1 t2 D2 Ed) as (H1 & H2 & H3). fold a b in H1, H3.
      pose proof (panel_step h d u v t1 t2 D3 Ed) as H4.
      set (m := (u + v) / 2).
      set (co := fun k => iterated_RInt (covered ds) (fun p => Derive_n (fun t => F (t :: p)) k m)).
      destruct (centered_poly (fun k => / INR (fact k) * co k) K m) as (c & Lc & Ec).
      assert (LD : forall k, (k <= K)%nat -> lips (covered ds) (fun p => Derive_n (fun t => F (t :: p)) k m)).
      { intros k Hk. assert (HL : lips ((a, b) :: covered ds) (partial_n F 0 k)) by (destruct (SL k Hk) as (L & PL & HL); exists L; auto).
        apply (lips_tail a b (covered ds) (partial_n F 0 k) m) in HL; [|unfold m; lra]. exact HL. }
      eapply Rle_trans.
      - apply (panel_close nodes weights K G c u v (M * (h / 2) ^ Datatypes.S K / INR (fact (Datatypes.S K)) * volume (covered ds))); auto.
        + apply EX; lra.
        + lia.
        + intros x Hx. rewrite Ec.
          replace (sum_f_R0 (fun k => (x - m) ^ k * (/ INR (fact k) * co k)) K) with
            (iterated_RInt (covered ds) (fun p => sum_f_R0 (fun k => (x - m) ^ k / INR (fact k) * Derive_n (fun t => F (t :: p)) k m) K)).
          2:{ rewrite (iterated_RInt_sum (covered ds) (fun k p => Derive_n (fun t => F (t :: p)) k m) (fun k => (x - m) ^ k / INR (fact k)) K) by auto.
              apply sum_eq. intros k _. unfold co, Rdiv. ring. }
          apply iterated_RInt_near; auto.
          * eapply lips_tail; [|exact LF]. lra.
          * apply (lips_sum (covered ds) (fun k p => Derive_n (fun t => F (t :: p)) k m) (fun k => (x - m) ^ k / INR (fact k))). auto.
          * intros p Hp.
            assert (Mp : forall y, a <= y <= b -> Rabs (Derive_n (fun t => F (t :: p)) (Datatypes.S K) y) <= M).
            { intros y Hy. apply (SB (y :: p)). constructor; auto. }
            assert (M0 : 0 <= M) by (eapply Rle_trans; [apply Rabs_pos|apply (Mp a); lra]).
            eapply Rle_trans.
            -- apply (taylor_both (fun t => F (t :: p)) K lo hi a b m x M); auto; try lra; [|unfold m; lra].
               intros y k Hy Hk. apply (SM (a :: p)); auto. constructor; auto. cbn; lra.
            -- unfold Rdiv. apply Rmult_le_compat_r; [apply Rlt_le, Rinv_0_lt_compat; auto|]. apply Rmult_le_compat_l; auto.
               apply pow_incr. split; [apply Rabs_pos|]. apply Rabs_le. unfold m. lra.
      - apply Req_le. unfold C, Rdiv. ring. }
    set (Q := over_panels (ps_gauss nodes weights G) d) in *.
    replace (P - RInt G a b) with ((P - Q) + (Q - RInt G a b)) by ring.
    eapply Rle_trans; [apply Rabs_triang|]. eapply Rle_trans; [apply Rplus_le_compat; [exact E1|exact Bv]|].
    apply Req_le. change (length (d :: ds)) with (Datatypes.S (length ds)). rewrite S_INR.
    unfold volume. cbn [map fst snd]. unfold prodR. cbn [fold_right]. ring.
Qed.
