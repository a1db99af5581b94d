(** Error of the quadrature rules: order of convergence for smooth integrands, convergence
    for continuous ones, several dimensions. *)
From Coquelicot Require Import Coquelicot.
From Verif Require Import Base BaseFacts P_Vec M_Integrate S_Integrate S_IntErr P_Integrate1 P_Integrate2 P_Integrate3.

(** *** Taylor polynomial about a point inside the interval *)
Lemma taylor_right f n lo hi m x M :
  (forall y k, lo < y < hi -> (k <= S n)%nat -> ex_derive_n f k y) -> lo < m -> m <= x -> x < hi ->
  (forall y, m <= y <= x -> Rabs (Derive_n f (S n) y) <= M) ->
  Rabs (f x - sum_f_R0 (fun k => (x - m) ^ k / INR (fact k) * Derive_n f k m) n) <= M * Rabs (x - m) ^ S n / INR (fact (S n)).
Proof.
  intros Hs Hm Hx Hh HM. pose proof (INR_fact_lt_0 (S n)) as F.
  destruct (Req_dec m x) as [<-|Ne].
  - replace (sum_f_R0 _ n) with (f m).
    + rewrite !Rminus_diag_eq, Rabs_R0 by auto. rewrite pow_ne_zero by lia. unfold Rdiv. rewrite Rmult_0_r, Rmult_0_l. lra.
    + symmetry. rewrite Rminus_diag_eq by auto. clear. induction n as [|n IH].
      * simpl. unfold Derive_n. field.
      * rewrite tech5, IH. rewrite pow_ne_zero by lia. unfold Rdiv. ring.
  - destruct (Taylor_Lagrange f n m x) as (z & Hz & E); [lra|intros t Ht k Hk; apply Hs; auto; lra|].
    rewrite E. replace (_ + _ - _) with ((x - m) ^ S n / INR (fact (S n)) * Derive_n f (S n) z) by ring.
    unfold Rdiv. rewrite !Rabs_mult, <- RPow_abs, (Rabs_right (/ _)) by (apply Rle_ge, Rlt_le, Rinv_0_lt_compat; auto).
    assert (B : Rabs (Derive_n f (S n) z) <= M) by (apply HM; lra).
    assert (P : 0 <= Rabs (x - m) ^ S n * / INR (fact (S n))).
    { apply Rmult_le_pos; [apply pow_le, Rabs_pos|apply Rlt_le, Rinv_0_lt_compat; auto]. }
    replace (M * Rabs (x - m) ^ S n * / INR (fact (S n))) with (Rabs (x - m) ^ S n * / INR (fact (S n)) * M) by ring.
    apply Rmult_le_compat_l; auto.
Qed.

Lemma taylor_both f n lo hi a b m x M :
  (forall y k, lo < y < hi -> (k <= S n)%nat -> ex_derive_n f k y) -> lo < a -> b < hi -> a <= m <= b -> a <= x <= b ->
  (forall y, a <= y <= b -> Rabs (Derive_n f (S n) y) <= M) ->
  Rabs (f x - sum_f_R0 (fun k => (x - m) ^ k / INR (fact k) * Derive_n f k m) n) <= M * Rabs (x - m) ^ S n / INR (fact (S n)).
Proof.
  intros Hs Ha Hb Hm Hx HM. destruct (Rle_dec m x) as [Le|Lt].
  - apply (taylor_right f n lo hi); auto; try lra. intros y Hy. apply HM; lra.
  - assert (L : forall y, - hi < y < - lo -> locally (- y) (fun z => forall k, (k <= S n)%nat -> ex_derive_n f k z)).
    { intros y Hy. assert (P : 0 < Rmin (- y - lo) (hi + y)) by (apply Rmin_glb_lt; lra).
      exists (mkposreal _ P). intros z Hz k Hk. apply Hs; auto.
      change (Rabs (z - - y) < Rmin (- y - lo) (hi + y)) in Hz.
      apply Rabs_lt_between in Hz. pose proof (Rmin_l (- y - lo) (hi + y)). pose proof (Rmin_r (- y - lo) (hi + y)). lra. }
    assert (D : forall y k, - hi < y < - lo -> (k <= S n)%nat -> Derive_n (fun z => f (- z)) k y = (-1) ^ k * Derive_n f k (- y)).
    { intros y k Hy Hk. apply Derive_n_comp_opp. apply filter_imp with (2 := L y Hy). intros z H j Hj. apply H. lia. }
    pose proof (taylor_right (fun z => f (- z)) n (- hi) (- lo) (- m) (- x) M) as T.
    cbv beta in T. rewrite Ropp_involutive in T.
    replace (Rabs (x - m)) with (Rabs (- x - - m)) by (rewrite <- Rabs_Ropp; f_equal; ring).
    rewrite (sum_eq _ (fun k => (- x - - m) ^ k / INR (fact k) * Derive_n (fun z => f (- z)) k (- m))).
    + apply T; try lra.
      * intros y k Hy Hk. apply ex_derive_n_comp_opp. apply filter_imp with (2 := L y Hy). intros z H j Hj. apply H. lia.
      * intros y Hy. rewrite D by (auto; lra). rewrite Rabs_mult, <- RPow_abs.
        rewrite Rabs_left by lra. replace (- -1) with 1 by ring. rewrite pow1, Rmult_1_l. apply HM. lra.
    + intros k Hk. rewrite D by (auto; lra). rewrite Ropp_involutive.
      replace (x - m) with ((-1) * (- x - - m)) by ring. rewrite Rpow_mult_distr. unfold Rdiv. ring.
Qed.

(** the Taylor polynomial as a list of coefficients *)
Lemma pevk_sum (g : nat -> R) n : forall j y, pevk j (map g (seq j (S n))) y = sum_f_R0 (fun k => g (j + k)%nat * y ^ (j + k)) n.
Proof.
  induction n as [|n IH]; intros j y.
  - simpl. rewrite Nat.add_0_r. ring.
  - change (seq j (S (S n))) with (j :: seq (S j) (S n)). cbn [map pevk]. rewrite IH.
    rewrite (decomp_sum _ (S n)) by lia. cbn [pred]. rewrite Nat.add_0_r. f_equal. apply sum_eq. intros i _.
    replace (S j + i)%nat with (j + S i)%nat by lia. reflexivity.
Qed.
Lemma taylor_poly f n m : exists c, length c = S n /\
  forall x, peval c x = sum_f_R0 (fun k => (x - m) ^ k / INR (fact k) * Derive_n f k m) n.
Proof.
  exists (pcomp (- m) 1 (map (fun k => Derive_n f k m / INR (fact k)) (seq 0 (S n)))). split.
  - rewrite pcomp_length, map_length, seq_length. auto.
  - intros x. rewrite pcomp_eval. replace (- m + 1 * x) with (x - m) by ring.
    pose proof (pevk_sum (fun k => Derive_n f k m / INR (fact k)) n 0 (x - m)) as P.
    rewrite pevk_peval in P. cbn [pow] in P. rewrite Rmult_1_l in P. rewrite P. apply sum_eq. intros k _.
    cbn [Nat.add]. unfold Rdiv. ring.
Qed.

(** *** one panel: close to a polynomial means close to the integral *)
Lemma panel_close nodes weights K f c a b E : a <= b -> reference_exact K nodes weights ->
  Forall (fun w => 0 <= w) weights -> sumR weights = 2 -> Forall (fun x => -1 <= x <= 1) nodes ->
  ex_RInt f a b -> (length c <= S K)%nat -> (forall x, a <= x <= b -> Rabs (f x - peval c x) <= E) ->
  Rabs (ps_gauss nodes weights f a b - RInt f a b) <= 2 * E * (b - a).
Proof.
  intros Hab HK Hw Hs Hn Ex Hc HE.
  assert (I : Rabs (RInt f a b - RInt (peval c) a b) <= E * (b - a)).
  { replace (RInt f a b - RInt (peval c) a b) with (RInt (fun x => minus (f x) (peval c x)) a b).
    2:{ apply (RInt_minus (V := R_CompleteNormedModule) f (peval c)); auto. apply ex_RInt_peval. }
    apply Rle_trans with (RInt (fun x => Rabs (minus (f x) (peval c x))) a b).
    - apply (abs_RInt_le (fun x => minus (f x) (peval c x))); auto.
      apply @ex_RInt_minus; auto. apply ex_RInt_peval.
    - replace (E * (b - a)) with (RInt (fun _ => E) a b)
        by (rewrite (RInt_const (V := R_CompleteNormedModule)); apply Rmult_comm).
      apply RInt_le; auto.
      + apply (ex_RInt_norm (fun x => minus (f x) (peval c x))). apply @ex_RInt_minus; auto. apply ex_RInt_peval.
      + apply ex_RInt_const.
      + intros x Hx. apply HE; lra. }
  assert (G : forall ws xs, Forall (fun w => 0 <= w) ws -> Forall (fun x => -1 <= x <= 1) xs -> length xs = length ws ->
     Rabs (ps_gauss xs ws f a b - ps_gauss xs ws (peval c) a b) <= (b - a) / 2 * (sumR ws * E)).
  { clear - Hab HE. induction ws as [|w ws IH]; intros [|x xs] Hw Hn L; simpl in L; try lia.
    - unfold ps_gauss, sumR. simpl. rewrite Rminus_diag_eq, Rabs_R0 by auto. lra.
    - inversion Hw; inversion Hn; subst. specialize (IH xs ltac:(auto) ltac:(auto) ltac:(lia)).
      set (x0 := (a + b) / 2 + x * (b - a) / 2).
      assert (Hx0 : a <= x0 <= b) by (unfold x0; split; nra). specialize (HE x0 Hx0).
      replace (ps_gauss (x :: xs) (w :: ws) f a b - ps_gauss (x :: xs) (w :: ws) (peval c) a b) with
        ((b - a) / 2 * w * (f x0 - peval c x0) + (ps_gauss xs ws f a b - ps_gauss xs ws (peval c) a b)).
      2:{ unfold ps_gauss. cbn [map2]. unfold sumR. cbn [fold_right]. fold x0. field. }
      replace ((b - a) / 2 * (sumR (w :: ws) * E)) with ((b - a) / 2 * w * E + (b - a) / 2 * (sumR ws * E)) by (unfold sumR; simpl; field).
      eapply Rle_trans; [apply Rabs_triang|]. apply Rplus_le_compat; auto.
      assert (0 <= (b - a) / 2 * w) by (apply Rmult_le_pos; lra).
      rewrite Rabs_mult, (Rabs_right ((b - a) / 2 * w)) by lra. apply Rmult_le_compat_l; auto. }
  specialize (G weights nodes Hw Hn (proj1 HK)). rewrite Hs in G.
  rewrite (gauss_panel_exact K nodes weights c a b HK Hc) in G.
  replace (ps_gauss nodes weights f a b - RInt f a b) with
    ((ps_gauss nodes weights f a b - RInt (peval c) a b) - (RInt f a b - RInt (peval c) a b)) by ring.
  eapply Rle_trans; [apply Rabs_triang|]. rewrite Rabs_Ropp. lra.
Qed.

(** *** all panels *)
Lemma panels_close (f : R -> R) (ps : R -> R -> R) d C : (1 <= length d)%nat -> nondecreasing d ->
  (forall u v, first d <= u <= final d -> first d <= v <= final d -> ex_RInt f u v) ->
  (forall a b t1 t2, d = t1 ++ a :: b :: t2 -> Rabs (ps a b - RInt f a b) <= C * (b - a)) ->
  Rabs (over_panels ps d - RInt f (first d) (final d)) <= C * (final d - first d).
Proof.
  intros Hd Hm EX HP. destruct d as [|a d]; [simpl in Hd; lia|]. clear Hd. revert a Hm EX HP.
  induction d as [|b t IH]; intros a Hm EX HP.
  - unfold first, final. simpl. rewrite (RInt_point (V := R_CompleteNormedModule)). change (zero : R) with 0.
    rewrite !Rminus_diag_eq, Rabs_R0 by auto. lra.
  - pose proof (nondecreasing_first_final (a :: b :: t) Hm ltac:(simpl; lia)) as A.
    destruct Hm as [Hm1 Hm2].
    change (final (a :: b :: t)) with (final (b :: t)) in *. unfold first in *. cbn [hd] in *.
    assert (Hb : a <= b <= final (b :: t)) by (inversion A as [|? ? ? A2]; inversion A2; subst; auto).
    assert (IH' := IH b Hm2). cbv beta in IH'.
    rewrite <- (RInt_Chasles (V := R_CompleteNormedModule) f a b) by (apply EX; lra).
    change (over_panels ps (a :: b :: t)) with (ps a b + over_panels ps (b :: t)).
    change (plus (RInt f a b) (RInt f b (final (b :: t)))) with (RInt f a b + RInt f b (final (b :: t))).
    assert (P : Rabs (ps a b - RInt f a b) <= C * (b - a)) by (apply (HP a b [] t); auto).
    assert (Q : Rabs (over_panels ps (b :: t) - RInt f b (final (b :: t))) <= C * (final (b :: t) - b)).
    { apply IH'.
      - intros u v Hu Hv. apply EX; lra.
      - intros u v t1 t2 E. apply (HP u v (a :: t1) t2). rewrite E. auto. }
    apply Rabs_le_between in Q. apply Rabs_le_between in P. apply Rabs_le_between. lra.
Qed.

Lemma panel_inside d a b t1 t2 : nondecreasing d -> d = t1 ++ a :: b :: t2 -> first d <= a /\ a <= b /\ b <= final d.
Proof.
  intros H ->. pose proof (nondecreasing_first_final _ H) as A. specialize (A ltac:(rewrite app_length; simpl; lia)).
  unfold all_between in A. rewrite Forall_forall in A.
  split; [apply A, in_or_app; right; left; auto|]. split; [|apply A, in_or_app; right; right; left; auto].
  clear A. induction t1 as [|c t IH]; simpl in H; [apply H|]. destruct (t ++ a :: b :: t2) eqn:E; [destruct t; discriminate|].
  apply IH. rewrite <- E in *. clear IH. destruct (t ++ a :: b :: t2); [exact I|apply H].
Qed.
Lemma panel_step h d a b t1 t2 : steps_at_most h d -> d = t1 ++ a :: b :: t2 -> b - a <= h.
Proof.
  intros H ->. induction t1 as [|c t IH]; simpl in H; [apply H|]. destruct (t ++ a :: b :: t2) eqn:E; [destruct t; discriminate|].
  apply IH. rewrite <- E in *. clear IH. destruct (t ++ a :: b :: t2); [exact I|apply H].
Qed.

Lemma ex_RInt_cont_on (f : R -> R) a b : (forall x, a <= x <= b -> continuous f x) ->
  forall u v, a <= u <= b -> a <= v <= b -> ex_RInt f u v.
Proof.
  intros H u v Hu Hv. apply (ex_RInt_continuous (V := R_CompleteNormedModule)). intros x Hx. apply H.
  pose proof (Rmin_glb u v a). pose proof (Rmax_lub u v b). lra.
Qed.

Lemma composite_order rule nodes weights K f d h lo hi M : composite rule nodes weights -> reference_exact K nodes weights ->
  Forall (fun w => 0 <= w) weights -> sumR weights = 2 -> Forall (fun x => -1 <= x <= 1) nodes ->
  (2 <= length d)%nat -> nondecreasing d -> steps_at_most h d -> lo < first d -> final d < hi ->
  (forall x k, lo < x < hi -> (k <= S K)%nat -> ex_derive_n f k x) ->
  (forall x, first d <= x <= final d -> Rabs (Derive_n f (S K) x) <= M) ->
  exists v, integrate (pointwise f) [d] rule = Ok (A0 v) /\
    Rabs (v - RInt f (first d) (final d)) <= 2 * M / INR (fact (S K)) * (h / 2) ^ S K * (final d - first d).
Proof.
  intros HC HK Hw Hs Hn Hd Hm Hh Hlo Hhi Hsm HM.
  eexists. split; [apply (integrate_1d _ _ _ _ (HC d Hd))|].
  assert (CT : forall x, first d <= x <= final d -> continuous f x).
  { intros x Hx. apply (ex_derive_continuous f). apply (Hsm x 1%nat); [lra|lia]. }
  assert (EX := ex_RInt_cont_on f _ _ CT).
  apply panels_close; auto; [lia|].
  intros a b t1 t2 E. destruct (panel_inside d a b t1 t2 Hm E) as (H1 & H2 & H3).
  pose proof (panel_step h d a b t1 t2 Hh E) as H4.
  assert (M0 : 0 <= M) by (eapply Rle_trans; [apply Rabs_pos|apply (HM a); lra]).
  set (m := (a + b) / 2). destruct (taylor_poly f K m) as (c & Lc & Ec).
  pose proof (INR_fact_lt_0 (S K)) as F.
  eapply Rle_trans.
  - apply (panel_close nodes weights K f c a b (M * (h / 2) ^ S K / INR (fact (S K)))); auto.
    + apply EX; lra.
    + lia.
    + intros x Hx. rewrite Ec. eapply Rle_trans.
      * apply (taylor_both f K lo hi a b m x M); auto; try lra; [unfold m; lra|]. intros y Hy. apply HM; lra.
      * unfold Rdiv. apply Rmult_le_compat_r; [apply Rlt_le, Rinv_0_lt_compat; auto|]. apply Rmult_le_compat_l; auto.
        apply pow_incr. split; [apply Rabs_pos|]. apply Rabs_le. unfold m. lra.
  - apply Req_le. unfold Rdiv. ring.
Qed.

(** continuous integrands: convergence *)
Lemma uniform_on (f : R -> R) a b eps : a <= b -> (forall x, a <= x <= b -> continuous f x) -> 0 < eps ->
  exists delta, 0 < delta /\ forall x y, a <= x <= b -> a <= y <= b -> Rabs (x - y) < delta -> Rabs (f x - f y) < eps.
Proof.
  intros Hab Hc He.
  destruct (Heine_cor2 (f := f) (a := a) (b := b)) with (eps := mkposreal eps He) as [d Hd].
  - intros x Hx. apply continuity_pt_filterlim. apply Hc; auto.
  - exists d. split; [apply cond_pos|]. intros x y Hx Hy H. apply Hd; auto.
Qed.
Lemma composite_small rule nodes weights f a b eps : composite rule nodes weights -> reference_exact 0 nodes weights ->
  Forall (fun w => 0 <= w) weights -> sumR weights = 2 -> Forall (fun x => -1 <= x <= 1) nodes ->
  a <= b -> (forall x, a <= x <= b -> continuous f x) -> 0 < eps ->
  exists delta, 0 < delta /\ forall d, (2 <= length d)%nat -> nondecreasing d -> first d = a -> final d = b -> steps_at_most delta d ->
  exists v, integrate (pointwise f) [d] rule = Ok (A0 v) /\ Rabs (v - RInt f a b) < eps.
Proof.
  intros HC HK Hw Hs Hn Hab CT He.
  assert (P : 0 < eps / (4 * (b - a + 1))) by (apply Rdiv_lt_0_compat; lra).
  destruct (uniform_on f a b _ Hab CT P) as (delta & Hd0 & Hu).
  exists (delta / 2). split; [lra|]. intros d Hd Hm Ea Eb Hh.
  eexists. split; [apply (integrate_1d _ _ _ _ (HC d Hd))|].
  assert (EX := ex_RInt_cont_on f _ _ CT).
  apply Rle_lt_trans with (2 * (eps / (4 * (b - a + 1))) * (b - a)).
  - set (C := 2 * _). subst a b. apply panels_close; [lia|auto|auto|].
    intros u v t1 t2 E. destruct (panel_inside d u v t1 t2 Hm E) as (H1 & H2 & H3).
    pose proof (panel_step _ d u v t1 t2 Hh E) as H4. unfold C.
    apply (panel_close nodes weights 0 f [f u]); auto; [apply EX; lra|].
    intros x Hx. simpl. rewrite Rmult_0_r, Rplus_0_r. apply Rlt_le, Hu; try lra. apply Rabs_lt_between. lra.
  - replace (2 * (eps / (4 * (b - a + 1))) * (b - a)) with (eps * ((b - a) / (2 * (b - a + 1)))) by (field; lra).
    rewrite <- (Rmult_1_r eps) at 2. apply Rmult_lt_compat_l; auto. apply Rmult_lt_reg_r with (2 * (b - a + 1)); [lra|].
    unfold Rdiv. rewrite Rmult_assoc, Rinv_l by lra. lra.
Qed.

(** *** several dimensions *)
Lemma volume_nonneg box : Forall (fun ab => fst ab <= snd ab) box -> 0 <= volume box.
Proof.
  induction 1 as [|[a b] box H _ IH]; unfold volume in *; cbn; [lra|]. cbn in H. apply Rmult_le_pos; [lra|exact IH].
Qed.
Lemma dist_self p : sumR (map2 (fun x y : R => Rabs (x - y)) p p) = 0.
Proof.
  induction p as [|x p IH]; unfold sumR in *; simpl; auto. rewrite IH, Rminus_diag_eq, Rabs_R0 by auto. ring.
Qed.
Lemma lipschitz_box_tail a b box L f x : 0 <= L -> lipschitz_box ((a, b) :: box) L f -> a <= x <= b ->
  lipschitz_box box L (fun p => f (x :: p)).
Proof.
  intros HL H Hx p q Hp Hq. eapply Rle_trans; [apply H; constructor; auto|]. apply Req_le. unfold sumR. simpl.
  rewrite Rminus_diag_eq, Rabs_R0 by auto. rewrite Rplus_0_l. auto.
Qed.
Lemma lipschitz_box_head a b box L f x y : 0 <= L -> lipschitz_box ((a, b) :: box) L f -> a <= x <= b -> a <= y <= b ->
  forall p, in_box box p -> Rabs (f (x :: p) - f (y :: p)) <= L * Rabs (x - y).
Proof.
  intros HL H Hx Hy p Hp. eapply Rle_trans; [apply H; constructor; auto|]. apply Req_le. unfold sumR. cbn [map2 fold_right].
  change (fold_right Rplus 0) with sumR. rewrite dist_self. ring.
Qed.

Lemma iterated_RInt_close box : Forall (fun ab => fst ab <= snd ab) box -> forall L F G E, 0 <= L ->
  lipschitz_box box L F -> lipschitz_box box L G ->
  (forall p, in_box box p -> Rabs (F p - G p) <= E) ->
  Rabs (iterated_RInt box F - iterated_RInt box G) <= E * volume box.
Proof.
  induction 1 as [|[a b] box H HB IH]; intros L F G E HL HF HG HE.
  - simpl. unfold volume. simpl. rewrite Rmult_1_r. apply HE. constructor.
  - cbn [iterated_RInt]. cbn in H. pose proof (volume_nonneg _ HB) as V.
    assert (LF : forall K, lipschitz_box ((a, b) :: box) L K ->
      lipschitz_on a b (L * volume box) (fun x => iterated_RInt box (fun p => K (x :: p)))).
    { intros K HK x y Hx Hy. replace (L * volume box * Rabs (x - y)) with (L * Rabs (x - y) * volume box) by ring.
      apply (IH L); auto; [eapply lipschitz_box_tail; eauto..|]. eapply lipschitz_box_head; eauto. }
    assert (LV : 0 <= L * volume box) by (apply Rmult_le_pos; auto).
    set (f := fun x => iterated_RInt box (fun p => F (x :: p))). set (g := fun x => iterated_RInt box (fun p => G (x :: p))).
    assert (Ef : ex_RInt f a b) by (apply (lipschitz_ex_RInt a b (L * volume box) f); auto; try lra; apply LF; auto).
    assert (Eg : ex_RInt g a b) by (apply (lipschitz_ex_RInt a b (L * volume box) g); auto; try lra; apply LF; auto).
    replace (RInt f a b - RInt g a b) with (RInt (fun x => minus (f x) (g x)) a b)
      by (apply (RInt_minus (V := R_CompleteNormedModule) f g); auto).
    apply Rle_trans with (RInt (fun x => Rabs (minus (f x) (g x))) a b).
    + apply (abs_RInt_le (fun x => minus (f x) (g x))); auto. apply @ex_RInt_minus; auto.
    + replace (E * volume ((a, b) :: box)) with (RInt (fun _ => E * volume box) a b).
      2:{ rewrite (RInt_const (V := R_CompleteNormedModule)). change ((b - a) * (E * volume box) = E * volume ((a, b) :: box)).
        unfold volume, prodR. cbn [map fold_right fst snd]. ring. }
      apply RInt_le; auto.
      * apply (ex_RInt_norm (fun x => minus (f x) (g x))). apply @ex_RInt_minus; auto.
      * apply ex_RInt_const.
      * intros x Hx. apply (IH L); auto; [eapply lipschitz_box_tail; eauto; lra..|]. intros p Hp. apply HE. constructor; auto. cbn; lra.
Qed.
Lemma iterated_RInt_lipschitz a b box L F : a <= b -> Forall (fun ab => fst ab <= snd ab) box -> 0 <= L ->
  lipschitz_box ((a, b) :: box) L F ->
  lipschitz_on a b (L * volume box) (fun x => iterated_RInt box (fun p => F (x :: p))).
Proof.
  intros Hab HB HL HF x y Hx Hy. replace (L * volume box * Rabs (x - y)) with (L * Rabs (x - y) * volume box) by ring.
  apply (iterated_RInt_close box HB L); auto; [eapply lipschitz_box_tail; eauto..|]. eapply lipschitz_box_head; eauto.
Qed.

(** a weighted sum is bounded by the largest value *)
Lemma panels_bound nodes weights g d E : length nodes = length weights -> Forall (fun w => 0 <= w) weights -> sumR weights = 2 ->
  Forall (fun x => -1 <= x <= 1) nodes -> (1 <= length d)%nat -> nondecreasing d ->
  (forall x, first d <= x <= final d -> Rabs (g x) <= E) ->
  Rabs (over_panels (ps_gauss nodes weights g) d) <= E * (final d - first d).
Proof.
  intros Len Hw Hs Hn Hd Hm HE. destruct d as [|a d]; [simpl in Hd; lia|]. clear Hd. revert a Hm HE.
  induction d as [|b t IH]; intros a Hm HE.
  - unfold first, final. simpl. rewrite Rabs_R0. lra.
  - pose proof (panel_inside (a :: b :: t) a b [] t Hm eq_refl) as (_ & H2 & H3).
    destruct Hm as [Hm1 Hm2]. change (final (a :: b :: t)) with (final (b :: t)) in *. unfold first in *. cbn [hd] in *.
    change (over_panels (ps_gauss nodes weights g) (a :: b :: t)) with (ps_gauss nodes weights g a b + over_panels (ps_gauss nodes weights g) (b :: t)).
    assert (IH' : Rabs (over_panels (ps_gauss nodes weights g) (b :: t)) <= E * (final (b :: t) - b)) by (apply IH; auto; intros x Hx; apply HE; lra).
    assert (G : forall ws xs, Forall (fun w => 0 <= w) ws -> Forall (fun x => -1 <= x <= 1) xs -> length xs = length ws ->
      Rabs (ps_gauss xs ws g a b) <= (b - a) / 2 * (sumR ws * E)).
    { clear - H2 H3 HE. induction ws as [|w ws IH]; intros [|x xs] Hw Hn L; simpl in L; try lia.
      - unfold ps_gauss, sumR. simpl. rewrite Rmult_0_r, Rabs_R0. lra.
      - inversion Hw; inversion Hn; subst. specialize (IH xs ltac:(auto) ltac:(auto) ltac:(lia)).
        set (x0 := (a + b) / 2 + x * (b - a) / 2).
        assert (Hx0 : a <= x0 <= b) by (unfold x0; split; nra).
        assert (HE0 : Rabs (g x0) <= E) by (apply HE; lra).
        replace (ps_gauss (x :: xs) (w :: ws) g a b) with ((b - a) / 2 * w * g x0 + ps_gauss xs ws g a b).
        2:{ unfold ps_gauss. cbn [map2]. unfold sumR. cbn [fold_right]. fold x0. field. }
        replace ((b - a) / 2 * (sumR (w :: ws) * E)) with ((b - a) / 2 * w * E + (b - a) / 2 * (sumR ws * E)) by (unfold sumR; simpl; field).
        eapply Rle_trans; [apply Rabs_triang|]. apply Rplus_le_compat; auto.
        assert (0 <= (b - a) / 2 * w) by (apply Rmult_le_pos; lra).
        rewrite Rabs_mult, (Rabs_right ((b - a) / 2 * w)) by lra. apply Rmult_le_compat_l; auto. }
    specialize (G weights nodes Hw Hn Len). rewrite Hs in G.
    eapply Rle_trans; [apply Rabs_triang|]. lra.
Qed.
Lemma over_panels_minus nodes weights f g d :
  over_panels (ps_gauss nodes weights f) d - over_panels (ps_gauss nodes weights g) d =
  over_panels (ps_gauss nodes weights (fun x => f x - g x)) d.
Proof.
  induction d as [|a d IH]; [simpl; ring|]. destruct d as [|b t]; [simpl; ring|].
  change (over_panels (ps_gauss nodes weights f) (a :: b :: t)) with (ps_gauss nodes weights f a b + over_panels (ps_gauss nodes weights f) (b :: t)).
  change (over_panels (ps_gauss nodes weights g) (a :: b :: t)) with (ps_gauss nodes weights g a b + over_panels (ps_gauss nodes weights g) (b :: t)).
  change (over_panels (ps_gauss nodes weights (fun x => f x - g x)) (a :: b :: t)) with
    (ps_gauss nodes weights (fun x => f x - g x) a b + over_panels (ps_gauss nodes weights (fun x => f x - g x)) (b :: t)).
  rewrite <- IH. unfold ps_gauss at 1 3 5.
  rewrite (sum_map2_ext (fun w x => w * (f ((a + b) / 2 + x * (b - a) / 2) - g ((a + b) / 2 + x * (b - a) / 2)))
    (fun w x => w * f ((a + b) / 2 + x * (b - a) / 2) + (-1) * (w * g ((a + b) / 2 + x * (b - a) / 2)))) by (intros; ring).
  rewrite sum_map2_add, sum_map2_scal. ring.
Qed.

Lemma iterated_error rule nodes weights K h ds rs : sound_rule rule nodes weights -> reference_exact K nodes weights ->
  Forall (fun w => 0 <= w) weights -> sumR weights = 2 -> Forall (fun x => -1 <= x <= 1) nodes ->
  rules_of rule ds rs -> Forall (fun d => (2 <= length d)%nat /\ nondecreasing d /\ steps_at_most h d) ds -> 
  forall L F, 0 <= L -> lipschitz_box (covered ds) L F ->
  Rabs (iterated rs F - iterated_RInt (covered ds) F) <= INR (length ds) * (L * h * volume (covered ds)).
Proof.
  intros S HK Hw Hs Hn HR. induction HR as [|d r ds rs (E & Lr & Ne) HR IH]; intros HD L F HL HF.
  - simpl. rewrite Rminus_diag_eq, Rabs_R0 by auto. lra.
  - inversion HD as [|? ? (D1 & D2 & D3) HD2]; subst. destruct r as [W X].
    set (a := first d). set (b := final d).
    assert (Hab : a <= b).
    { pose proof (nondecreasing_first_final d D2 ltac:(lia)) as A. destruct d as [|a0 d0]; [simpl in D1; lia|].
      inversion A; subst. unfold a, b. lra. }
    change (covered (d :: ds)) with ((a, b) :: covered ds) in *.
    assert (HB : Forall (fun ab => fst ab <= snd ab) (covered ds)).
    { clear - HD2. induction HD2 as [|d ds (D1 & D2 & D3) _ IH]; constructor; auto. cbn.
      pose proof (nondecreasing_first_final d D2 ltac:(lia)) as A. destruct d as [|a0 d0]; [simpl in D1; lia|].
      inversion A; subst. lra. }
    pose proof (volume_nonneg _ HB) as V.
    pose proof (iterated_RInt_lipschitz a b (covered ds) L F Hab HB HL HF) as LG.
    set (G := fun x => iterated_RInt (covered ds) (fun p => F (x :: p))) in *.
    cbn [iterated iterated_RInt]. fold G.
    set (I := fun x => iterated rs (fun p => F (x :: p))).
    change (sumR (map2 (fun wi xi => wi * iterated rs (fun p => F (xi :: p))) W X)) with
      (sumR (map2 (fun w x => w * I x) (fst (W, X)) (snd (W, X)))).
    rewrite (rule_sum rule nodes weights d (W, X) I S D1 E).
    set (P := over_panels (ps_gauss nodes weights I) d).
    assert (E1 : Rabs (P - over_panels (ps_gauss nodes weights G) d) <= INR (length ds) * (L * h * volume (covered ds)) * (b - a)).
    { unfold P. rewrite over_panels_minus. apply panels_bound; auto; [apply HK|lia|]. intros x Hx.
      apply (IH HD2 L (fun p => F (x :: p))); auto. eapply lipschitz_box_tail; eauto. }
    destruct (composite_error rule nodes weights G d h (L * volume (covered ds))) as (v & Ev & Bv); auto.
    { apply S. } { apply HK. } { apply Rmult_le_pos; auto. }
    rewrite (integrate_1d _ _ _ _ (sr_comp _ _ _ S d D1)) in Ev. injection Ev as Ev. rewrite <- Ev in Bv. fold a b in Bv.
    set (Q := over_panels (ps_gauss nodes weights G) d) in *.
    replace (P - RInt G a b) with ((P - Q) + (Q - RInt G a b)) by ring.
    eapply Rle_trans; [apply Rabs_triang|]. eapply Rle_trans; [apply Rplus_le_compat; [exact E1|exact Bv]|].
    apply Req_le. change (length (d :: ds)) with (Datatypes.S (length ds)). rewrite S_INR.
    unfold volume. cbn [map fst snd]. unfold prodR. cbn [fold_right]. ring.
Qed.
