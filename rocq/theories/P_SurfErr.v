(** Errors of sums of quadratures over the cells of two grids. *)
From Coquelicot Require Import Coquelicot.
From Verif Require Import Base BaseFacts P_Vec M_Tensor M_Integrate S_Calc P_AD S_Integrate S_IntErr S_IntOrder P_Integrate1 P_Integrate2 P_Integrate3 P_Integrate4 P_IntOrder.
From Verif Require Import S_Model S_Surface P_Surface2.
From Verif Require P_Stray1.

Lemma iterated_near rule nodes weights K h ds rs : sound_rule rule nodes weights -> reference_exact K nodes weights ->
  Forall (fun w => 0 <= w) weights -> sumR weights = 2 -> Forall (fun x => -1 <= x <= 1) nodes ->
  rules_of rule ds rs -> Forall (fun d => (2 <= length d)%nat /\ nondecreasing d /\ steps_at_most h d) ds ->
  forall T F G, (forall p, in_box (covered ds) p -> Rabs (F p - G p) <= T) ->
  Rabs (iterated rs F - iterated rs G) <= T * volume (covered ds).
Proof.
  intros S HK Hw Hs Hn HR. induction HR as [|d r ds rs (E & Lr & Ne) HR IH]; intros HD T F G HF.
  - simpl. unfold volume, prodR. simpl. rewrite Rmult_1_r. apply HF. constructor.
  - inversion HD as [|? ? (D1 & D2 & D3) HD2]; subst. destruct r as [W X]. cbn [iterated].
    set (I := fun x => iterated rs (fun p => F (x :: p))). set (J := fun x => iterated rs (fun p => G (x :: p))).
    change (sumR (map2 (fun wi xi => wi * iterated rs (fun p => F (xi :: p))) W X)) with (sumR (map2 (fun w x => w * I x) (fst (W, X)) (snd (W, X)))).
    change (sumR (map2 (fun wi xi => wi * iterated rs (fun p => G (xi :: p))) W X)) with (sumR (map2 (fun w x => w * J x) (fst (W, X)) (snd (W, X)))).
    rewrite !(rule_sum rule nodes weights d (W, X) _ S D1 E), over_panels_minus.
    replace (T * volume (covered (d :: ds))) with (T * volume (covered ds) * (final d - first d)) by (unfold volume; cbn [covered map fst snd]; unfold prodR; cbn [fold_right]; unfold covered; ring).
    apply panels_bound; auto; [apply HK|lia|]. intros x Hx. apply (IH HD2). intros p Hp. apply HF. constructor; auto.
Qed.
Lemma in_box_sub box box' p : Forall2 (fun ab cd : R * R => fst ab <= fst cd /\ snd cd <= snd ab) box box' -> in_box box' p -> in_box box p.
Proof.
  intros H. revert p. induction H as [|ab cd box box' [H1 H2] H IH]; intros p Hp; inversion Hp; subst; constructor; [lra|]. apply IH; auto.
Qed.
Lemma smooth_box_sub box box' K M F : Forall2 (fun ab cd : R * R => fst ab <= fst cd /\ snd cd <= snd ab) box box' -> smooth_box box K M F -> smooth_box box' K M F.
Proof.
  intros HS ((L & P & HL) & H). pose proof (fun p => in_box_sub box box' p HS) as IN. split.
  - exists L. split; auto. intros p q Hp Hq. apply HL; auto.
  - intros i Hi. pose proof (Forall2_length _ _ _ HS) as EL. destruct (H i) as (lo & hi & H1 & H2 & H3 & H4 & H5); [lia|].
    exists lo, hi.
    assert (N : fst (nth i box (0, 0)) <= fst (nth i box' (0, 0)) /\ snd (nth i box' (0, 0)) <= snd (nth i box (0, 0))).
    { clear - HS Hi. revert i Hi. induction HS as [|ab cd box box' H HS IH]; intros [|i] Hi; cbn in *; try lia; auto. apply IH. lia. }
    split; [lra|]. split; [lra|]. split; [auto|]. split; [auto|].
    intros k Hk. destruct (H5 k Hk) as (L' & P' & HL'). exists L'. split; auto. intros p q Hp Hq. apply HL'; auto.
Qed.

(** *** sums over cells *)
Lemma over_panels_lsum q d : over_panels q d = lsum (length d - 1) (fun i => q (nth i d 0) (nth (S i) d 0)).
Proof.
  destruct d as [|a d]; [reflexivity|]. cbn [length]. rewrite Nat.sub_succ, Nat.sub_0_r. revert a.
  induction d as [|b t IH]; intros a; [reflexivity|].
  change (over_panels q (a :: b :: t)) with (q a b + over_panels q (b :: t)). rewrite IH. cbn [length].
  rewrite (lsum_shift (length t)). reflexivity.
Qed.
Lemma grid_between d i : nondecreasing d -> (i < length d)%nat -> first d <= nth i d 0 <= final d.
Proof.
  intros H Hi. pose proof (nondecreasing_first_final d H ltac:(lia)) as A. unfold all_between in A. rewrite Forall_forall in A.
  apply A, nth_In. auto.
Qed.
Lemma grid_step_le d i : nondecreasing d -> (S i < length d)%nat -> nth i d 0 <= nth (S i) d 0.
Proof.
  revert i. induction d as [|a d IH]; intros i H Hi; [simpl in Hi; lia|]. destruct d as [|b t]; [simpl in Hi; lia|].
  destruct H as [H1 H2]. destruct i as [|i]; [exact H1|]. apply (IH i H2). simpl in *. lia.
Qed.
Lemma grid_step_at_most h d i : steps_at_most h d -> (S i < length d)%nat -> nth (S i) d 0 - nth i d 0 <= h.
Proof.
  revert i. induction d as [|a d IH]; intros i H Hi; [simpl in Hi; lia|]. destruct d as [|b t]; [simpl in Hi; lia|].
  destruct H as [H1 H2]. destruct i as [|i]; [exact H1|]. apply (IH i H2). simpl in *. lia.
Qed.
Lemma cells_RInt f d : (1 <= length d)%nat -> nondecreasing d ->
  (forall a b, first d <= a <= final d -> first d <= b <= final d -> ex_RInt f a b) ->
  lsum (length d - 1) (fun i => RInt f (nth i d 0) (nth (S i) d 0)) = RInt f (first d) (final d).
Proof.
  intros H1 H2 EX. rewrite <- (over_panels_lsum (RInt f)).
  assert (B : Rabs (over_panels (RInt f) d - RInt f (first d) (final d)) <= 0 * (final d - first d)).
  { apply panels_close; auto. intros a b t1 t2 _. rewrite Rminus_diag_eq, Rabs_R0 by auto. lra. }
  rewrite Rmult_0_l in B. apply Rabs_le_between in B. lra.
Qed.
Lemma cells_length d : (1 <= length d)%nat -> lsum (length d - 1) (fun i => nth (S i) d 0 - nth i d 0) = final d - first d.
Proof.
  intros H. rewrite <- (over_panels_lsum (fun a b => b - a)). destruct d as [|a d]; [simpl in H; lia|]. clear H. revert a.
  induction d as [|b t IH]; intros a; [unfold first, final; simpl; ring|].
  change (over_panels (fun a b => b - a) (a :: b :: t)) with (b - a + over_panels (fun a b => b - a) (b :: t)). rewrite IH.
  change (final (a :: b :: t)) with (final (b :: t)). unfold first. cbn [hd]. ring.
Qed.
Lemma RInt_lsum n (g : nat -> R -> R) a b : (forall j, (j < n)%nat -> ex_RInt (g j) a b) ->
  ex_RInt (fun x => lsum n (fun j => g j x)) a b /\ RInt (fun x => lsum n (fun j => g j x)) a b = lsum n (fun j => RInt (g j) a b).
Proof.
  induction n as [|n IH]; intros H.
  - split; [exact (ex_RInt_const (V := R_NormedModule) a b 0)|]. change (RInt (fun _ => 0) a b = 0). rewrite (RInt_const (V := R_CompleteNormedModule)). apply Rmult_0_r.
  - destruct IH as [E1 E2]; [intros; apply H; lia|]. specialize (H n ltac:(lia)).
    assert (X : is_RInt (fun x => lsum (S n) (fun j => g j x)) a b (lsum (S n) (fun j => RInt (g j) a b))).
    { rewrite lsum_S, <- E2. apply (is_RInt_ext (fun x => lsum n (fun j => g j x) + g n x)); [intros x _; rewrite lsum_S; reflexivity|].
      apply (is_RInt_plus (V := R_NormedModule)); apply (RInt_correct (V := R_CompleteNormedModule)); auto. }
    split; [eexists; exact X|]. apply (is_RInt_unique _ _ _ _ X).
Qed.
Lemma lsum_abs n g h : (forall i, (i < n)%nat -> Rabs (g i) <= h i) -> Rabs (lsum n g) <= lsum n h.
Proof.
  induction n as [|n IH]; intros H; [unfold lsum, sumR; simpl; rewrite Rabs_R0; lra|]. rewrite !lsum_S.
  eapply Rle_trans; [apply Rabs_triang|]. apply Rplus_le_compat; [apply IH; intros; apply H; lia|apply H; lia].
Qed.

Lemma lips_restrict box box' F : Forall2 (fun ab cd : R * R => fst ab <= fst cd /\ snd cd <= snd ab) box box' -> lips box F -> lips box' F.
Proof. intros HS (L & P & HL). exists L. split; auto. intros p q Hp Hq. apply HL; eapply in_box_sub; eauto. Qed.
Lemma cells_iterated u v F : (2 <= length u)%nat -> (2 <= length v)%nat -> nondecreasing u -> nondecreasing v -> lips (covered [u; v]) F ->
  lsum (length u - 1) (fun i => lsum (length v - 1) (fun j => iterated_RInt (covered [cell u i; cell v j]) F)) = iterated_RInt (covered [u; v]) F.
Proof.
  intros Lu Lv Nu Nv HF.
  assert (Hu : first u <= final u) by (pose proof (grid_between u 0 Nu); lra || (pose proof (grid_between u 0 Nu ltac:(lia)); lra)).
  assert (Hv : first v <= final v) by (pose proof (grid_between v 0 Nv ltac:(lia)); lra).
  cbn [covered map iterated_RInt] in *.
  assert (EY : forall x c d, first u <= x <= final u -> first v <= c <= final v -> first v <= d <= final v -> ex_RInt (fun y => F [x; y]) c d).
  { intros x c d Hx Hc Hd. pose proof (lips_tail _ _ _ F x Hx HF) as HT.
    exact (lips_ex _ _ _ _ Hv (Forall_nil _) HT c d Hc Hd). }
  assert (EX : forall c d, first v <= c <= d -> d <= final v -> forall a b, first u <= a <= final u -> first u <= b <= final u ->
     ex_RInt (fun x => RInt (fun y => F [x; y]) c d) a b).
  { intros c d Hc Hd. apply (lips_ex (first u) (final u) [(c, d)] F); auto.
    - constructor; [cbn; lra|constructor].
    - eapply lips_restrict; [|exact HF]. (constructor; [cbn; split; lra|constructor; [cbn; split; lra|constructor]]). }
  rewrite <- (cells_RInt (fun x => RInt (fun y => F [x; y]) (first v) (final v)) u) by (auto; try lia; apply EX; lra).
  apply lsum_ext. intros i Hi.
  assert (Bi : first u <= nth i u 0 <= final u) by (apply grid_between; auto; lia).
  assert (Bi' : first u <= nth (S i) u 0 <= final u) by (apply grid_between; auto; lia).
  pose proof (grid_step_le u i Nu ltac:(lia)) as Si.
  unfold cell, first at 1 2, final at 1 2. cbn [hd last].
  destruct (RInt_lsum (length v - 1) (fun j x => RInt (fun y => F [x; y]) (nth j v 0) (nth (S j) v 0)) (nth i u 0) (nth (S i) u 0)) as [_ E].
  - intros j Hj. pose proof (grid_step_le v j Nv ltac:(lia)). apply EX; auto; [split; auto|]; apply grid_between; auto; lia.
  - unfold first, final in E |- *. cbn [hd last] in E |- *. rewrite <- E. apply RInt_ext. intros x Hx. rewrite Rmin_left, Rmax_right in Hx by auto.
    apply (cells_RInt (fun y => F [x; y]) v); auto; [lia|]. intros a b Ha Hb. apply EY; auto. lra.
Qed.

Lemma cells_error rule nodes weights K h u v du dv (H : nat -> nat -> list R -> R) (Q : nat -> nat -> R) T M F :
  sound_rule rule nodes weights -> reference_exact K nodes weights ->
  Forall (fun w => 0 <= w) weights -> sumR weights = 2 -> Forall (fun x => -1 <= x <= 1) nodes ->
  (2 <= length u)%nat -> (2 <= length v)%nat -> nondecreasing u -> nondecreasing v ->
  (forall i, (S i < length u)%nat -> first (du i) = nth i u 0 /\ final (du i) = nth (S i) u 0 /\ (2 <= length (du i))%nat /\ nondecreasing (du i) /\ steps_at_most h (du i)) ->
  (forall j, (S j < length v)%nat -> first (dv j) = nth j v 0 /\ final (dv j) = nth (S j) v 0 /\ (2 <= length (dv j))%nat /\ nondecreasing (dv j) /\ steps_at_most h (dv j)) ->
  (forall i j, (S i < length u)%nat -> (S j < length v)%nat -> quad2 rule (du i) (dv j) (H i j) (Q i j)) ->
  (forall i j x y, (S i < length u)%nat -> (S j < length v)%nat -> nth i u 0 <= x <= nth (S i) u 0 -> nth j v 0 <= y <= nth (S j) v 0 ->
     Rabs (H i j [x; y] - F [x; y]) <= T) ->
  smooth_box (covered [u; v]) K M F ->
  Rabs (total (length u - 1) (fun i => total (length v - 1) (fun j => Q i j)) - iterated_RInt (covered [u; v]) F)
  <= (T + 2 * (2 * M / INR (fact (S K)) * (h / 2) ^ S K)) * ((final u - first u) * (final v - first v)).
Proof.
  intros SR HK Hw Hs Hn Lu Lv Nu Nv Hu Hv HQ HT HF. change total with lsum.
  rewrite <- (cells_iterated u v F) by (auto; apply HF).
  set (C := T + 2 * (2 * M / INR (fact (S K)) * (h / 2) ^ S K)).
  rewrite <- (cells_length u), <- (cells_length v) by lia.
  rewrite <- P_Stray1.lsum_minus. eapply Rle_trans; [apply (lsum_abs _ _ (fun i => C * ((nth (S i) u 0 - nth i u 0) * lsum (length v - 1) (fun j => nth (S j) v 0 - nth j v 0))))|].
  2:{ apply Req_le. rewrite lsum_scal, P_Stray1.lsum_scal_r. ring. }
  intros i Hi. rewrite <- P_Stray1.lsum_minus.
  eapply Rle_trans; [apply (lsum_abs _ _ (fun j => C * (nth (S i) u 0 - nth i u 0) * (nth (S j) v 0 - nth j v 0)))|].
  2:{ apply Req_le. rewrite lsum_scal. ring. }
  intros j Hj. destruct (Hu i ltac:(lia)) as (U1 & U2 & U3 & U4 & U5). destruct (Hv j ltac:(lia)) as (V1 & V2 & V3 & V4 & V5).
  destruct (HQ i j ltac:(lia) ltac:(lia)) as (ru & rv & E1 & E2 & ->).
  pose proof (grid_between u i Nu ltac:(lia)). pose proof (grid_between u (S i) Nu ltac:(lia)).
  pose proof (grid_between v j Nv ltac:(lia)). pose proof (grid_between v (S j) Nv ltac:(lia)).
  assert (HD : Forall (fun d => (2 <= length d)%nat /\ nondecreasing d /\ steps_at_most h d) [du i; dv j]) by (repeat constructor; auto).
  assert (HR : rules_of rule [du i; dv j] [ru; rv]).
  { destruct (sound_rules_of _ _ _ [du i; dv j] SR) as [rs R0]; [repeat constructor; auto|].
    inversion R0 as [|d1 r1 ds1 rs1 A1 R1]; subst. inversion R1 as [|d2 r2 ds2 rs2 A2 R2]; subst. inversion R2; subst.
    destruct A1 as [A1 B1]. destruct A2 as [A2 B2]. rewrite E1 in A1. rewrite E2 in A2. injection A1 as <-. injection A2 as <-.
    constructor; [split; auto|]. constructor; [split; auto|constructor]. }
  assert (EC : covered [du i; dv j] = covered [cell u i; cell v j]).
  { unfold covered. cbn [map]. rewrite U1, U2, V1, V2. reflexivity. }
  assert (EV : volume (covered [cell u i; cell v j]) = (nth (S i) u 0 - nth i u 0) * (nth (S j) v 0 - nth j v 0)) by (unfold volume, prodR; cbn; ring).
  assert (SF : smooth_box (covered [du i; dv j]) K M F).
  { rewrite EC. eapply smooth_box_sub; [|exact HF]. (constructor; [cbn; split; lra|constructor; [cbn; split; lra|constructor]]). }
  pose proof (iterated_order rule nodes weights K h _ _ SR HK Hw Hs Hn HR HD M F SF) as B1.
  pose proof (iterated_near rule nodes weights K h _ _ SR HK Hw Hs Hn HR HD T (H i j) F) as B2.
  rewrite EC, EV in B1, B2. specialize (B2 ltac:(intros p Hp; inversion Hp as [|? x ? ? X1 Hp1]; subst; inversion Hp1 as [|? y ? ? X2 Hp2]; subst; inversion Hp2; subst; apply HT; auto; lia)).
  replace (iterated [ru; rv] (H i j) - iterated_RInt (covered [cell u i; cell v j]) F) with
    ((iterated [ru; rv] (H i j) - iterated [ru; rv] F) + (iterated [ru; rv] F - iterated_RInt (covered [cell u i; cell v j]) F)) by ring.
  eapply Rle_trans; [apply Rabs_triang|]. eapply Rle_trans; [apply Rplus_le_compat; [exact B2|exact B1]|].
  apply Req_le. unfold C. cbn [length INR]. ring.
Qed.
