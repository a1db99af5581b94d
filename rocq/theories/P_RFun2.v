(** Proofs about compose, the primitive shapes and the ADF transformers. *)
From Coquelicot Require Import Coquelicot.
From Verif Require Import Base BaseFacts M_Quat S_Quat P_Quat M_RFun S_RFun P_RFun1 P_Vec.

(** *** compose *)
Lemma reduce_from_fold {A} (op : A -> A -> res A) l acc :
  reduce_from op acc l = fold_left (fun r v => bind r (fun a => op a v)) l (Ok acc).
Proof.
  revert acc; induction l as [|x l IH]; intros acc; simpl; [reflexivity|].
  destruct (op acc x) as [a|e]; cbn [bind]; [apply IH|].
  clear. induction l as [|y l IH]; simpl; auto.
Qed.

Lemma sequence_operands adfs x ds : Forall2 (fun df d => df x = Ok d) adfs ds ->
  sequence (map (fun df : arr -> res arr => d <- df x ;; Ok (ravel d)) adfs) = Ok (map ravel ds).
Proof.
  induction 1 as [|df d adfs ds H _ IH]; simpl; [reflexivity|].
  rewrite H. cbn [bind]. rewrite IH. reflexivity.
Qed.

Lemma compose_eval op adfs x ds : adfs <> [] -> Forall2 (fun df d => df x = Ok d) adfs ds ->
  compose op adfs x = reduce op (concat (map ravel ds)).
Proof.
  intros Hne H. unfold compose. rewrite (sequence_operands _ _ _ H). cbn [bind].
  inversion H; subst; [congruence|]. reflexivity.
Qed.

Lemma compose_fold op adfs x ds v vs : Forall2 (fun df d => df x = Ok d) adfs ds ->
  concat (map ravel ds) = v :: vs ->
  compose op adfs x = fold_left (fun r w => bind r (fun a => op a w)) vs (Ok v).
Proof.
  intros H E. rewrite (compose_eval op adfs x ds); auto.
  - rewrite E. cbn [reduce]. apply reduce_from_fold.
  - intros ->. inversion H; subst. discriminate.
Qed.
Lemma compose_none op x : compose op [] x = Err ValueError.
Proof. reflexivity. Qed.
Lemma compose_empty op adfs x ds : adfs <> [] -> Forall2 (fun df d => df x = Ok d) adfs ds ->
  concat (map ravel ds) = [] -> compose op adfs x = Err TypeError.
Proof. intros Hn H E. rewrite (compose_eval op adfs x ds Hn H), E. reflexivity. Qed.
Lemma compose_operand_error op pre df post x ds e : Forall2 (fun df d => df x = Ok d) pre ds ->
  df x = Err e -> compose op (pre ++ df :: post) x = Err e.
Proof.
  intros H E. unfold compose. rewrite map_app, sequence_app, (sequence_operands _ _ _ H).
  cbn [bind map sequence]. rewrite E. reflexivity.
Qed.

Lemma reduce_conj s acc l : sign_correct s ->
  exists v, reduce_from (conj_ s) acc l = Ok v /\
    (0 < v <-> 0 < acc /\ Forall (fun a => 0 < a) l) /\
    (v < 0 <-> acc < 0 \/ Exists (fun a => a < 0) l).
Proof.
  intros SC. revert acc; induction l as [|x l IH]; intros acc; simpl.
  - exists acc. split; [reflexivity|]. split; split; intros H.
    + split; auto.
    + tauto.
    + auto.
    + destruct H as [H|H]; auto. inversion H.
  - destruct (conj_dec s SC acc x) as (c & E & P & N). rewrite E. cbn [bind].
    destruct (IH c) as (v & Ev & Pv & Nv). exists v. split; auto. rewrite Pv, Nv, P, N. split.
    + split; [intros [[A B] C]; auto|intros [A C]; inversion C; auto].
    + split.
      * intros [[A|A]|A]; auto.
      * intros [A|A]; auto. inversion A; subst; auto.
Qed.
Lemma reduce_disj s acc l : sign_correct s ->
  exists v, reduce_from (disj_ s) acc l = Ok v /\
    (0 < v <-> 0 < acc \/ Exists (fun a => 0 < a) l) /\
    (v < 0 <-> acc < 0 /\ Forall (fun a => a < 0) l).
Proof.
  intros SC. revert acc; induction l as [|x l IH]; intros acc; simpl.
  - exists acc. split; [reflexivity|]. split; split; intros H.
    + auto.
    + destruct H as [H|H]; auto. inversion H.
    + split; auto.
    + tauto.
  - destruct (disj_dec s SC acc x) as (c & E & P & N). rewrite E. cbn [bind].
    destruct (IH c) as (v & Ev & Pv & Nv). exists v. split; auto. rewrite Pv, Nv, P, N. split.
    + split.
      * intros [[A|A]|A]; auto.
      * intros [A|A]; auto. inversion A; subst; auto.
    + split; [intros [[A B] C]; auto|intros [A C]; inversion C; auto].
Qed.

Lemma compose_conj s adfs x ds : sign_correct s -> Forall2 (fun df d => df x = Ok d) adfs ds ->
  concat (map ravel ds) <> [] ->
  decides (compose (conj_ s) adfs x) (Forall (fun a => 0 < a) (concat (map ravel ds)))
          (Exists (fun a => a < 0) (concat (map ravel ds))).
Proof.
  intros SC H Hne. rewrite (compose_eval _ adfs x ds); auto.
  - destruct (concat (map ravel ds)) as [|v vs]; [congruence|]. cbn [reduce].
    destruct (reduce_conj s v vs SC) as (w & E & P & N). exists w. split; auto.
    rewrite P, N. rewrite Forall_cons_iff, Exists_cons. tauto.
  - intros ->. inversion H; subst. auto.
Qed.
Lemma compose_disj s adfs x ds : sign_correct s -> Forall2 (fun df d => df x = Ok d) adfs ds ->
  concat (map ravel ds) <> [] ->
  decides (compose (disj_ s) adfs x) (Exists (fun a => 0 < a) (concat (map ravel ds)))
          (Forall (fun a => a < 0) (concat (map ravel ds))).
Proof.
  intros SC H Hne. rewrite (compose_eval _ adfs x ds); auto.
  - destruct (concat (map ravel ds)) as [|v vs]; [congruence|]. cbn [reduce].
    destruct (reduce_disj s v vs SC) as (w & E & P & N). exists w. split; auto.
    rewrite P, N. rewrite Forall_cons_iff, Exists_cons. tauto.
  - intros ->. inversion H; subst. auto.
Qed.

(** *** cuboid *)
Lemma interleave_ok a b : length a = length b ->
  exists L, interleave a b = Ok L /\ length L = (2 * length a)%nat /\
    (forall P, Forall P L <-> Forall P a /\ Forall P b) /\
    (forall P, Exists P L <-> Exists P a \/ Exists P b).
Proof.
  revert b; induction a as [|x a IH]; intros [|y b] H; simpl in H; try lia.
  - exists []. repeat split; auto; try tauto; intros; try (destruct H0; auto). 
  - destruct (IH b) as (L & E & HL & HF & HE); [lia|]. exists (x :: y :: L).
    simpl. rewrite E. cbn [bind]. split; [reflexivity|]. split; [simpl; lia|]. split; intros P.
    + rewrite !Forall_cons_iff, HF. tauto.
    + rewrite !Exists_cons, HE. tauto.
Qed.

Lemma Forall_nth_iff (P : R -> Prop) l : Forall P l <-> forall i, (i < length l)%nat -> P (nth i l 0).
Proof.
  rewrite Forall_nth. split.
  - intros H i Hi. apply H; auto.
  - intros H i d Hi. rewrite (nth_indep l d 0 Hi). auto.
Qed.

Lemma box_reduce s ub lb x : sign_correct s -> x <> [] -> length lb = length x -> length ub = length x ->
  exists L v, interleave (vsub ub x) (vsub x lb) = Ok L /\
    reduce (conj_ s) (concat [L]) = Ok v /\
    (0 < v <-> strictly_inside lb ub x) /\
    (v = 0 <-> inside_closed lb ub x /\
        exists i, (i < length x)%nat /\ (nth i x 0 = nth i lb 0 \/ nth i x 0 = nth i ub 0)) /\
    (v < 0 <-> ~ inside_closed lb ub x).
Proof.
  intros SC Hx Hl Hu.
  assert (Ha : length (vsub ub x) = length x) by vlen.
  assert (Hb : length (vsub x lb) = length x) by vlen.
  destruct (interleave_ok (vsub ub x) (vsub x lb)) as (L & E & HL & HF & HE); [congruence|].
  assert (exists w ws, L = w :: ws) as (w & ws & EL).
  { destruct L; [|eauto]. destruct x; [congruence|]. simpl in *. lia. }
  destruct (reduce_conj s w ws SC) as (v & Ev & P & N).
  exists L, v. split; auto. split.
  { rewrite EL. simpl. rewrite app_nil_r. exact Ev. }
  assert (FP : 0 < v <-> Forall (fun a => 0 < a) L) by (rewrite P, EL, Forall_cons_iff; tauto).
  assert (FN : v < 0 <-> Exists (fun a => a < 0) L) by (rewrite N, EL, Exists_cons; tauto).
  assert (SI : strictly_inside lb ub x <-> Forall (fun a => 0 < a) L).
  { rewrite HF, !Forall_nth_iff, Ha, Hb. unfold strictly_inside. split.
    - intros (_ & _ & H). split; intros i Hi; specialize (H i Hi); rewrite nth_vsub by congruence; lra.
    - intros [H1 H2]. repeat split; auto; specialize (H1 i H); specialize (H2 i H);
        rewrite nth_vsub in H1, H2 by congruence; lra. }
  assert (IC : inside_closed lb ub x <-> Forall (fun a => 0 <= a) L).
  { rewrite HF, !Forall_nth_iff, Ha, Hb. unfold inside_closed. split.
    - intros (_ & _ & H). split; intros i Hi; specialize (H i Hi); rewrite nth_vsub by congruence; lra.
    - intros [H1 H2]. repeat split; auto; specialize (H1 i H); specialize (H2 i H);
        rewrite nth_vsub in H1, H2 by congruence; lra. }
  assert (NI : v < 0 <-> ~ inside_closed lb ub x).
  { rewrite FN, IC. rewrite Exists_exists, Forall_forall. split.
    - intros (a & Ia & La) H. specialize (H a Ia). lra.
    - intros H. apply Classical_Prop.NNPP. intros C. apply H. intros a Ia.
      destruct (Rlt_le_dec a 0); auto. exfalso. apply C. eauto. }
  split; [rewrite FP, SI; tauto|]. split; [|exact NI].
  split.
  - intros V0. assert (C : inside_closed lb ub x).
    { apply Classical_Prop.NNPP. intros C. apply NI in C. lra. }
    split; auto. apply Classical_Prop.NNPP. intros D.
    assert (0 < v); [|lra]. rewrite FP, <- SI. destruct C as (H1 & H2 & H3).
    repeat split; auto; specialize (H3 i H);
      (destruct (Req_dec (nth i x 0) (nth i lb 0)) as [Q|Q]; [exfalso; apply D; eauto|]);
      (destruct (Req_dec (nth i x 0) (nth i ub 0)) as [Q'|Q']; [exfalso; apply D; eauto|]); lra.
  - intros (C & i & Hi & D).
    assert (~ v < 0) by (rewrite NI; tauto). assert (~ 0 < v); [|lra].
    rewrite FP, <- SI. intros (_ & _ & S). specialize (S i Hi). lra.
Qed.

Lemma cuboid_corner e x s : sign_correct s -> x <> [] -> length e = length x ->
  membership (cuboid (A1 e) false s (A1 x)) (repeat 0 (length x)) e x.
Proof.
  intros SC Hx He. unfold cuboid, compose. cbn [amap map sequence].
  unfold bop. rewrite !bcast1_eq by (rewrite ?map_length; congruence). cbn [bind].
  assert (El : map (fun _ => 0) e = repeat 0 (length x)).
  { rewrite <- He. clear. induction e; simpl; f_equal; auto. }
  rewrite El. cbn [ravel].
  destruct (box_reduce s e (repeat 0 (length x)) x SC Hx (repeat_length _ _) He) as (L & v & E1 & E2 & H).
  unfold vsub in E1. rewrite E1. cbn [bind ravel]. exists v. split; [exact E2|exact H].
Qed.
Lemma cuboid_centered e x s : sign_correct s -> x <> [] -> length e = length x ->
  membership (cuboid (A1 e) true s (A1 x)) (map (fun l => - l / 2) e) (map (fun l => l / 2) e) x.
Proof.
  intros SC Hx He. unfold cuboid, compose. cbn [amap map sequence].
  unfold bop. rewrite !bcast1_eq by (rewrite ?map_length; congruence). cbn [bind].
  cbn [ravel].
  destruct (box_reduce s (map (fun l => l / 2) e) (map (fun l => - l / 2) e) x SC Hx) as (L & v & E1 & E2 & H);
    try (rewrite map_length; auto).
  unfold vsub in E1. rewrite E1. cbn [bind ravel]. exists v. split; [exact E2|exact H].
Qed.
Lemma cube_is_cuboid l c s x : cube l c s (A1 x) = cuboid (A1 (repeat l (length x))) c s (A1 x).
Proof.
  unfold cube, cuboid, compose. cbn [map sequence]. unfold bop, amap.
  assert (B : forall (f : R -> R -> R) a, bcast1 f (repeat a (length x)) x = Ok (map (f a) x)).
  { intros f a. rewrite bcast1_eq by apply repeat_length. f_equal.
    clear. induction x; simpl; f_equal; auto. }
  assert (B' : forall (f : R -> R -> R) a, bcast1 f x (repeat a (length x)) = Ok (map (fun y => f y a) x)).
  { intros f a. rewrite bcast1_eq by (symmetry; apply repeat_length). f_equal.
    clear. induction x; simpl; f_equal; auto. }
  assert (M : forall f : R -> R, map f (repeat l (length x)) = repeat (f l) (length x)).
  { intros f. clear. induction x; simpl; f_equal; auto. }
  destruct c; cbn iota; rewrite ?M, ?B, ?B'; reflexivity.
Qed.
Lemma cuboid_shape_error e c s x : length e <> length x -> length e <> 1%nat -> length x <> 1%nat ->
  cuboid (A1 e) c s (A1 x) = Err TypeError.
Proof.
  intros H1 H2 H3. unfold cuboid, compose. cbn [map sequence]. unfold bop, amap.
  assert (B : forall l, length l = length e -> bcast1 Rminus l x = Err TypeError).
  { intros l Hl. unfold bcast1. destruct (Nat.eqb_spec (length l) (length x)); [congruence|].
    destruct l as [|a [|b l]], x as [|u [|w x]]; simpl in *; try congruence; try lia; reflexivity. }
  destruct c; cbn iota; rewrite B by (rewrite ?map_length; auto); reflexivity.
Qed.

(** *** sphere, cylinder *)
Lemma sphere_value r x : 0 < r -> sphere r (A1 x) = Ok ((r ^ 2 - sumsq x) / (2 * r)).
Proof. intros H. unfold sphere, anorm, ravel. rewrite normR_pow2. apply fdiv_ok. lra. Qed.

Lemma sign_quot a b : 0 < b -> (0 < a / b <-> 0 < a) /\ (a / b < 0 <-> a < 0).
Proof.
  intros Hb. assert (0 < / b) by (apply Rinv_0_lt_compat; auto). unfold Rdiv.
  repeat split; intros; nra.
Qed.
Lemma norm_lt_iff x r : 0 < r -> (normR x < r <-> sumsq x < r ^ 2) /\ (r < normR x <-> r ^ 2 < sumsq x).
Proof.
  intros Hr. pose proof (normR_nonneg x) as P. rewrite <- (normR_sq x). repeat split; intros; nra.
Qed.

Lemma sphere_decides r x : 0 < r -> decides (sphere r (A1 x)) (normR x < r) (r < normR x).
Proof.
  intros H. rewrite sphere_value by auto. eexists; split; [reflexivity|].
  assert (H2 : 0 < 2 * r) by lra.
  destruct (sign_quot (r ^ 2 - sumsq x) (2 * r) H2) as [P N]. rewrite P, N.
  destruct (norm_lt_iff x r H) as [L G]. rewrite L, G. split; split; lra.
Qed.
Lemma cylinder_decides r a b x : 0 < r ->
  decides (cylinder r (A1 (a :: b :: x))) (sqrt (a ^ 2 + b ^ 2) < r) (r < sqrt (a ^ 2 + b ^ 2)) /\
  cylinder r (A1 (a :: b :: x)) = cylinder r (A1 [a; b]).
Proof.
  intros H. split; [|reflexivity]. cbn [cylinder firstn].
  replace (sqrt (a ^ 2 + b ^ 2)) with (normR [a; b]); [apply sphere_decides; auto|].
  unfold normR, sumR. simpl. f_equal. ring.
Qed.

Lemma sphere_gradient r x v : 0 < r -> length v = length x ->
  dir_deriv (sphere r) x v (dotR (vscal (- / r) x) v).
Proof.
  intros Hr Hv.
  exists (fun t => (r ^ 2 - (sumsq x + 2 * (t * dotR x v) + t * t * sumsq v)) / (2 * r)). split.
  - apply filter_forall. intros t. rewrite sphere_value by auto. do 3 f_equal.
    rewrite sumsq_vadd by (rewrite vscal_length; auto). rewrite sumsq_vscal, dotR_vscal_r. reflexivity.
  - rewrite dotR_vscal. auto_derive; [lra|]. field. lra.
Qed.
Lemma sphere_gradient_unit r x : 0 < r -> normR x = r -> normR (vscal (- / r) x) = 1.
Proof.
  intros Hr Hx. unfold vscal. rewrite normR_scal, Hx, Rabs_Ropp, Rabs_right.
  - field. lra.
  - apply Rle_ge, Rlt_le, Rinv_0_lt_compat; auto.
Qed.

(** *** normalize_1st_order *)
Lemma normalize_defined f df x y dy : f x = Ok y -> df x = Ok dy -> y <> 0 \/ anorm dy <> 0 ->
  exists z, normalize_1st_order f df x = Ok z /\ sg z = sg y /\ -1 <= z <= 1.
Proof.
  intros Hf Hd Hn. unfold normalize_1st_order. rewrite Hf, Hd. cbn [bind].
  assert (P : 0 < y ^ 2 + anorm dy ^ 2).
  { pose proof (pow2_ge_0 y). pose proof (pow2_ge_0 (anorm dy)).
    destruct Hn as [H1|H1]; [pose proof (pow2_gt_0 y H1)|pose proof (pow2_gt_0 _ H1)]; lra. }
  rewrite fsqrt_ok by lra. cbn [bind].
  set (S := sqrt (y ^ 2 + anorm dy ^ 2)).
  assert (HS : 0 < S) by (apply sqrt_lt_R0; auto). rewrite fdiv_ok by lra.
  eexists; split; [reflexivity|]. split.
  - unfold Rdiv. rewrite Rmult_comm. apply sg_mult_pos. apply Rinv_0_lt_compat; auto.
  - assert (Rabs y <= S).
    { rewrite <- sqrt_Rsqr_abs. apply sqrt_le_1_alt. unfold Rsqr. pose proof (pow2_ge_0 (anorm dy)). lra. }
    apply Rabs_le_between in H. split.
    + apply Rmult_le_reg_r with S; auto. unfold Rdiv. rewrite Rmult_assoc, Rinv_l by lra. lra.
    + apply Rmult_le_reg_r with S; auto. unfold Rdiv. rewrite Rmult_assoc, Rinv_l by lra. lra.
Qed.

Lemma normalize_undefined f df x y dy : f x = Ok y -> df x = Ok dy -> y = 0 -> anorm dy = 0 ->
  normalize_1st_order f df x = Err NonFinite.
Proof.
  intros Hf Hd -> H0. unfold normalize_1st_order. rewrite Hf, Hd. cbn [bind]. rewrite H0.
  replace (0 ^ 2 + 0 ^ 2) with 0 by ring. rewrite fsqrt_ok by lra. cbn [bind]. rewrite sqrt_0.
  apply fdiv_0; reflexivity.
Qed.

(** product with a factor that vanishes: only continuity of the other one is needed *)
Lemma is_derive_mul_0 (F h : R -> R) d : is_derive F 0 d -> F 0 = 0 -> continuous h 0 ->
  is_derive (fun t => F t * h t) 0 (d * h 0).
Proof.
  intros HF F0 Hh. apply is_derive_Reals. apply is_derive_Reals in HF.
  apply continuity_pt_filterlim in Hh.
  unfold derivable_pt_lim. intros eps Heps.
  set (M := Rabs (h 0) + 1). assert (PM : 0 < M) by (unfold M; pose proof (Rabs_pos (h 0)); lra).
  set (D := Rabs d + 1). assert (PD : 0 < D) by (unfold D; pose proof (Rabs_pos d); lra).
  assert (E1 : 0 < eps / (2 * M)) by (apply Rdiv_lt_0_compat; lra).
  destruct (HF _ E1) as [d1 H1].
  assert (E2 : 0 < Rmin 1 (eps / (2 * D))) by (apply Rmin_pos; [lra|apply Rdiv_lt_0_compat; lra]).
  destruct (Hh _ E2) as (d2 & Pd2 & H2).
  assert (Pd : 0 < Rmin d1 d2) by (apply Rmin_pos; [apply cond_pos|auto]).
  exists (mkposreal _ Pd). intros t Ht Hlt. simpl in Hlt.
  assert (L1 : Rabs t < d1) by (eapply Rlt_le_trans; [exact Hlt|apply Rmin_l]).
  assert (L2 : Rabs t < d2) by (eapply Rlt_le_trans; [exact Hlt|apply Rmin_r]).
  specialize (H1 t Ht L1). rewrite Rplus_0_l, F0, Rminus_0_r in *. rewrite Rmult_0_l, Rminus_0_r.
  assert (H2' : Rabs (h t - h 0) < Rmin 1 (eps / (2 * D))).
  { apply (H2 t). split.
    - split; [exact I|]. auto.
    - simpl. unfold R_dist. rewrite Rminus_0_r. auto. }
  assert (H2a : Rabs (h t - h 0) < 1) by (eapply Rlt_le_trans; [exact H2'|apply Rmin_l]).
  assert (H2b : Rabs (h t - h 0) < eps / (2 * D)) by (eapply Rlt_le_trans; [exact H2'|apply Rmin_r]).
  replace (F t * h t / t - d * h 0) with ((F t / t - d) * h t + d * (h t - h 0)) by (field; auto).
  eapply Rle_lt_trans; [apply Rabs_triang|]. rewrite !Rabs_mult.
  assert (Hht : Rabs (h t) < M).
  { unfold M. replace (h t) with ((h t - h 0) + h 0) by ring.
    eapply Rle_lt_trans; [apply Rabs_triang|]. lra. }
  apply Rle_lt_trans with (eps / (2 * M) * M + Rabs d * (eps / (2 * D))).
  - apply Rplus_le_compat.
    + apply Rmult_le_compat; try apply Rabs_pos; lra.
    + apply Rmult_le_compat_l; [apply Rabs_pos|lra].
  - replace (eps / (2 * M) * M) with (eps / 2) by (field; lra).
    assert (Rabs d * (eps / (2 * D)) < eps / 2); [|lra].
    replace (eps / 2) with (D * (eps / (2 * D))) by (field; lra).
    apply Rmult_lt_compat_r; [apply Rdiv_lt_0_compat; lra|]. unfold D. lra.
Qed.

Lemma vadd_0 x v : length v = length x -> vadd x (vscal 0 v) = x.
Proof. intros H. vec. Qed.

(** At a zero of f the normalized function has directional derivatives d / |df|. *)
Lemma normalize_deriv f df x v d G : length v = length x ->
  f (A1 x) = Ok 0 -> dir_deriv f x v d ->
  locally 0 (fun t => exists g, df (A1 (vadd x (vscal t v))) = Ok g /\ anorm g = G t) ->
  continuous G 0 -> G 0 <> 0 ->
  dir_deriv (normalize_1st_order f df) x v (d / Rabs (G 0)).
Proof.
  intros Hl Hf (F & HF & HD) Hdf HG HG0.
  assert (F0 : F 0 = 0).
  { apply locally_singleton in HF. rewrite vadd_0 in HF by auto. rewrite Hf in HF. injection HF; auto. }
  set (S := fun t => sqrt (F t ^ 2 + G t ^ 2)).
  assert (CF : continuous F 0) by (apply (ex_derive_continuous F); exists d; exact HD).
  assert (CS : continuous S 0).
  { unfold S. apply (continuous_comp (fun t => F t ^ 2 + G t ^ 2) sqrt).
    - apply (continuous_plus (fun t => F t ^ 2) (fun t => G t ^ 2)).
      + simpl. apply (continuous_mult F (fun t => F t * 1)); auto.
        apply (continuous_mult F (fun _ => 1)); auto. apply continuous_const.
      + simpl. apply (continuous_mult G (fun t => G t * 1)); auto.
        apply (continuous_mult G (fun _ => 1)); auto. apply continuous_const.
    - apply continuous_sqrt. }
  assert (S0 : S 0 = Rabs (G 0)).
  { unfold S. rewrite F0. replace (0 ^ 2 + G 0 ^ 2) with (Rsqr (G 0)) by (unfold Rsqr; ring). apply sqrt_Rsqr_abs. }
  assert (P0 : 0 < S 0) by (rewrite S0; apply Rabs_pos_lt; auto).
  exists (fun t => F t * / S t). split.
  - assert (LS : locally 0 (fun t => 0 < S t)).
    { apply CS. exists (mkposreal _ P0). simpl. intros y Hy. unfold ball in Hy. simpl in Hy.
      unfold AbsRing_ball, abs, minus, plus, opp in Hy. simpl in Hy. apply Rabs_def2 in Hy. lra. }
    generalize (filter_and _ _ HF (filter_and _ _ Hdf LS)). apply filter_imp.
    intros t (E1 & (g & E2 & E3) & E4). unfold normalize_1st_order. rewrite E1, E2. cbn [bind].
    rewrite E3. rewrite fsqrt_ok.
    + cbn [bind]. fold (S t). apply fdiv_ok. lra.
    + pose proof (pow2_ge_0 (F t)). pose proof (pow2_ge_0 (G t)). lra.
  - rewrite <- S0. apply is_derive_mul_0; auto.
    apply (continuous_comp S Rinv); auto. apply continuous_Rinv. lra.
Qed.

Lemma normalize_unit_derivative f df x g G :
  f (A1 x) = Ok 0 -> df (A1 x) = Ok (A1 g) -> length g = length x -> normR g <> 0 ->
  (forall v, length v = length x -> dir_deriv f x v (dotR g v)) ->
  (forall v, length v = length x ->
     locally 0 (fun t => exists h, df (A1 (vadd x (vscal t v))) = Ok h /\ anorm h = G v t) /\ continuous (G v) 0) ->
  dir_deriv (normalize_1st_order f df) x (vscal (/ normR g) g) 1 /\
  (forall v, length v = length x -> dir_deriv (normalize_1st_order f df) x v (dotR g v / normR g)).
Proof.
  intros Hf Hdf Hl Hg HD HG.
  assert (K : forall v, length v = length x -> dir_deriv (normalize_1st_order f df) x v (dotR g v / normR g)).
  { intros v Hv. destruct (HG v Hv) as [HL HC].
    assert (G0 : G v 0 = normR g).
    { apply locally_singleton in HL as (h & E & En). rewrite vadd_0 in E by auto.
      rewrite Hdf in E. injection E as <-. rewrite <- En. reflexivity. }
    replace (normR g) with (Rabs (G v 0)) by (rewrite G0; apply Rabs_right, Rle_ge, normR_nonneg).
    apply (normalize_deriv f df x v _ (G v)); auto. rewrite G0; auto. }
  split; auto.
  replace 1 with (dotR g (vscal (/ normR g) g) / normR g).
  - apply K. rewrite vscal_length; auto.
  - rewrite dotR_vscal_r, dotR_self, <- normR_sq. field. auto.
Qed.

(** *** ellipsoid *)
Lemma bopf_fdiv x a : length x = length a -> Forall (fun e => e <> 0) a ->
  bopf fdiv (A1 x) (A1 a) = Ok (A1 (quot x a)).
Proof.
  intros Hl Ha. unfold bopf. rewrite bcast1_eq by auto. cbn [bind]. unfold quot.
  assert (E : sequence (map2 fdiv x a) = Ok (map2 Rdiv x a)).
  { revert x Hl. induction Ha as [|e a He Ha IH]; intros [|y x] Hl; simpl in *; try lia; auto.
    rewrite fdiv_ok by auto. cbn [bind]. rewrite IH by lia. reflexivity. }
  rewrite E. reflexivity.
Qed.

Lemma quot_length x a : length x = length a -> length (quot x a) = length x.
Proof. apply map2_length_eq. Qed.

Lemma scaled_sphere_jvp_ok axes x dx : length x = length axes -> length dx = length axes ->
  Forall (fun e => e <> 0) axes -> sumsq (quot x axes) <> 0 ->
  scaled_sphere_jvp (A1 axes) (A1 x) (A1 dx) = Ok (- dotR (quot x axes) (quot dx axes)).
Proof.
  intros H1 H2 Ha Hn. unfold scaled_sphere_jvp, ravel. rewrite !bopf_fdiv by auto. cbn [bind].
  unfold sphere_jvp, norm_jvp, ravel. fold (sumsq (quot x axes)).
  assert (P : 0 < sumsq (quot x axes)) by (pose proof (sumsq_nonneg (quot x axes)); lra).
  assert (Q : 0 < sqrt (sumsq (quot x axes))) by (apply sqrt_lt_R0; auto).
  rewrite fdiv_ok by lra. cbn [bind]. rewrite fdiv_ok by lra. f_equal.
  unfold anorm, ravel. rewrite normR_sumsq.
  assert (E : sumR (map2 (fun y dy => 2 * (y * dy)) (quot x axes) (quot dx axes)) =
              2 * dotR (quot x axes) (quot dx axes)).
  { unfold dotR, sumR. generalize (quot x axes) (quot dx axes). intros u; induction u as [|a u IH];
      intros [|b w]; simpl; try ring. rewrite IH. ring. }
  rewrite E. field. lra.
Qed.

Lemma scaled_sphere_jvp_0 axes x dx : length x = length axes -> length dx = length axes ->
  Forall (fun e => e <> 0) axes -> sumsq (quot x axes) = 0 ->
  scaled_sphere_jvp (A1 axes) (A1 x) (A1 dx) = Err NonFinite.
Proof.
  intros H1 H2 Ha Hn. unfold scaled_sphere_jvp, ravel. rewrite !bopf_fdiv by auto. cbn [bind].
  unfold sphere_jvp, norm_jvp, ravel. fold (sumsq (quot x axes)). rewrite Hn, sqrt_0.
  rewrite fdiv_0 by auto. reflexivity.
Qed.

Lemma quot_vadd x v a t : length x = length a -> length v = length a ->
  quot (vadd x (vscal t v)) a = vadd (quot x a) (vscal t (quot v a)).
Proof.
  unfold quot, vadd, vscal. revert x v; induction a as [|e a IH]; intros [|y x] [|w v] H1 H2;
    simpl in *; try lia; auto. f_equal; [unfold Rdiv; ring|apply IH; lia].
Qed.

(** The forward-mode derivative is the mathematical one (away from the centre). *)
Lemma scaled_sphere_jvp_correct axes x v : length x = length axes -> length v = length axes ->
  Forall (fun e => e <> 0) axes -> sumsq (quot x axes) <> 0 ->
  exists d, scaled_sphere_jvp (A1 axes) (A1 x) (A1 v) = Ok d /\
    dir_deriv (scale_without_normalization (sphere 1) (A1 axes)) x v d.
Proof.
  intros H1 H2 Ha Hn. eexists; split; [apply scaled_sphere_jvp_ok; auto|].
  assert (P1 : 0 < 1) by lra.
  destruct (sphere_gradient 1 (quot x axes) (quot v axes) P1) as (F & HF & HD).
  { rewrite !quot_length; congruence. }
  exists F. split.
  - generalize HF. apply filter_imp. intros t Et.
    unfold scale_without_normalization, ravel. rewrite bopf_fdiv.
    + cbn [bind]. rewrite quot_vadd by auto. exact Et.
    + rewrite vadd_length; [auto|rewrite vscal_length; congruence].
    + auto.
  - rewrite dotR_vscal in HD. replace (- dotR (quot x axes) (quot v axes)) with
      (- / 1 * dotR (quot x axes) (quot v axes)) by field. exact HD.
Qed.

Lemma quot_basis_dot x a i n : length x = n -> length a = n -> (i < n)%nat ->
  dotR (quot x a) (quot (basis n i) a) = nth i x 0 / (nth i a 0) ^ 2 \/ nth i a 0 = 0.
Proof.
  intros Hx Ha Hi. destruct (Req_dec (nth i a 0) 0) as [Z|NZ]; auto. left.
  unfold basis. revert x a i Hx Ha Hi NZ.
  assert (Z0 : forall (x a : list R) n, dotR (quot x a) (quot (repeat 0 n) a) = 0).
  { intros x a m; revert x a; induction m as [|m IH]; intros [|y x] [|e a]; try reflexivity.
    change (dotR (y / e :: quot x a) (0 / e :: quot (repeat 0 m) a) = 0). rewrite dotR_cons, IH.
    unfold Rdiv; ring. }
  induction n as [|n IH]; intros [|y x] [|e a] [|i] Hx Ha Hi NZ; simpl in *; try lia.
  - change (dotR (y / e :: quot x a) (1 / e :: quot (repeat 0 n) a) = y / (e * (e * 1))).
    rewrite dotR_cons, Z0. field. auto.
  - change (dotR (y / e :: quot x a) (0 / e :: quot (upd (repeat 0 n) i 1) a) = nth i x 0 / (nth i a 0 * (nth i a 0 * 1))).
    rewrite dotR_cons, IH by (auto; lia). unfold Rdiv. simpl. ring.
Qed.

Lemma basis_length n i : length (basis n i) = n.
Proof. unfold basis. rewrite upd_length. apply repeat_length. Qed.

Lemma Forall_nth_neq0 (a : list R) i : Forall (fun e => e <> 0) a -> (i < length a)%nat -> nth i a 0 <> 0.
Proof. intros H Hi. rewrite Forall_nth in H. apply H; auto. Qed.

Lemma jac_scaled_sphere axes x : length x = length axes ->
  Forall (fun e => e <> 0) axes -> sumsq (quot x axes) <> 0 ->
  jacfwd (scaled_sphere_jvp (A1 axes)) (A1 x) =
  Ok (A1 (map (fun i => - (nth i x 0 / nth i axes 0 ^ 2)) (seq 0 (length x)))).
Proof.
  intros Hl Ha Hn. unfold jacfwd.
  rewrite (sequence_map_ext _ (fun i => - (nth i x 0 / nth i axes 0 ^ 2))); [reflexivity|].
  intros i Hi. apply in_seq in Hi.
  rewrite scaled_sphere_jvp_ok; auto; [|rewrite basis_length; auto]. do 2 f_equal.
  destruct (quot_basis_dot x axes i (length x)) as [E|E]; auto; try lia.
  exfalso. apply (Forall_nth_neq0 axes i); auto. lia.
Qed.

Lemma sumsq_quot_0 x a : length x = length a -> Forall (fun e => e <> 0) a ->
  sumsq (quot x a) = 0 <-> Forall (fun y => y = 0) x.
Proof.
  intros Hl Ha. rewrite sumsq_0. revert x Hl. induction Ha as [|e a He Ha IH]; intros [|y x] Hl;
    try (simpl in Hl; lia); [simpl; split; auto|].
  change (quot (y :: x) (e :: a)) with (y / e :: quot x a). rewrite !Forall_cons_iff.
  rewrite IH by (simpl in Hl; lia). assert (y / e = 0 <-> y = 0); [|tauto].
  split; [|intros ->; unfold Rdiv; ring]. intros H. replace y with (y / e * e) by (field; auto). rewrite H. ring.
Qed.

Lemma ellipsoid_decides axes x : length x = length axes -> Forall (fun e => 0 < e) axes ->
  ~ Forall (fun y => y = 0) x ->
  decides (ellipsoid (A1 axes) (A1 x)) (sumsq (quot x axes) < 1) (1 < sumsq (quot x axes)).
Proof.
  intros Hl Hp Hx.
  assert (Ha : Forall (fun e => e <> 0) axes) by (eapply Forall_impl; [|exact Hp]; intros; simpl in *; lra).
  assert (Hn : sumsq (quot x axes) <> 0) by (rewrite sumsq_quot_0; auto).
  unfold ellipsoid.
  assert (Ey : scale_without_normalization (sphere 1) (A1 axes) (A1 x) = Ok ((1 ^ 2 - sumsq (quot x axes)) / (2 * 1))).
  { unfold scale_without_normalization, ravel. rewrite bopf_fdiv by auto. cbn [bind]. apply sphere_value; lra. }
  pose proof (jac_scaled_sphere axes x Hl Ha Hn) as Ej.
  destruct (normalize_defined _ _ _ _ _ Ey Ej) as (z & Ez & Es & _).
  - right. unfold anorm, ravel. intros C. apply normR_0 in C. apply Hx.
    rewrite Forall_nth_iff. intros i Hi. rewrite Forall_map, Forall_forall in C.
    specialize (C i). rewrite in_seq in C. assert (E := C ltac:(lia)).
    pose proof (Forall_nth_neq0 axes i Ha ltac:(lia)) as Hai.
    replace (nth i x 0) with (- (- (nth i x 0 / nth i axes 0 ^ 2)) * nth i axes 0 ^ 2) by (field; auto).
    rewrite E. ring.
  - exists z. split; auto. rewrite <- !sg_pos_iff, <- !sg_neg_iff, Es.
    rewrite sg_pos_iff, sg_neg_iff. split; split; lra.
Qed.

Lemma ellipsoid_centre axes x : length x = length axes -> axes <> [] -> Forall (fun e => 0 < e) axes ->
  Forall (fun y => y = 0) x -> ellipsoid (A1 axes) (A1 x) = Err NonFinite.
Proof.
  intros Hl Hne Hp Hx.
  assert (Ha : Forall (fun e => e <> 0) axes) by (eapply Forall_impl; [|exact Hp]; intros; simpl in *; lra).
  unfold ellipsoid, normalize_1st_order.
  assert (Ey : scale_without_normalization (sphere 1) (A1 axes) (A1 x) = Ok ((1 ^ 2 - sumsq (quot x axes)) / (2 * 1))).
  { unfold scale_without_normalization, ravel. rewrite bopf_fdiv by auto. cbn [bind]. apply sphere_value; lra. }
  rewrite Ey. cbn [bind]. unfold jacfwd.
  destruct (length x) as [|n] eqn:En; [destruct axes; simpl in *; congruence|].
  cbn [seq map sequence].
  rewrite scaled_sphere_jvp_0; [reflexivity|congruence|rewrite basis_length; congruence|auto|].
  apply sumsq_quot_0; auto; congruence.
Qed.

(** *** translate *)
Lemma bop_sub_add x y z : bop Rplus x y = Ok z -> shape z = shape x -> bop Rminus z y = Ok x.
Proof.
  destruct x as [a|l], y as [b|m]; simpl; intros H S.
  - injection H as <-. simpl. do 2 f_equal. ring.
  - injection H as <-. discriminate.
  - injection H as <-. simpl. rewrite map_map. do 2 f_equal. rewrite <- (map_id l) at 2. apply map_ext. intros; ring.
  - apply bind_ok in H as (r & Hr & H). injection H as <-. simpl in S. injection S as S.
    unfold bcast1 in Hr. destruct (Nat.eqb_spec (length l) (length m)) as [E|E].
    + injection Hr as <-. unfold bop. rewrite bcast1_eq by congruence. cbn [bind]. do 2 f_equal.
      apply vsub_vadd; auto.
    + destruct l as [|a [|a' l]].
      * destruct m as [|b [|b' m]]; simpl in *; try discriminate; try congruence.
        injection Hr as <-. reflexivity.
      * destruct m as [|b [|b' m]]; simpl in *; try lia; injection Hr as <-; simpl in S; try discriminate;
          rewrite map_length in S; lia.
      * destruct m as [|b [|b' m]]; try discriminate. injection Hr as <-.
        unfold bop, bcast1. simpl. do 2 f_equal.
        f_equal; [ring|]. f_equal; [ring|]. rewrite map_map. rewrite <- (map_id l) at 2. apply map_ext. intros; ring.
Qed.

Lemma translate_moves f x y z : bop Rplus x y = Ok z -> shape z = shape x -> translate f y z = f x.
Proof. intros H S. unfold translate. rewrite (bop_sub_add x y z H S). reflexivity. Qed.

Lemma bop_vsub x y : length x = length y -> bop Rminus (A1 x) (A1 y) = Ok (A1 (vsub x y)).
Proof. intros H. unfold bop. rewrite bcast1_eq by auto. reflexivity. Qed.

Lemma translate_list f x y : length x = length y -> translate f (A1 y) (A1 x) = f (A1 (vsub x y)).
Proof. intros H. unfold translate. rewrite bop_vsub by auto. reflexivity. Qed.
Lemma translate_neg f x y : length x = length y -> translate f (amap Ropp (A1 y)) (A1 x) = f (A1 (vadd x y)).
Proof.
  intros H. cbn [amap]. rewrite translate_list by (rewrite map_length; auto). do 2 f_equal.
  unfold vsub, vadd. rewrite map2_map_r. apply map2_ext. intros; ring.
Qed.
Lemma translate_compose f x y z : length x = length y -> length y = length z ->
  translate (translate f (A1 y)) (A1 z) (A1 x) = translate f (A1 (vadd y z)) (A1 x).
Proof.
  intros H1 H2. rewrite translate_list by congruence. rewrite translate_list by vlen.
  rewrite translate_list by vlen. do 2 f_equal. vec.
Qed.

(** scalar offsets are broadcast *)
Lemma bop_scalar x c : bop Rminus (A1 x) (A0 c) = bop Rminus (A1 x) (A1 (repeat c (length x))).
Proof.
  unfold bop. rewrite bcast1_eq by (rewrite repeat_length; auto). cbn [bind]. do 2 f_equal.
  symmetry. apply map2_repeat_r.
Qed.
Lemma translate_scalar f x c : translate f (A0 c) (A1 x) = translate f (A1 (repeat c (length x))) (A1 x).
Proof. unfold translate. rewrite bop_scalar. reflexivity. Qed.

(** *** rotate2d *)
Lemma rotate2d_moves f t o1 o2 x1 x2 : 
  let p := ccw t (o1, o2) (x1, x2) in
  rotate2d f t (A1 [o1; o2]) (A1 [fst p; snd p]) = f (A1 [x1; x2]).
Proof.
  cbv zeta. unfold rotate2d, ccw. rewrite translate_list by reflexivity. cbn [vsub map2 fst snd].
  rewrite translate_neg by reflexivity. cbn [vadd map2]. do 2 f_equal.
  pose proof (sin2_cos2' t) as E. 
  assert (forall a b, a * (sin t * sin t + cos t * cos t) + b = a + b) as K by (intros; rewrite E; ring).
  f_equal; [|f_equal].
  - rewrite <- (K (x1 - o1) o1) at 1 || idtac. transitivity ((x1 - o1) * (sin t * sin t + cos t * cos t) + o1); [ring|rewrite E; ring].
  - transitivity ((x2 - o2) * (sin t * sin t + cos t * cos t) + o2); [ring|rewrite E; ring].
Qed.
Lemma rotate2d_value f t o1 o2 x1 x2 :
  rotate2d f t (A1 [o1; o2]) (A1 [x1; x2]) =
  f (A1 [o1 + cos t * (x1 - o1) + sin t * (x2 - o2); o2 - sin t * (x1 - o1) + cos t * (x2 - o2)]).
Proof.
  unfold rotate2d. rewrite translate_list by reflexivity. cbn [vsub map2].
  rewrite translate_neg by reflexivity. cbn [vadd map2]. do 2 f_equal.
  f_equal; [ring|f_equal; ring].
Qed.
Lemma rotate2d_compose f a b o1 o2 x1 x2 :
  rotate2d (rotate2d f a (A1 [o1; o2])) b (A1 [o1; o2]) (A1 [x1; x2]) =
  rotate2d f (a + b) (A1 [o1; o2]) (A1 [x1; x2]).
Proof.
  rewrite !rotate2d_value. rewrite cos_plus, sin_plus. do 2 f_equal.
  f_equal; [ring|f_equal; ring].
Qed.

(** *** rotate3d *)
Lemma rotate3d_axis_ok f t n1 n2 n3 o1 o2 o3 : is_unit (mk3 n1 n2 n3) ->
  exists g, rotate3d f (A0 t) (Some (A1 [n1; n2; n3])) (A1 [o1; o2; o3]) = Ok g /\
  forall x, g (A1 (list3 x)) = f (A1 (list3 (rotate_about t (mk3 n1 n2 n3) (mk3 o1 o2 o3) x))).
Proof.
  intros Hn. unfold rotate3d. cbn [amap as_vec3 bind]. eexists; split; [reflexivity|].
  intros [x1 x2 x3]. rewrite translate_list by reflexivity. cbn [vsub map2 list3 v1 v2 v3].
  rewrite axis_angle_rodrigues by auto. cbn [bind]. rewrite Ropp_involutive.
  cbn [bind]. change (A1 (map Ropp [o1; o2; o3])) with (amap Ropp (A1 [o1; o2; o3])).
  rewrite translate_neg by reflexivity. do 2 f_equal. unfold rotate_about, list3, vadd, vsub3, vadd3.
  cbn [map2 v1 v2 v3]. f_equal; [ring|f_equal; [ring|f_equal; ring]].
Qed.

Lemma rodrigues_inverse t n x : is_unit n -> rodrigues t n (rodrigues (- t) n x) = x.
Proof.
  intros Hn. unfold rodrigues. rewrite cos_neg, sin_neg. unfold is_unit in Hn.
  pose proof (sin2_cos2' t) as E. set (c := cos t) in *. set (s := sin t) in *. clearbody c s.
  destruct n as [n1 n2 n3], x as [x1 x2 x3]. vunf.
  assert (Hn1 : n1 * n1 = 1 - n2 * n2 - n3 * n3) by lra.
  assert (Hs : s * s = 1 - c * c) by lra.
  apply vec3_eq; cbn [v1 v2 v3]; ring_simplify; 
  repeat match goal with |- context [s ^ 2] => replace (s ^ 2) with (1 - c * c) by (rewrite <- Hs; ring) end;
  repeat match goal with |- context [n1 ^ 3] => replace (n1 ^ 3) with (n1 * (1 - n2 * n2 - n3 * n3)) by (rewrite <- Hn1; ring) end;
  repeat match goal with |- context [n1 ^ 4] => replace (n1 ^ 4) with ((1 - n2 * n2 - n3 * n3) * (1 - n2 * n2 - n3 * n3)) by (rewrite <- Hn1; ring) end;
  repeat match goal with |- context [n1 ^ 2] => replace (n1 ^ 2) with (1 - n2 * n2 - n3 * n3) by (rewrite <- Hn1; ring) end;
  ring.
Qed.

Lemma rotate3d_moves f t n1 n2 n3 o1 o2 o3 g : is_unit (mk3 n1 n2 n3) ->
  rotate3d f (A0 t) (Some (A1 [n1; n2; n3])) (A1 [o1; o2; o3]) = Ok g ->
  forall x, g (A1 (list3 (rotate_about (- t) (mk3 n1 n2 n3) (mk3 o1 o2 o3) x))) = f (A1 (list3 x)).
Proof.
  intros Hn H x. destruct (rotate3d_axis_ok f t n1 n2 n3 o1 o2 o3 Hn) as (g' & Hg & HV).
  rewrite H in Hg. injection Hg as <-. rewrite HV. unfold rotate_about.
  replace (vsub3 (vadd3 (mk3 o1 o2 o3) (rodrigues (- t) (mk3 n1 n2 n3) (vsub3 x (mk3 o1 o2 o3)))) (mk3 o1 o2 o3))
    with (rodrigues (- t) (mk3 n1 n2 n3) (vsub3 x (mk3 o1 o2 o3))).
  - rewrite rodrigues_inverse by auto. do 3 f_equal. apply vec3_eq; vunf; ring.
  - generalize (rodrigues (- t) (mk3 n1 n2 n3) (vsub3 x (mk3 o1 o2 o3))). intros y. apply vec3_eq; vunf; ring.
Qed.

(** the full claim fails: axis e3, angle pi/2, f = second coordinate *)
Lemma rotate3d_wrong_way : exists g,
  rotate3d second_coordinate (A0 (PI / 2)) (Some (A1 [0; 0; 1])) (A1 [0; 0; 0]) = Ok g /\
  g (A1 (list3 (rotate_about (PI / 2) (mk3 0 0 1) (mk3 0 0 0) (mk3 0 1 0)))) <> second_coordinate (A1 [0; 1; 0]).
Proof.
  destruct (rotate3d_axis_ok second_coordinate (PI / 2) 0 0 1 0 0 0 unit_e3) as (g & Hg & HV).
  exists g. split; auto. rewrite HV. unfold rotate_about. rewrite !rodrigues_z. unfold rot_z.
  rewrite cos_PI2, sin_PI2. cbn. intros H. injection H. lra.
Qed.

Lemma rotate3d_euler f a b c o1 o2 o3 :
  exists g, rotate3d f (A1 [a; b; c]) None (A1 [o1; o2; o3]) = Ok g /\
  forall x, g (A1 (list3 x)) =
    f (A1 (list3 (vadd3 (mk3 o1 o2 o3) (rot_x a (rot_y b (rot_z c (vsub3 x (mk3 o1 o2 o3)))))))).
Proof.
  unfold rotate3d. cbn [amap map bind]. eexists; split; [reflexivity|].
  intros [x1 x2 x3]. rewrite translate_list by reflexivity. cbn [vsub map2 list3 v1 v2 v3].
  rewrite euler_rotation. cbn [bind v1 v2 v3]. rewrite !Ropp_involutive.
  cbn [bind]. change (A1 [- o1; - o2; - o3]) with (amap Ropp (A1 [o1; o2; o3])).
  rewrite translate_neg by reflexivity. do 2 f_equal. unfold list3, vadd, vsub3, vadd3.
  cbn [map2 v1 v2 v3]. f_equal; [ring|f_equal; [ring|f_equal; ring]].
Qed.

Lemma rotate3d_raises f angle ax o :
  rotate3d f angle ax o = Err ValueError <->
  match shape angle with
  | None => ax = None
  | Some 3%nat => ax <> None
  | Some _ => True
  end.
Proof.
  unfold rotate3d. destruct angle as [t|[|t1 [|t2 [|t3 [|t4 l]]]]]; cbn [amap map shape length bind].
  - destruct ax as [ax|]; cbn [bind]; split; try reflexivity; try discriminate.
    destruct ax as [a|[|a [|b [|c [|d l]]]]]; cbn; intros H; discriminate.
  - tauto.
  - tauto.
  - tauto.
  - destruct ax as [ax|]; cbn [bind]; split; try reflexivity; try discriminate; congruence.
  - tauto.
Qed.

(** point shapes: with o of shape (2,), only (2,) survives, except that () and (1,)
    are silently broadcast *)
Lemma rotate2d_bad_point f t o1 o2 l : length l <> 1%nat -> length l <> 2%nat ->
  rotate2d f t (A1 [o1; o2]) (A1 l) = Err TypeError.
Proof.
  intros H1 H2. unfold rotate2d, translate at 1, bop, bcast1.
  destruct l as [|a [|b [|c l]]]; simpl in *; try lia; reflexivity.
Qed.
Lemma rotate2d_broadcast f t o1 o2 c :
  rotate2d f t (A1 [o1; o2]) (A1 [c]) = rotate2d f t (A1 [o1; o2]) (A1 [c; c]) /\
  rotate2d f t (A1 [o1; o2]) (A0 c) = rotate2d f t (A1 [o1; o2]) (A1 [c; c]).
Proof. split; reflexivity. Qed.
Lemma rotate3d_bad_point f angle ax o1 o2 o3 g l : rotate3d f angle ax (A1 [o1; o2; o3]) = Ok g ->
  length l <> 1%nat -> length l <> 3%nat -> g (A1 l) = Err TypeError.
Proof.
  intros H H1 H3. unfold rotate3d in H. apply bind_ok in H as (q & _ & H). injection H as <-.
  unfold translate at 1, bop, bcast1.
  destruct l as [|a [|b [|c [|d l]]]]; simpl in *; try lia; reflexivity.
Qed.
Lemma rotate3d_broadcast f angle ax o1 o2 o3 g c : rotate3d f angle ax (A1 [o1; o2; o3]) = Ok g ->
  g (A1 [c]) = g (A1 [c; c; c]) /\ g (A0 c) = g (A1 [c; c; c]).
Proof.
  intros H. unfold rotate3d in H. apply bind_ok in H as (q & _ & H). injection H as <-. split; reflexivity.
Qed.
(** with a scalar o the assertions do fire *)
Lemma rotate2d_scalar_origin f t c l : length l <> 2%nat -> rotate2d f t (A0 c) (A1 l) = Err AssertionError.
Proof.
  intros H. unfold rotate2d, translate at 1, bop. cbn [bind].
  destruct l as [|a [|b [|d l]]]; simpl in *; try lia; reflexivity.
Qed.

(** *** reflect, project *)
Lemma along_normal_ok c x n : length x = length n -> dotR n n <> 0 ->
  along_normal c (A1 x) (A1 n) = Ok (A1 (vsub x (vscal (c * dotR x n / dotR n n) n))).
Proof.
  intros Hl Hn. unfold along_normal, amatmul. rewrite Hl, Nat.eqb_refl. cbn [bind].
  unfold anorm, ravel. rewrite normR_pow2, <- dotR_self. rewrite fdiv_ok by auto. cbn [bind amap].
  change (map (fun e => c * dotR x n / dotR n n * e) n) with (vscal (c * dotR x n / dotR n n) n).
  apply bop_vsub. rewrite vscal_length. auto.
Qed.

Lemma reflect_value f n o x : length x = length n -> length o = length n -> dotR n n <> 0 ->
  reflect f (A1 n) (A1 o) (A1 x) = f (A1 (mirror_in n o x)).
Proof.
  intros H1 H2 Hn. unfold reflect. rewrite translate_list by congruence.
  rewrite along_normal_ok; [|vlen|auto]. cbn [bind]. rewrite translate_neg by vlen.
  do 2 f_equal. unfold mirror_in. vec.
Qed.
Lemma mirror_involution n o x : length x = length n -> length o = length n -> dotR n n <> 0 ->
  mirror_in n o (mirror_in n o x) = x.
Proof.
  intros H1 H2 Hn. unfold mirror_in at 1.
  assert (E : dotR (vsub (mirror_in n o x) o) n = - dotR (vsub x o) n).
  { unfold mirror_in. rewrite dotR_vsub, dotR_vsub, dotR_vscal by vlen. rewrite (dotR_vsub x o) by vlen. field. auto. }
  rewrite E. unfold mirror_in. apply vec_ext; [vlen|]. intros i Hi. vnth. field. auto.
Qed.
Lemma mirror_length n o x : length x = length n -> length (mirror_in n o x) = length n.
Proof. intros H. unfold mirror_in. vlen. Qed.
Lemma mirror_isometry n o x y : length x = length n -> length y = length n -> length o = length n -> dotR n n <> 0 ->
  sumsq (vsub (mirror_in n o x) (mirror_in n o y)) = sumsq (vsub x y).
Proof.
  intros H1 H2 H3 Hn. unfold mirror_in.
  replace (vsub (vsub x (vscal (2 * dotR (vsub x o) n / dotR n n) n)) (vsub y (vscal (2 * dotR (vsub y o) n / dotR n n) n)))
    with (vsub (vsub x y) (vscal (2 * dotR (vsub x y) n / dotR n n) n)).
  - rewrite sumsq_vsub by vlen. rewrite dotR_vscal_r, sumsq_vscal, <- (dotR_self n). field. auto.
  - apply vec_ext; [vlen|]. intros i Hi. vnth. rewrite (dotR_vsub x o), (dotR_vsub y o), (dotR_vsub x y) by vlen.
    field. auto.
Qed.

Lemma reflect_moves f n o x : length x = length n -> length o = length n -> dotR n n <> 0 ->
  reflect f (A1 n) (A1 o) (A1 (mirror_in n o x)) = f (A1 x).
Proof.
  intros. rewrite reflect_value by (auto using mirror_length). rewrite mirror_involution; auto.
Qed.
Lemma reflect_twice f n o x : length x = length n -> length o = length n -> dotR n n <> 0 ->
  reflect (reflect f (A1 n) (A1 o)) (A1 n) (A1 o) (A1 x) = f (A1 x).
Proof.
  intros. rewrite reflect_value by auto. apply reflect_moves; auto.
Qed.
Lemma reflect_fixed f n o x : length x = length n -> length o = length n -> dotR n n <> 0 ->
  dotR (vsub x o) n = 0 -> reflect f (A1 n) (A1 o) (A1 x) = f (A1 x).
Proof.
  intros H1 H2 Hn H. rewrite reflect_value by auto. do 2 f_equal. unfold mirror_in. rewrite H.
  apply vec_ext; [vlen|]. intros i Hi. vnth. field. auto.
Qed.
Lemma reflect_zero_normal f n o x : length x = length n -> length o = length n -> dotR n n = 0 ->
  reflect f (A1 n) (A1 o) (A1 x) = Err NonFinite.
Proof.
  intros H1 H2 Hn. unfold reflect. rewrite translate_list by congruence.
  unfold along_normal, amatmul. rewrite vsub_length, H1, Nat.eqb_refl by congruence. cbn [bind].
  unfold anorm, ravel. rewrite normR_pow2, <- dotR_self, fdiv_0 by auto. reflexivity.
Qed.

Lemma project_value f n o x : length x = length n -> length o = length n -> dotR n n <> 0 ->
  project f (A1 n) (A1 o) (A1 x) = f (A1 (vsub x (vscal (dotR (vsub x o) n / dotR n n) n))).
Proof.
  intros H1 H2 Hn. unfold project. rewrite translate_list by congruence.
  rewrite along_normal_ok; [|vlen|auto]. cbn [bind]. rewrite translate_neg by vlen.
  do 2 f_equal. rewrite Rmult_1_l. vec.
Qed.
Lemma project_invariant f n o x t : length x = length n -> length o = length n -> dotR n n <> 0 ->
  project f (A1 n) (A1 o) (A1 (vadd x (vscal t n))) = project f (A1 n) (A1 o) (A1 x).
Proof.
  intros H1 H2 Hn. rewrite !project_value by vlen. do 2 f_equal.
  apply vec_ext; [vlen|]. intros i Hi. vnth. rewrite dotR_vsub, dotR_vadd, dotR_vscal by vlen.
  rewrite (dotR_vsub x o) by vlen. field. auto.
Qed.
Lemma project_on_plane f n o x : length x = length n -> length o = length n -> dotR n n <> 0 ->
  dotR (vsub x o) n = 0 -> project f (A1 n) (A1 o) (A1 x) = f (A1 x).
Proof.
  intros H1 H2 Hn H. rewrite project_value by auto. rewrite H. do 2 f_equal.
  apply vec_ext; [vlen|]. intros i Hi. vnth. field. auto.
Qed.

(** scalar origins behave like constant vectors *)
Lemma translate_ext f g y x : (forall z, f z = g z) -> translate f y x = translate g y x.
Proof. intros H. unfold translate. destruct (bop Rminus x y); cbn [bind]; auto. Qed.

Lemma along_normal_length c x n z : along_normal c (A1 x) (A1 n) = Ok z -> length x = length n ->
  exists l, z = A1 l /\ length l = length x.
Proof.
  intros H Hl. unfold along_normal in H. apply bind_ok in H as (d & _ & H). apply bind_ok in H as (k & _ & H).
  cbn [amap] in H. change (map (fun e => k * e) n) with (vscal k n) in H.
  rewrite bop_vsub in H by vlen. injection H as <-. eexists; split; [reflexivity|vlen].
Qed.

Lemma reflect_scalar_origin f n c x : length x = length n ->
  reflect f (A1 n) (A0 c) (A1 x) = reflect f (A1 n) (A1 (repeat c (length x))) (A1 x).
Proof.
  intros Hl. unfold reflect. rewrite translate_scalar. rewrite !translate_list by (rewrite repeat_length; auto).
  destruct (along_normal 2 _ _) as [z|e] eqn:E; cbn [bind]; auto.
  apply along_normal_length in E as (l & -> & Ll); [|rewrite vsub_length; [auto|rewrite repeat_length; auto]].
  rewrite vsub_length in Ll by (rewrite repeat_length; auto).
  cbn [amap]. rewrite translate_scalar, Ll. do 3 f_equal.
  clear. induction x; simpl; f_equal; auto.
Qed.
Lemma project_scalar_origin f n c x : length x = length n ->
  project f (A1 n) (A0 c) (A1 x) = project f (A1 n) (A1 (repeat c (length x))) (A1 x).
Proof.
  intros Hl. unfold project. rewrite translate_scalar. rewrite !translate_list by (rewrite repeat_length; auto).
  destruct (along_normal 1 _ _) as [z|e] eqn:E; cbn [bind]; auto.
  apply along_normal_length in E as (l & -> & Ll); [|rewrite vsub_length; [auto|rewrite repeat_length; auto]].
  rewrite vsub_length in Ll by (rewrite repeat_length; auto).
  cbn [amap]. rewrite translate_scalar, Ll. do 3 f_equal.
  clear. induction x; simpl; f_equal; auto.
Qed.

(** *** revolution *)
Lemma revolution_x f a b c b' c' : b ^ 2 + c ^ 2 = b' ^ 2 + c' ^ 2 ->
  revolution f 0 (A1 [a; b; c]) = revolution f 0 (A1 [a; b'; c']).
Proof. intros H. unfold revolution. cbn [Z.eqb]. rewrite H. reflexivity. Qed.
Lemma revolution_y f a b c a' c' : a ^ 2 + c ^ 2 = a' ^ 2 + c' ^ 2 ->
  revolution f 1 (A1 [a; b; c]) = revolution f 1 (A1 [a'; b; c']).
Proof. intros H. unfold revolution. cbn [Z.eqb]. rewrite H. reflexivity. Qed.
Lemma sqrt_half r : 0 <= r -> sqrt (r ^ 2 + 0 ^ 2) = r.
Proof. intros H. replace (r ^ 2 + 0 ^ 2) with (Rsqr r) by (unfold Rsqr; ring). apply sqrt_Rsqr; auto. Qed.
Lemma revolution_x_half f a r : 0 <= r -> revolution f 0 (A1 [a; r; 0]) = f (A1 [a; r]).
Proof.
  intros H. unfold revolution. cbn [Z.eqb]. rewrite fsqrt_ok by (pose proof (pow2_ge_0 r); simpl; nra).
  cbn [bind]. rewrite sqrt_half; auto.
Qed.
Lemma revolution_y_half f a r : 0 <= r -> revolution f 1 (A1 [r; a; 0]) = f (A1 [r; a]).
Proof.
  intros H. unfold revolution. cbn [Z.eqb]. rewrite fsqrt_ok by (pose proof (pow2_ge_0 r); simpl; nra).
  cbn [bind]. rewrite sqrt_half; auto.
Qed.
Lemma revolution_bad_axis f axis a b c : axis <> 0%Z -> axis <> 1%Z ->
  revolution f axis (A1 [a; b; c]) = Err ValueError.
Proof.
  intros H0 H1. unfold revolution. destruct (Z.eqb_spec axis 0); [contradiction|].
  destruct (Z.eqb_spec axis 1); [contradiction|]. reflexivity.
Qed.
Lemma revolution_bad_shape f axis x : shape x <> Some 3%nat -> revolution f axis x = Err AssertionError.
Proof.
  intros H. destruct x as [r|[|a [|b [|c [|d l]]]]]; simpl in *; try reflexivity. congruence.
Qed.

(** *** scale *)
Lemma scale_ok f a : length (ravel a) = 1%nat -> exists g, scale f a = Ok g.
Proof. intros H. unfold scale. destruct (ravel a) as [|s [|]]; simpl in *; try lia. eauto. Qed.
Lemma scale_rejects f a : scale f a = Err AssertionError <-> length (ravel a) <> 1%nat.
Proof.
  unfold scale. destruct (ravel a) as [|s [|]]; simpl; split; intros; try reflexivity; try discriminate; try lia; congruence.
Qed.
Lemma bopf_fdiv_scalar x s : s <> 0 -> bopf fdiv (A1 x) (A0 s) = Ok (A1 (map (fun e => e / s) x)).
Proof.
  intros H. unfold bopf. rewrite (sequence_map_ext _ (fun e => e / s)); [reflexivity|].
  intros; apply fdiv_ok; auto.
Qed.
Lemma scale_value f s g x : s <> 0 -> scale f (A0 s) = Ok g ->
  g (A1 (vscal s x)) = bind (f (A1 x)) (fun v => Ok (s * v)).
Proof.
  intros Hs H. cbn in H. injection H as <-. rewrite bopf_fdiv_scalar by auto. cbn [bind].
  unfold vscal. rewrite map_map. replace (map (fun e => s * e / s) x) with x.
  - destruct (f (A1 x)); cbn [bind]; [f_equal; ring|reflexivity].
  - rewrite <- (map_id x) at 1. apply map_ext. intros; field; auto.
Qed.
Lemma scale_gradient f s g x v d : s <> 0 -> scale f (A0 s) = Ok g -> length v = length x ->
  dir_deriv f x v d -> dir_deriv g (vscal s x) v d.
Proof.
  intros Hs H Hl (F & HF & HD). exists (fun t => F (t / s) * s). split.
  - assert (C : filterlim (fun t => t / s) (locally 0) (locally 0)).
    { replace 0 with (0 / s) at 2 by (field; auto).
      apply (ex_derive_continuous (fun t => t / s)). auto_derive; auto. }
    generalize (C _ HF). unfold filtermap. apply filter_imp. intros t E.
    cbn in H. injection H as <-. rewrite bopf_fdiv_scalar by auto. cbn [bind].
    replace (map (fun e => e / s) (vadd (vscal s x) (vscal t v))) with (vadd x (vscal (t / s) v)).
    + rewrite E. reflexivity.
    + unfold vadd, vscal. rewrite map_map2, !map2_map_r, !map2_map_l. apply map2_ext. intros; field; auto.
  - evar_last.
    + apply (is_derive_scal_l (fun t => F (t / s)) 0 (/ s * d) s).
      apply (is_derive_comp F (fun t => t / s) 0 d (/ s)).
      * replace (0 / s) with 0 by (field; auto). exact HD.
      * auto_derive; auto. field; auto.
    + unfold scal; simpl; unfold mult; simpl. field; auto.
Qed.
Lemma scale_wn_value f s x : s <> 0 ->
  scale_without_normalization f (A0 s) (A1 (vscal s x)) = f (A1 x).
Proof.
  intros Hs. unfold scale_without_normalization, ravel, bopf, bcast1.
  assert (E : map (fun e => s * e / s) x = x).
  { rewrite <- (map_id x) at 2. apply map_ext. intros; field; auto. }
  destruct (Nat.eqb_spec (length (vscal s x)) (length [s])) as [Hx|Hx]; rewrite vscal_length in Hx.
  - destruct x as [|a [|b x]]; simpl in Hx; try lia. cbn. rewrite fdiv_ok by auto. cbn.
    do 3 f_equal. field; auto.
  - destruct x as [|a [|b x]]; simpl in Hx; try lia; [reflexivity|].
    unfold vscal. cbn [map]. cbn [bind].
    change (fdiv (s * a) s :: fdiv (s * b) s :: map (fun x0 : R => fdiv x0 s) (map (fun x0 : R => s * x0) x))
      with (map (fun x0 : R => fdiv x0 s) (map (fun x0 : R => s * x0) (a :: b :: x))).
    rewrite map_map. rewrite (sequence_map_ext _ (fun e => s * e / s)) by (intros; apply fdiv_ok; auto).
    cbn [bind]. rewrite E. reflexivity.
Qed.
Lemma scale_wn_vector f axes x : length x = length axes -> Forall (fun e => e <> 0) axes ->
  scale_without_normalization f (A1 axes) (A1 (map2 Rmult axes x)) = f (A1 x).
Proof.
  intros Hl Ha. unfold scale_without_normalization, ravel.
  rewrite bopf_fdiv; [|rewrite map2_length_eq; auto|auto]. cbn [bind]. do 2 f_equal.
  unfold quot. revert x Hl. induction Ha as [|e a He Ha IH]; intros [|y x] Hl; simpl in *; try lia; auto.
  f_equal; [field; auto|apply IH; lia].
Qed.

(** *** Wrappers in the form of the property theorems *)
Lemma RAlpha_good alpha : -1 < alpha <= 1 -> exists s, RAlpha alpha = Ok s /\ sign_correct s.
Proof. intros H. apply RAlpha_accepts in H as [s E]. exists s. split; auto. eapply RAlpha_sign_correct; eauto. Qed.
Lemma RP_good p : (2 <= p)%Z -> Z.even p = true -> exists s, RP p = Ok s /\ sign_correct s.
Proof.
  intros H E. eexists; split; [apply RP_accepts; auto|].
  eapply RP_sign_correct; [apply RP_accepts; auto|auto].
Qed.
Lemma RAlphaM_good m alpha : -1 < alpha <= 1 -> exists s, RAlphaM m alpha = Ok s /\
  (forall a b, 0 <= m \/ a <> 0 \/ b <> 0 -> sign_correct_at s a b) /\
  (m < 0 -> conj_ s 0 0 = Err NonFinite).
Proof.
  intros H. assert (exists s, RAlphaM m alpha = Ok s) as [s E].
  { unfold RAlphaM, assert_. assert (A : Rltb (-1) alpha = true) by (apply Rltb_true; lra).
    assert (B : Rleb alpha 1 = true) by (apply Rleb_true; lra). rewrite A, B. cbn. eauto. }
  exists s. split; auto. split.
  - intros. eapply RAlphaM_sign_correct; eauto.
  - eapply RAlphaM_origin; eauto.
Qed.
Lemma set_operations_dec s f g x a b : sign_correct s -> f x = Ok a -> g x = Ok b ->
  decides (negate f x) (a < 0) (0 < a) /\
  decides (union s f g x) (0 < a \/ 0 < b) (a < 0 /\ b < 0) /\
  decides (intersection s f g x) (0 < a /\ 0 < b) (a < 0 \/ b < 0) /\
  decides (difference s f g x) (0 < a /\ b < 0) (a < 0 \/ 0 < b) /\
  decides (implication s f g x) (a < 0 \/ 0 < b) (0 < a /\ b < 0) /\
  decides (equivalence s f g x) ((0 < a /\ 0 < b) \/ (a < 0 /\ b < 0)) ((0 < a /\ b < 0) \/ (a < 0 /\ 0 < b)) /\
  decides (xor s f g x) ((0 < a /\ b < 0) \/ (a < 0 /\ 0 < b)) ((0 < a /\ 0 < b) \/ (a < 0 /\ b < 0)).
Proof.
  intros SC Hf Hg.
  split; [apply negate_dec; auto|]. split; [apply union_dec; auto|]. split; [apply intersection_dec; auto|].
  split; [apply difference_dec; auto|]. split; [apply implication_dec; auto|].
  split; [apply equivalence_dec; auto|apply xor_dec; auto].
Qed.
Lemma rho_blending_props rho s s0 : 0 < rho -> RhoBlending rho = Ok s -> r0 = Ok s0 ->
  forall a b, exists c d c0 d0,
    conj_ s a b = Ok c /\ disj_ s a b = Ok d /\ conj_ s0 a b = Ok c0 /\ disj_ s0 a b = Ok d0 /\
    c <= c0 /\ d0 <= d /\ (rho ^ 2 <= a ^ 2 + b ^ 2 -> c = c0 /\ d = d0) /\
    (0 < c -> 0 < a /\ 0 < b) /\ (d < 0 -> a < 0 /\ b < 0).
Proof.
  intros Hr Hs H0 a b. apply RAlpha_ok in H0 as [_ ->]. injection Hs as <-. cbn [conj_ disj_].
  apply rho_props; auto.
Qed.
Lemma RP_zero : exists s, RP 0 = Ok s /\ forall a b, conj_ s a b = Err ZeroDivisionError.
Proof. eexists; split; [apply RP_accepts; reflexivity|]. apply RP_zero_raises. apply RP_accepts; reflexivity. Qed.
Lemma RP_minus_two : exists s c, RP (-2) = Ok s /\ conj_ s (-1) 2 = Ok c /\ 0 < c.
Proof.
  assert (E := RP_accepts (-2) eq_refl). destruct (RP_m2_value _ E) as (c & Ec & P). eauto.
Qed.
Lemma RP_not_always : ~ (forall p s, RP p = Ok s -> sign_correct s).
Proof.
  intros H. destruct RP_minus_two as (s & c & E & Ec & P). specialize (H _ _ E (-1) 2).
  destruct H as [(c' & Ec' & Hs) _]. rewrite Ec in Ec'. injection Ec' as <-.
  rewrite (sg_pos c), (sg_neg (-1)), (sg_pos 2) in Hs by lra. discriminate.
Qed.
Lemma map_repeat' {A B} (f : A -> B) a n : map f (repeat a n) = repeat (f a) n.
Proof. induction n; simpl; f_equal; auto. Qed.
Lemma cube_dec l s x : sign_correct s -> x <> [] ->
  membership (cube l false s (A1 x)) (repeat 0 (length x)) (repeat l (length x)) x /\
  membership (cube l true s (A1 x)) (repeat (- l / 2) (length x)) (repeat (l / 2) (length x)) x.
Proof.
  intros SC Hx. rewrite !cube_is_cuboid. split.
  - apply cuboid_corner; auto. apply repeat_length.
  - pose proof (cuboid_centered (repeat l (length x)) x s SC Hx (repeat_length _ _)) as H.
    rewrite !map_repeat' in H. exact H.
Qed.
Lemma sphere_gradient_all r x : 0 < r ->
  (forall v, length v = length x -> dir_deriv (sphere r) x v (dotR (vscal (- / r) x) v)) /\
  (normR x = r -> normR (vscal (- / r) x) = 1).
Proof. intros H. split; [intros; apply sphere_gradient; auto|apply sphere_gradient_unit; auto]. Qed.
Lemma ellipsoid_nan axes : axes <> [] -> Forall (fun e => 0 < e) axes ->
  ellipsoid (A1 axes) (A1 (repeat 0 (length axes))) = Err NonFinite.
Proof.
  intros H Hp. apply ellipsoid_centre; auto; [apply repeat_length|]. apply Forall_forall.
  intros y Hy. eapply repeat_spec; eauto.
Qed.
Lemma rotate3d_z f2 t o1 o2 o3 g x1 x2 x3 :
  rotate3d (fun x => match x with A1 [a; b; _] => f2 (A1 [a; b]) | _ => Err TypeError end)
    (A0 t) (Some (A1 [0; 0; 1])) (A1 [o1; o2; o3]) = Ok g ->
  g (A1 [x1; x2; x3]) = rotate2d f2 (- t) (A1 [o1; o2]) (A1 [x1; x2]).
Proof.
  intros H. destruct (rotate3d_axis_ok (fun x => match x with A1 [a; b; _] => f2 (A1 [a; b]) | _ => Err TypeError end)
    t 0 0 1 o1 o2 o3 unit_e3) as (g' & E & V).
  rewrite H in E. injection E as <-. change (A1 [x1; x2; x3]) with (A1 (list3 (mk3 x1 x2 x3))). rewrite V.
  rewrite rotate2d_value, cos_neg, sin_neg. unfold rotate_about. rewrite rodrigues_z. unfold rot_z.
  unfold list3. vunf. do 2 f_equal. f_equal; [ring|f_equal; ring].
Qed.
Lemma rotate3d_not_ccw : ~ (forall f t n1 n2 n3 o1 o2 o3 g, is_unit (mk3 n1 n2 n3) ->
  rotate3d f (A0 t) (Some (A1 [n1; n2; n3])) (A1 [o1; o2; o3]) = Ok g ->
  forall x, g (A1 (list3 (rotate_about t (mk3 n1 n2 n3) (mk3 o1 o2 o3) x))) = f (A1 (list3 x))).
Proof.
  intros H. destruct rotate3d_wrong_way as (g & E & N). apply N.
  exact (H _ _ _ _ _ _ _ _ g unit_e3 E (mk3 0 1 0)).
Qed.
Lemma scale_sign f s g x v : 0 < s -> scale f (A0 s) = Ok g -> f (A1 x) = Ok v ->
  exists w, g (A1 (vscal s x)) = Ok w /\ sg w = sg v.
Proof.
  intros Hs H Hf. exists (s * v). rewrite (scale_value f s g x); auto; [|lra]. rewrite Hf. split; [reflexivity|].
  apply sg_mult_pos; auto.
Qed.
Lemma mirror_isometry_norm n o x y : length x = length n -> length y = length n ->
  length o = length n -> dotR n n <> 0 ->
  normR (vsub (mirror_in n o x) (mirror_in n o y)) = normR (vsub x y).
Proof. intros. rewrite !normR_sumsq, mirror_isometry; auto. Qed.
Lemma revolution_x_all f a :
  (forall b c b' c', b ^ 2 + c ^ 2 = b' ^ 2 + c' ^ 2 ->
     revolution f 0 (A1 [a; b; c]) = revolution f 0 (A1 [a; b'; c'])) /\
  (forall r, 0 <= r -> revolution f 0 (A1 [a; r; 0]) = f (A1 [a; r])).
Proof. split; [intros; apply revolution_x; auto|intros; apply revolution_x_half; auto]. Qed.
Lemma revolution_y_all f b :
  (forall a c a' c', a ^ 2 + c ^ 2 = a' ^ 2 + c' ^ 2 ->
     revolution f 1 (A1 [a; b; c]) = revolution f 1 (A1 [a'; b; c'])) /\
  (forall r, 0 <= r -> revolution f 1 (A1 [r; b; 0]) = f (A1 [r; b])).
Proof. split; [intros; apply revolution_y; auto|intros; apply revolution_y_half; auto]. Qed.
Lemma compose_errors_all op x :
  compose op [] x = Err ValueError /\
  (forall adfs ds, adfs <> [] -> Forall2 (fun df d => df x = Ok d) adfs ds ->
     concat (map ravel ds) = [] -> compose op adfs x = Err TypeError) /\
  (forall pre df post ds e, Forall2 (fun df d => df x = Ok d) pre ds -> df x = Err e ->
     compose op (pre ++ df :: post) x = Err e).
Proof.
  split; [reflexivity|]. split; [intros; eapply compose_empty; eauto|]. intros. eapply compose_operand_error; eauto.
Qed.
