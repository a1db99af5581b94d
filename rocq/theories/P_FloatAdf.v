(** Proofs: boxes and balls with rounded arithmetic. *)
From Coq Require Import Lia Permutation.
From Flocq Require Import Core Relative.
From Flocq.IEEE754 Require Import BinarySingleNaN Binary Bits.
From Verif Require Import Base BaseFacts P_Vec M_RFun S_RFun P_RFun2 M_Float S_Float P_Float P_Float2 P_Float3 P_FloatBox M_FloatAdf S_FloatAdf.
Open Scope R_scope.

Lemma is_float_half prec x : is_float prec x -> is_float prec (x / 2).
Proof.
  intros (m & e & -> & M). exists m, (e - 1)%Z. split; auto. unfold Zminus. rewrite powerRZ_add by lra. cbn [powerRZ Z.opp]. simpl. field.
Qed.

Section Rounded.
Variable prec : Z.
Hypothesis Hp : (4 <= prec)%Z.
Variable rnd : R -> R.
Hypothesis H : nearest prec rnd.
Let N := nearest_N prec Hp rnd H.
Notation fl := (is_float prec).
Notation u := (u_ro radix2 prec).

Lemma fl_id x : fl x -> rnd x = x.
Proof. intros F. apply (rnd_id prec rnd N). now apply (flG prec Hp). Qed.
Lemma fl_0 : fl 0.
Proof. exists 0%Z, 0%Z. split; [simpl; ring|]. simpl. apply Z.pow_pos_nonneg; lia. Qed.
Lemma rnd_fl x : fl (rnd x).
Proof. apply H. Qed.
Lemma rnd_gt0 x : 0 < rnd x -> 0 < x.
Proof. intros V. destruct (Rlt_le_dec 0 x) as [L|L]; auto. pose proof (rnd_neg prec rnd N x L). lra. Qed.
Lemma rnd_lt0 x : rnd x < 0 -> x < 0.
Proof. intros V. destruct (Rlt_le_dec x 0) as [L|L]; auto. pose proof (rnd_pos prec rnd N x L). lra. Qed.
Lemma rnd_lt a d : fl a -> rnd d < a -> d < a.
Proof. intros F V. destruct (Rlt_le_dec d a) as [L|L]; auto. pose proof (rnd_le prec rnd N a d L) as K. rewrite (fl_id a F) in K. lra. Qed.
Lemma rnd_gt a d : fl a -> a < rnd d -> a < d.
Proof. intros F V. destruct (Rlt_le_dec a d) as [L|L]; auto. pose proof (rnd_le prec rnd N d a L) as K. rewrite (fl_id a F) in K. lra. Qed.

Lemma reduce_sound L : forall acc, fl acc -> Forall fl L -> exists v, reduce_from (conj_ (r0_rounded rnd)) acc L = Ok v /\ fl v /\
  (0 < v -> 0 < acc /\ Forall (fun a => 0 < a) L) /\ (v < 0 -> acc < 0 \/ Exists (fun a => a < 0) L).
Proof.
  induction L as [|a L IH]; intros acc Fa FL.
  - exists acc. refine (conj eq_refl (conj Fa (conj _ _))); intros V; [split; [exact V|constructor]|left; exact V].
  - inversion FL; subst. destruct (conj_sign prec Hp rnd H acc a Fa H2) as (w & E & Fw & P & Q).
    destruct (IH w Fw H3) as (v & Ev & Fv & P' & Q'). exists v. cbn [reduce_from]. rewrite E. cbn [bind]. split; auto. split; auto. split.
    + intros V. destruct (P' V) as [W F]. destruct (P W). split; auto.
    + intros V. destruct (Q' V) as [W|F]; [destruct (Q W); auto|auto].
Qed.

Lemma cuboid_rounded_gen e c z : z <> [] -> length e = length z -> Forall fl e ->
  exists v, rounded_cuboid rnd (A1 e) c (A1 z) = Ok v /\ fl v /\
    (0 < v -> strictly_inside (lower c e) (upper c e) z) /\ (v < 0 -> ~ inside_closed (lower c e) (upper c e) z).
Proof.
  intros Hz He Fe. unfold rounded_cuboid.
  assert (Ll : length (lower c e) = length z) by (destruct c; simpl; rewrite ?map_length; auto).
  assert (Lu : length (upper c e) = length z) by (destruct c; simpl; rewrite ?map_length; auto).
  assert (E1 : (if c then amap (fun e => rnd (- e / 2)) (A1 e) else amap (fun _ => 0) (A1 e)) = A1 (lower c e)).
  { destruct c; [|reflexivity]. cbn [amap lower]. f_equal. apply map_ext_in. intros a Ia. rewrite Forall_forall in Fe.
    apply fl_id. apply is_float_half, is_float_opp, Fe, Ia. }
  assert (E2 : (if c then amap (fun e => rnd (e / 2)) (A1 e) else A1 e) = A1 (upper c e)).
  { destruct c; [|reflexivity]. cbn [amap upper]. f_equal. apply map_ext_in. intros a Ia. rewrite Forall_forall in Fe.
    apply fl_id. apply is_float_half, Fe, Ia. }
  rewrite E1, E2. unfold M_RFun.compose. cbn [map sequence]. unfold bop. rewrite !bcast1_eq by congruence. cbn [bind ravel].
  set (a := map2 (fun a b => rnd (a - b)) (upper c e) z). set (b := map2 (fun a b => rnd (a - b)) z (lower c e)).
  assert (La : length a = length z) by (unfold a; rewrite map2_length_eq; congruence).
  assert (Lb : length b = length z) by (unfold b; rewrite map2_length_eq; congruence).
  destruct (interleave_ok a b ltac:(congruence)) as (L & E & HL & HF & HE). rewrite E. cbn [bind ravel sequence concat]. rewrite app_nil_r.
  assert (FL : Forall fl L).
  { apply HF. unfold a, b. clear - H. split.
    - revert z. induction (upper c e) as [|p l IH]; intros [|q z]; constructor; auto. apply rnd_fl.
    - generalize (lower c e). induction z as [|q z IH]; intros [|p l]; constructor; auto. apply rnd_fl. }
  assert (Z0 : (0 < length z)%nat) by (destruct z; [congruence|simpl; lia]).
  destruct L as [|w ws]; [simpl in HL; lia|].
  inversion FL; subst. destruct (reduce_sound ws w H2 H3) as (v & Ev & Fv & P & Q).
  exists v. split; [exact Ev|]. split; auto. split.
  - intros V. destruct (P V) as [W F]. pose proof (proj1 (HF _) (Forall_cons _ W F)) as [A B].
    split; [exact Ll|]. split; [exact Lu|]. intros i Hi. rewrite Forall_nth_iff in A, B. specialize (A i ltac:(lia)). specialize (B i ltac:(lia)).
    unfold a in A. unfold b in B. rewrite (nth_map2 _ _ _ _ 0 0) in A by (congruence || lia). rewrite (nth_map2 _ _ _ _ 0 0) in B by (congruence || lia).
    apply rnd_gt0 in A. apply rnd_gt0 in B. lra.
  - intros V (_ & _ & C). assert (X : Exists (fun a => a < 0) (w :: ws)) by (destruct (Q V); [apply Exists_cons_hd|apply Exists_cons_tl]; auto).
    apply HE in X. rewrite !Exists_exists in X. destruct X as [(t & It & T)|(t & It & T)]; apply (In_nth _ _ 0) in It; destruct It as (i & Hi & <-).
    + unfold a in T. rewrite (nth_map2 _ _ _ _ 0 0) in T by (congruence || lia). apply rnd_lt0 in T. specialize (C i ltac:(lia)). lra.
    + unfold b in T. rewrite (nth_map2 _ _ _ _ 0 0) in T by (congruence || lia). apply rnd_lt0 in T. specialize (C i ltac:(lia)). lra.
Qed.

Lemma corners_fl c e : Forall fl e -> Forall fl (lower c e) /\ Forall fl (upper c e).
Proof.
  intros Fe. destruct c; split; simpl; auto; apply Forall_map; eapply Forall_impl; try exact Fe; intros a Fa; try apply fl_0; apply is_float_half; auto.
  apply is_float_opp; auto.
Qed.
Lemma shifted_box e c y x : x <> [] -> length e = length x -> length y = length x -> Forall fl e ->
  exists v, rounded_translate rnd (rounded_cuboid rnd (A1 e) c) (A1 y) (A1 x) = Ok v /\ fl v /\
    (0 < v -> strictly_inside (lower c e) (upper c e) (map2 Rminus x y)) /\
    (v < 0 -> ~ inside_closed (lower c e) (upper c e) (map2 Rminus x y)).
Proof.
  intros Hx He Hy Fe. unfold rounded_translate, bop. rewrite bcast1_eq by congruence. cbn [bind].
  set (z := map2 (fun a b => rnd (a - b)) x y).
  assert (Lz : length z = length x) by (unfold z; rewrite map2_length_eq; congruence).
  assert (Ld : length (map2 Rminus x y) = length x) by (rewrite map2_length_eq; congruence).
  destruct (cuboid_rounded_gen e c z) as (v & E & Fv & P & Q); [destruct x, z; simpl in *; congruence|congruence|auto|].
  exists v. split; [exact E|]. split; auto. destruct (corners_fl c e Fe) as [Fl Fu].
  assert (Ll : length (lower c e) = length x) by (destruct c; simpl; rewrite ?map_length; auto).
  assert (Lu : length (upper c e) = length x) by (destruct c; simpl; rewrite ?map_length; auto).
  rewrite Forall_nth_iff in Fl, Fu.
  assert (Z : forall i, (i < length x)%nat -> nth i z 0 = rnd (nth i (map2 Rminus x y) 0)).
  { intros i Hi. unfold z. rewrite !(nth_map2 _ _ _ _ 0 0) by (congruence || lia). reflexivity. }
  split.
  - intros V. destruct (P V) as (_ & _ & S). split; [congruence|]. split; [congruence|]. intros i Hi. rewrite Ld in Hi.
    specialize (S i ltac:(lia)). rewrite Z in S by auto. split; [apply rnd_gt; [apply Fl; lia|lra]|apply rnd_lt; [apply Fu; lia|lra]].
  - intros V (_ & _ & C). apply (Q V). split; [congruence|]. split; [congruence|]. intros i Hi. rewrite Lz in Hi.
    specialize (C i ltac:(lia)). rewrite Z by auto.
    rewrite <- (fl_id (nth i (lower c e) 0)) by (apply Fl; lia). rewrite <- (fl_id (nth i (upper c e) 0)) by (apply Fu; lia).
    split; apply (rnd_le prec rnd N); lra.
Qed.

(** *** sums of non-negative numbers *)
Lemma pow_mono_hi m n : (m <= n)%nat -> (1 + u) ^ m <= (1 + u) ^ n.
Proof. intros L. apply Rle_pow; auto. pose proof (u_bound prec Hp). lra. Qed.
Lemma pow_mono_lo m n : (m <= n)%nat -> (1 - u) ^ n <= (1 - u) ^ m.
Proof.
  intros L. replace n with (m + (n - m))%nat by lia. rewrite pow_add. pose proof (u_bound prec Hp).
  assert (0 <= (1 - u) ^ m) by (apply pow_le; lra). assert ((1 - u) ^ (n - m) <= 1).
  { pose proof (pow_incr (1 - u) 1 (n - m) ltac:(lra)) as K. rewrite pow1 in K. exact K. }
  nra.
Qed.
Lemma sum_bounds l s : rounded_sum rnd l s -> Forall (fun a => 0 <= a) l ->
  (1 - u) ^ length l * sumR l <= s <= (1 + u) ^ length l * sumR l /\ 0 <= s /\
  ((0 < length l)%nat -> (1 - u) ^ (length l - 1) * sumR l <= s <= (1 + u) ^ (length l - 1) * sumR l).
Proof.
  pose proof (u_bound prec Hp) as U.
  induction 1 as [|x|l l1 l2 a b Pm N1 N2 S1 IH1 S2 IH2]; intros F.
  - simpl. lra.
  - inversion F; subst. simpl. rewrite Rplus_0_r, !Rmult_1_r, !Rmult_1_l. split; [|split; [auto|lra]]. split; nra.
  - assert (F12 : Forall (fun a => 0 <= a) (l1 ++ l2)) by (eapply Permutation_Forall; eauto).
    apply Forall_app in F12. destruct F12 as [F1 F2]. destruct (IH1 F1) as (_ & P1 & B1). destruct (IH2 F2) as (_ & P2 & B2).
    assert (E : sumR l = sumR l1 + sumR l2).
    { transitivity (sumR (l1 ++ l2)); [|apply sumR_app]. clear - Pm. induction Pm; simpl; auto; unfold sumR in *; simpl in *; lra. }
    assert (Ll : length l = (length l1 + length l2)%nat) by (rewrite (Permutation_length Pm), app_length; reflexivity).
    assert (Q1 : (0 < length l1)%nat) by (destruct l1; [congruence|simpl; lia]). assert (Q2 : (0 < length l2)%nat) by (destruct l2; [congruence|simpl; lia]).
    specialize (B1 Q1). specialize (B2 Q2).
    assert (T1 : 0 <= sumR l1) by (apply sumR_nonneg; auto). assert (T2 : 0 <= sumR l2) by (apply sumR_nonneg; auto).
    destruct (err_pos prec Hp rnd H (a + b)) as [R1 R2]; [lra|].
    set (k := (length l - 2)%nat).
    assert (K1 : (length l1 - 1 <= k)%nat) by lia. assert (K2 : (length l2 - 1 <= k)%nat) by lia.
    assert (LOW : (1 - u) ^ k * sumR l <= a + b).
    { rewrite E. pose proof (pow_mono_lo _ _ K1). pose proof (pow_mono_lo _ _ K2).
      pose proof (Rmult_le_compat_r _ _ _ T1 H0). pose proof (Rmult_le_compat_r _ _ _ T2 H1). lra. }
    assert (HIG : a + b <= (1 + u) ^ k * sumR l).
    { rewrite E. pose proof (pow_mono_hi _ _ K1). pose proof (pow_mono_hi _ _ K2).
      pose proof (Rmult_le_compat_r _ _ _ T1 H0). pose proof (Rmult_le_compat_r _ _ _ T2 H1). lra. }
    assert (T : 0 <= sumR l) by lra.
    assert (BB : (1 - u) ^ (length l - 1) * sumR l <= rnd (a + b) <= (1 + u) ^ (length l - 1) * sumR l).
    { replace (length l - 1)%nat with (S k) by lia. cbn [pow]. split; nra. }
    split; [|split; [apply (rnd_pos prec rnd N); lra|auto]].
    pose proof (pow_mono_lo (length l - 1) (length l) ltac:(lia)). pose proof (pow_mono_hi (length l - 1) (length l) ltac:(lia)).
    split; [apply Rle_trans with ((1 - u) ^ (length l - 1) * sumR l)|apply Rle_trans with ((1 + u) ^ (length l - 1) * sumR l)]; try apply BB;
    apply Rmult_le_compat_r; auto.
Qed.
Lemma squares_bounds x : (1 - u) * dist2 x <= sumR (map (fun a => rnd (a * a)) x) <= (1 + u) * dist2 x /\ Forall (fun a => 0 <= a) (map (fun a => rnd (a * a)) x) /\ 0 <= dist2 x.
Proof.
  unfold dist2. induction x as [|a x (IH & IF & I0)].
  - split; [unfold sumR; simpl; lra|]. split; [constructor|]. unfold sumR; simpl; lra.
  - destruct (err_pos prec Hp rnd H (a * a)) as [R1 R2]; [nra|].
    split; [|split].
    + unfold sumR in *. cbn [map fold_right]. replace (a ^ 2) with (a * a) by ring. lra.
    + cbn [map]. constructor; auto. apply (rnd_pos prec rnd N). nra.
    + unfold sumR in *. cbn [map fold_right]. pose proof (pow2_ge_0 a). lra.
Qed.

Lemma norm_bounds x s : rounded_sum rnd (map (fun a => rnd (a * a)) x) s -> x <> [] ->
  0 <= rnd (sqrt s) /\ (1 - u) ^ (length x + 2) * dist2 x <= rnd (sqrt s) ^ 2 <= (1 + u) ^ (length x + 2) * dist2 x.
Proof.
  intros HS Hx. pose proof (u_bound prec Hp) as U. destruct (squares_bounds x) as (Q & F & D0).
  destruct (sum_bounds _ _ HS F) as (_ & S0 & B). rewrite map_length in B. specialize (B ltac:(destruct x; [congruence|simpl; lia])).
  set (k := (length x - 1)%nat) in *.
  assert (Pl : 0 <= (1 - u) ^ k) by (apply pow_le; lra). assert (Ph : 0 <= (1 + u) ^ k) by (apply pow_le; lra).
  assert (L1 : (1 - u) ^ S k * dist2 x <= s).
  { eapply Rle_trans; [|apply B]. cbn [pow]. pose proof (Rmult_le_compat_l _ _ _ Pl (proj1 Q)). lra. }
  assert (L2 : s <= (1 + u) ^ S k * dist2 x).
  { eapply Rle_trans; [apply B|]. cbn [pow]. pose proof (Rmult_le_compat_l _ _ _ Ph (proj2 Q)). lra. }
  destruct (err_pos prec Hp rnd H (sqrt s) (sqrt_pos s)) as [R1 R2].
  assert (N0 : 0 <= rnd (sqrt s)) by (apply (rnd_pos prec rnd N), sqrt_pos).
  assert (SQ : sqrt s * sqrt s = s) by (apply sqrt_sqrt; auto). pose proof (sqrt_pos s) as SP.
  assert (M1 : (1 - u) ^ 2 * s <= rnd (sqrt s) ^ 2).
  { replace ((1 - u) ^ 2 * s) with (((1 - u) * sqrt s) ^ 2) by (rewrite <- SQ at 2; ring). apply pow_incr. split; [nra|auto]. }
  assert (M2 : rnd (sqrt s) ^ 2 <= (1 + u) ^ 2 * s).
  { replace ((1 + u) ^ 2 * s) with (((1 + u) * sqrt s) ^ 2) by (rewrite <- SQ at 2; ring). apply pow_incr. split; auto. }
  split; auto. replace (length x + 2)%nat with (2 + S k)%nat by (destruct x; [congruence|unfold k; simpl; lia]). rewrite !pow_add.
  split; [eapply Rle_trans; [|exact M1]|eapply Rle_trans; [exact M2|]]; rewrite Rmult_assoc; apply Rmult_le_compat_l; auto; apply pow2_ge_0.
Qed.

Lemma sphere_signs r x v : 0 < r -> x <> [] -> rounded_sphere rnd r x v ->
  (0 < v -> (1 - u) ^ (length x + 2) * dist2 x < r ^ 2) /\ (v < 0 -> r ^ 2 < (1 + u) ^ (length x + 2) * dist2 x) /\
  ((1 + u) ^ (length x + 3) * dist2 x < (1 - u) * r ^ 2 -> 0 < v) /\
  ((1 + u) * r ^ 2 < (1 - u) ^ (length x + 3) * dist2 x -> v < 0).
Proof.
  intros Hr Hx (s & HS & ->). cbv zeta. pose proof (u_bound prec Hp) as U.
  destruct (norm_bounds x s HS Hx) as (N0 & B1 & B2). set (n := rnd (sqrt s)) in *.
  destruct (err_pos prec Hp rnd H (2 * r)) as [D1 _]; [lra|]. assert (D : 0 < rnd (2 * r)) by nra.
  destruct (err_pos prec Hp rnd H (n * n)) as [E1 E2]; [nra|]. destruct (err_pos prec Hp rnd H (r * r)) as [E3 E4]; [nra|].
  set (q := rnd (rnd (r * r) - rnd (n * n))).
  assert (QP : 0 < q / rnd (2 * r) <-> 0 < q).
  { split; intros K; [|apply Rdiv_lt_0_compat; auto]. replace q with (q / rnd (2 * r) * rnd (2 * r)) by (field; lra). nra. }
  assert (QN : q / rnd (2 * r) < 0 <-> q < 0).
  { split; intros K; [replace q with (q / rnd (2 * r) * rnd (2 * r)) by (field; lra); nra|].
    apply Ropp_lt_cancel. rewrite Ropp_0. replace (- (q / rnd (2 * r))) with ((- q) / rnd (2 * r)) by (field; lra). apply Rdiv_lt_0_compat; lra. }
  assert (pos : forall t, 0 < t -> 0 < rnd t) by (intros t Ht; destruct (err_pos prec Hp rnd H t); nra).
  assert (neg : forall t, t < 0 -> rnd t < 0).
  { intros t Ht. pose proof (err_abs prec Hp rnd H t) as K. rewrite (Rabs_left t) in K by auto. apply Rabs_le_inv in K. nra. }
  split; [|split; [|split]].
  - intros V. apply rnd_gt0 in V. apply QP in V. apply rnd_gt0 in V.
    assert (n * n < r * r). { destruct (Rlt_le_dec (n * n) (r * r)) as [K|K]; auto. pose proof (rnd_le prec rnd N _ _ K). lra. }
    replace (n ^ 2) with (n * n) in * by ring. replace (r ^ 2) with (r * r) by ring. lra.
  - intros V. apply rnd_lt0 in V. apply QN in V. apply rnd_lt0 in V.
    assert (r * r < n * n). { destruct (Rlt_le_dec (r * r) (n * n)) as [K|K]; auto. pose proof (rnd_le prec rnd N _ _ K). lra. }
    replace (n ^ 2) with (n * n) in * by ring. replace (r ^ 2) with (r * r) by ring. lra.
  - intros K. apply pos, QP, pos. replace (length x + 3)%nat with (S (length x + 2)) in K by lia. cbn [pow] in K.
    replace (n ^ 2) with (n * n) in * by ring. nra.
  - intros K. apply neg, QN, neg. replace (length x + 3)%nat with (S (length x + 2)) in K by lia. cbn [pow] in K.
    replace (n ^ 2) with (n * n) in * by ring. nra.
Qed.

Lemma sum_exists l : exists s, rounded_sum rnd l s.
Proof.
  induction l as [|a [|b l] [s IH]]; [eexists; constructor|eexists; constructor|].
  eexists. apply (sum_split rnd _ [a] (b :: l) a s); auto; try discriminate. constructor.
Qed.
Lemma sphere_exists r x : exists v, rounded_sphere rnd r x v.
Proof. destruct (sum_exists (map (fun a => rnd (a * a)) x)) as [s S]. eexists. exists s. split; [exact S|reflexivity]. Qed.
End Rounded.

(** *** float32 *)
Definition r_w : f32 := b32_of_bits 1069547520.
Lemma r_w_val : B r_w = 3 / 2.
Proof. rewrite (B_finite r_w false 12582912 (-23)) by reflexivity. unfold F2R. simpl. lra. Qed.
Definition p1 : f32 := b32_of_bits 1068868215.
Definition p2 : f32 := b32_of_bits 1046195443.
Definition p3 : f32 := b32_of_bits 1054827240.
Definition q1 : f32 := b32_of_bits 1069130449.
Definition q2 : f32 := b32_of_bits 1051048745.
Definition q3 : f32 := b32_of_bits 1045536732.
Lemma wrong_inside : B r_w ^ 2 < dist2 [B p1; B p2; B p3] /\ 0 < B (sphere32 r_w p1 p2 p3).
Proof.
  rewrite r_w_val. split.
  - rewrite (B_finite p1 false 11903607 (-23)), (B_finite p2 false 14396659 (-26)), (B_finite p3 false 14639848 (-25)) by reflexivity.
    unfold dist2, sumR, F2R. simpl. lra.
  - rewrite (B_finite _ false 11184811 (-47)) by (vm_compute; reflexivity). apply F2R_gt_0. reflexivity.
Qed.
Lemma wrong_outside : dist2 [B q1; B q2; B q3] < B r_w ^ 2 /\ B (sphere32 r_w q1 q2 q3) < 0.
Proof.
  rewrite r_w_val. split.
  - rewrite (B_finite q1 false 12165841 (-23)), (B_finite q2 false 10861353 (-25)), (B_finite q3 false 13737948 (-26)) by reflexivity.
    unfold dist2, sumR, F2R. simpl. lra.
  - rewrite (B_finite _ true 11184811 (-46)) by (vm_compute; reflexivity). apply F2R_lt_0. reflexivity.
Qed.
Lemma ball_lies : exists r, moderate32 r /\ 0 < B r /\
  (exists x y z, moderate32 x /\ moderate32 y /\ moderate32 z /\ B r ^ 2 < dist2 [B x; B y; B z] /\ 0 < B (sphere32 r x y z)) /\
  (exists x y z, moderate32 x /\ moderate32 y /\ moderate32 z /\ dist2 [B x; B y; B z] < B r ^ 2 /\ B (sphere32 r x y z) < 0).
Proof.
  assert (M : forall x m e, B2FF 24 128 x = F754_finite false m e -> (8388608 <= Zpos m <= 16777216)%Z -> (-30 <= e <= 0)%Z -> moderate32 x).
  { intros x m e E Hm He. split; [destruct x; try discriminate E; reflexivity|]. right. rewrite (B_finite _ _ _ _ E). cbn [cond_Zopp].
    rewrite Rabs_right by (apply Rle_ge, F2R_ge_0; simpl; lia). rewrite <- !(bpow_powerRZ radix2). unfold F2R; cbn [Fnum Fexp].
    pose proof (bpow_gt_0 radix2 e).
    assert (L1 : IZR 8388608 <= IZR (Zpos m)) by (apply IZR_le; lia). assert (L2 : IZR (Zpos m) <= IZR 16777216) by (apply IZR_le; lia).
    split.
    - apply Rle_trans with (bpow radix2 e); [apply bpow_le; lia|]. nra.
    - apply Rle_trans with (bpow radix2 24 * bpow radix2 e); [|rewrite <- bpow_plus; apply bpow_le; lia].
      apply Rmult_le_compat_r; [lra|]. eapply Rle_trans; [exact L2|]. right. reflexivity. }
  exists r_w. split; [apply (M _ 12582912%positive (-23)%Z); try reflexivity; lia|]. split; [rewrite r_w_val; lra|]. split.
  - exists p1, p2, p3. split; [apply (M _ 11903607%positive (-23)%Z); try reflexivity; lia|]. split; [apply (M _ 14396659%positive (-26)%Z); try reflexivity; lia|].
    split; [apply (M _ 14639848%positive (-25)%Z); try reflexivity; lia|]. exact wrong_inside.
  - exists q1, q2, q3. split; [apply (M _ 12165841%positive (-23)%Z); try reflexivity; lia|]. split; [apply (M _ 10861353%positive (-25)%Z); try reflexivity; lia|].
    split; [apply (M _ 13737948%positive (-26)%Z); try reflexivity; lia|]. exact wrong_outside.
Qed.
(** *** set operations on boxes *)
Lemma boxes_compose prec rnd boxes e x : (4 <= prec)%Z -> nearest prec rnd -> x <> [] ->
  (forall i : nat, let '(l, c, y) := boxes i in length l = length x /\ length y = length x /\ Forall (is_float prec) l) ->
  never_lies prec (M_Float.compose (r0_rounded rnd) (fun i => let '(l, c, y) := boxes i in rounded_translate rnd (rounded_cuboid rnd (A1 l) c) (A1 y)) e)
    (member (fun i p => exists q, p = A1 q /\ let '(l, c, y) := boxes i in strictly_inside (lower c l) (upper c l) (map2 Rminus q y)) e) (A1 x).
Proof.
  intros Hp H Hx HB. apply (compose_never_lies prec Hp rnd H). intros i. specialize (HB i). unfold never_lies.
  destruct (boxes i) as [[l c] y]. destruct HB as (L1 & L2 & F).
  destruct (shifted_box prec Hp rnd H l c y x Hx L1 L2 F) as (v & E & Fv & P & Q). exists v. split; [exact E|]. split; auto. split.
  - intros V. exists x. split; [reflexivity|]. apply P; auto.
  - intros V (q & Eq & S). injection Eq as <-. apply (Q V). destruct S as (S1 & S2 & S3). split; auto. split; auto.
    intros i0 Hi. specialize (S3 i0 Hi). lra.
Qed.
Lemma sphere_signs' prec rnd r x v : (4 <= prec)%Z -> nearest prec rnd -> 0 < r -> x <> [] -> rounded_sphere rnd r x v ->
  let u := powerRZ 2 (- prec) in let n := length x in
  (0 < v -> (1 - u) ^ (n + 2) * dist2 x < r ^ 2) /\ (v < 0 -> r ^ 2 < (1 + u) ^ (n + 2) * dist2 x) /\
  ((1 + u) ^ (n + 3) * dist2 x < (1 - u) * r ^ 2 -> 0 < v) /\ ((1 + u) * r ^ 2 < (1 - u) ^ (n + 3) * dist2 x -> v < 0).
Proof.
  intros Hp H Hr Hx HS. cbv zeta. rewrite <- (u_powerRZ prec). apply (sphere_signs prec Hp rnd H); auto.
Qed.
Lemma rounded_box_example : nearest 24 (round radix2 (FLX_exp 24) ZnearestE) /\ Forall (is_float 24) [1; 3 / 4] /\
  strictly_inside (lower true [1; 3 / 4]) (upper true [1; 3 / 4]) [1 / 4; - 1 / 4].
Proof.
  split; [exact rx_nearest|]. split.
  - constructor; [exists 1%Z, 0%Z; split; [simpl; lra|reflexivity]|]. constructor; [exists 3%Z, (-2)%Z; split; [simpl; lra|reflexivity]|]. constructor.
  - split; [reflexivity|]. split; [reflexivity|]. intros [|[|i]] Hi; simpl in *; try lra. lia.
Qed.
