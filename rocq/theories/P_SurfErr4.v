(** Lemmas for the examples: functions of two variables with bounded derivatives. *)
From Coquelicot Require Import Coquelicot.
From Verif Require Import Base BaseFacts P_Vec M_Tensor M_Integrate S_Calc P_AD P_Calc P_Calc2 S_Model S_Integrate S_IntErr S_IntOrder S_Surface S_SurfErr.

Lemma mvt_bound (g g' : R -> R) a b L : (forall x, Rmin a b <= x <= Rmax a b -> is_derive g x (g' x)) ->
  (forall x, Rmin a b <= x <= Rmax a b -> Rabs (g' x) <= L) -> Rabs (g a - g b) <= L * Rabs (a - b).
Proof.
  intros HD HB. destruct (MVT_gen g b a g') as (c & Hc & E).
  - intros x Hx. apply HD. rewrite Rmin_comm, Rmax_comm. lra.
  - intros x Hx. apply continuity_pt_filterlim, (ex_derive_continuous (V := R_NormedModule) g). exists (g' x). apply HD.
    rewrite Rmin_comm, Rmax_comm. exact Hx.
  - rewrite E, Rabs_mult. apply Rmult_le_compat_r; [apply Rabs_pos|]. apply HB. rewrite Rmin_comm, Rmax_comm. exact Hc.
Qed.
Lemma between a b l h x : l <= a <= h -> l <= b <= h -> Rmin a b <= x <= Rmax a b -> l <= x <= h.
Proof. unfold Rmin, Rmax. destruct (Rle_dec a b); lra. Qed.

Section Two.
  Variables (a b c d : R).
  Lemma lipschitz2 (G G1 G2 : R -> R -> R) L F :
    (forall x y, is_derive (fun t => G t y) x (G1 x y)) -> (forall x y, is_derive (fun t => G x t) y (G2 x y)) ->
    (forall x y, a <= x <= b -> c <= y <= d -> Rabs (G1 x y) <= L /\ Rabs (G2 x y) <= L) ->
    (forall x y, F [x; y] = G x y) -> lipschitz_box [(a, b); (c, d)] L F.
  Proof.
    intros D1 D2 HB HF p q Hp Hq.
    inversion Hp as [|? x ? ? H1 Hp1]; subst. inversion Hp1 as [|? y ? ? H2 Hp2]; subst. inversion Hp2; subst.
    inversion Hq as [|? x' ? ? H3 Hq1]; subst. inversion Hq1 as [|? y' ? ? H4 Hq2]; subst. inversion Hq2; subst.
    cbn [fst snd] in *. rewrite !HF. unfold sumR. cbn [map2 map fold_right].
    replace (G x y - G x' y') with ((G x y - G x' y) + (G x' y - G x' y')) by ring.
    eapply Rle_trans; [apply Rabs_triang|].
    rewrite Rplus_0_r, Rmult_plus_distr_l. apply Rplus_le_compat.
    - apply (mvt_bound (fun t => G t y) (fun t => G1 t y)); intros z Hz; [apply D1|]. apply HB; auto. apply (between x x'); auto.
    - apply (mvt_bound (fun t => G x' t) (fun t => G2 x' t)); intros z Hz; [apply D2|]. apply HB; auto. apply (between y y'); auto.
  Qed.
  Lemma smooth_box2 (G G1 G2 G11 G12 G21 G22 : R -> R -> R) L M F :
    (forall x y, is_derive (fun t => G t y) x (G1 x y)) -> (forall x y, is_derive (fun t => G x t) y (G2 x y)) ->
    (forall x y, is_derive (fun t => G1 t y) x (G11 x y)) -> (forall x y, is_derive (fun t => G1 x t) y (G12 x y)) ->
    (forall x y, is_derive (fun t => G2 t y) x (G21 x y)) -> (forall x y, is_derive (fun t => G2 x t) y (G22 x y)) ->
    0 <= L -> 0 <= M ->
    (forall x y, a <= x <= b -> c <= y <= d -> Rabs (G1 x y) <= L /\ Rabs (G2 x y) <= L) ->
    (forall x y, a <= x <= b -> c <= y <= d -> Rabs (G11 x y) <= M /\ Rabs (G12 x y) <= M /\ Rabs (G21 x y) <= M /\ Rabs (G22 x y) <= M) ->
    (forall x y, F [x; y] = G x y) -> smooth_box [(a, b); (c, d)] 1 M F.
  Proof.
    intros D1 D2 D11 D12 D21 D22 PL PM HL HM HF.
    assert (S0 : forall x y z, slice F 0 [x; y] z = G z y) by (intros; unfold slice; cbn [upd]; apply HF).
    assert (S1 : forall x y z, slice F 1 [x; y] z = G x z) by (intros; unfold slice; cbn [upd]; apply HF).
    assert (A1 : forall x y z, Derive (slice F 0 [x; y]) z = G1 z y).
    { intros. rewrite (Derive_ext _ (fun t => G t y)) by (intros; apply S0). apply is_derive_unique, D1. }
    assert (A2 : forall x y z, Derive (slice F 1 [x; y]) z = G2 x z).
    { intros. rewrite (Derive_ext _ (fun t => G x t)) by (intros; apply S1). apply is_derive_unique, D2. }
    split.
    - exists L. split; auto. apply (lipschitz2 G G1 G2); auto.
    - intros i Hi. cbn [length] in Hi. destruct i as [|[|i]]; [| |lia].
      + exists (a - 1), (b + 1). cbn [nth fst snd]. split; [lra|]. split; [lra|]. split; [|split].
        * intros p Hp x k _ Hk. inversion Hp as [|? p0 ? ? _ Hp1]; subst. inversion Hp1 as [|? p1 ? ? _ Hp2]; subst. inversion Hp2; subst.
          destruct k as [|[|[|k]]]; [exact I| | |lia]; cbn [ex_derive_n Derive_n].
          -- apply (ex_derive_ext (fun t => G t p1)); [intros; symmetry; apply S0|]. eexists. apply D1.
          -- apply (ex_derive_ext (fun t => G1 t p1)); [intros; symmetry; apply A1|]. eexists. apply D11.
        * intros p Hp. inversion Hp as [|? p0 ? ? Q0 Hp1]; subst. inversion Hp1 as [|? p1 ? ? Q1 Hp2]; subst. inversion Hp2; subst. cbn [fst snd] in *.
          replace (partial_n F 0 2 [p0; p1]) with (G11 p0 p1); [apply HM; auto|]. symmetry.
          transitivity (Derive (fun t => G1 t p1) p0); [apply Derive_ext; intros; apply A1|apply is_derive_unique, D11].
        * intros k Hk. destruct k as [|[|k]]; [| |lia].
          -- exists L. split; auto. apply (lipschitz2 G G1 G2); auto; intros x y; apply S0.
          -- exists M. split; auto. apply (lipschitz2 G1 G11 G12); auto; [intros x y Hx Hy; destruct (HM x y Hx Hy) as (B1 & B2 & _); auto|].
             intros x y. unfold partial_n. cbn [Derive_n nth]. apply A1.
      + exists (c - 1), (d + 1). cbn [nth fst snd]. split; [lra|]. split; [lra|]. split; [|split].
        * intros p Hp x k _ Hk. inversion Hp as [|? p0 ? ? _ Hp1]; subst. inversion Hp1 as [|? p1 ? ? _ Hp2]; subst. inversion Hp2; subst.
          destruct k as [|[|[|k]]]; [exact I| | |lia]; cbn [ex_derive_n Derive_n].
          -- apply (ex_derive_ext (fun t => G p0 t)); [intros; symmetry; apply S1|]. eexists. apply D2.
          -- apply (ex_derive_ext (fun t => G2 p0 t)); [intros; symmetry; apply A2|]. eexists. apply D22.
        * intros p Hp. inversion Hp as [|? p0 ? ? Q0 Hp1]; subst. inversion Hp1 as [|? p1 ? ? Q1 Hp2]; subst. inversion Hp2; subst. cbn [fst snd] in *.
          replace (partial_n F 1 2 [p0; p1]) with (G22 p0 p1); [apply HM; auto|]. symmetry.
          transitivity (Derive (fun t => G2 p0 t) p1); [apply Derive_ext; intros; apply A2|apply is_derive_unique, D22].
        * intros k Hk. destruct k as [|[|k]]; [| |lia].
          -- exists L. split; auto. apply (lipschitz2 G G1 G2); auto; intros x y; apply S1.
          -- exists M. split; auto. apply (lipschitz2 G2 G21 G22); auto; [intros x y Hx Hy; destruct (HM x y Hx Hy) as (_ & _ & B1 & B2); auto|].
             intros x y. unfold partial_n. cbn [Derive_n nth]. apply A2.
  Qed.
End Two.

(** *** charges that are powers of the first coordinate *)
Definition three (y : list R) : Prop := length y = 3%nat.
Lemma three_open : openset 3 three.
Proof. intros q Hq. split; auto. exists 1. split; [lra|]. intros y (L & _). unfold three in *. congruence. Qed.
Lemma three_convex : convex three.
Proof. intros a b t Ha Hb _. unfold three, axpy in *. rewrite !map2_length, Ha, Hb. reflexivity. Qed.
Definition power_of (c : R) (m : nat) (f : list R -> R) : Prop := forall y, three y -> f y = c * nth 0 y 0 ^ m.
Lemma power_pd0 c m f : power_of c m f -> power_of (c * INR m) (pred m) (pd 0 f).
Proof.
  intros H y Hy. unfold pd. transitivity (Derive (fun t => c * t ^ m) (nth 0 y 0)).
  - apply Derive_ext. intros t. rewrite H by (unfold three; rewrite upd_length; exact Hy).
    destruct y as [|y0 y]; [discriminate Hy|]. reflexivity.
  - apply is_derive_unique. auto_derive; auto. ring.
Qed.
Lemma power_pd c m f i : power_of c m f -> power_of 0 0 (pd (S i) f).
Proof.
  intros H y Hy. unfold pd. transitivity (Derive (fun _ => c * nth 0 y 0 ^ m) (nth (S i) y 0)).
  - apply Derive_ext. intros t. rewrite H by (unfold three; rewrite upd_length; exact Hy).
    destruct y as [|y0 y]; [discriminate Hy|]. reflexivity.
  - rewrite Derive_const. ring.
Qed.
Lemma power_cont c m f x : power_of c m f -> three x -> cont_at f x.
Proof.
  intros H Hx eps He.
  assert (C : continuous (fun t => c * t ^ m) (nth 0 x 0)).
  { apply (ex_derive_continuous (V := R_NormedModule)). auto_derive. auto. }
  destruct (proj1 (filterlim_locally _ _) C (mkposreal eps He)) as [d Hd].
  exists d. split; [apply cond_pos|]. intros y (L & N). assert (Hy : three y) by (unfold three in *; congruence).
  rewrite !H by auto. apply (Hd (nth 0 y 0)). apply N.
Qed.
Lemma power_smooth k : forall c m f, power_of c m f -> smooth 3 three k f.
Proof.
  induction k as [|k IH]; intros c m f H; [exact I|]. split.
  - intros i x Hi Hx. destruct i as [|i].
    + split; [|eapply power_cont; [eapply power_pd0; eauto|auto]].
      apply (ex_derive_ext (fun t => c * t ^ m)); [|auto_derive; auto].
      intros t. rewrite H by (unfold three; rewrite upd_length; exact Hx). destruct x; [discriminate Hx|]. reflexivity.
    + split; [|eapply power_cont; [eapply power_pd; eauto|auto]].
      apply (ex_derive_ext (fun _ => c * nth 0 x 0 ^ m)); [|apply ex_derive_const].
      intros t. rewrite H by (unfold three; rewrite upd_length; exact Hx). destruct x; [discriminate Hx|]. reflexivity.
  - intros i Hi. destruct i; eapply IH; [apply power_pd0|eapply power_pd]; eauto.
Qed.
Lemma zero_dirder k : forall m f z d, power_of 0 m f -> three z -> dirder k f z d = 0.
Proof.
  induction k as [|k IH]; intros m f z d H Hz; cbn [dirder]; [rewrite H by auto; ring|].
  unfold total. cbn [seq map]. rewrite (IH (pred m) (pd 0 f)), (IH 0%nat (pd 1 f)), (IH 0%nat (pd 2 f)); auto; try (eapply power_pd; eauto).
  - unfold sumR. cbn [fold_right]. ring.
  - pose proof (power_pd0 _ _ _ H) as E. rewrite Rmult_0_l in E. exact E.
Qed.
Lemma power_dirder k c m f z d : power_of c m f -> three z -> dirder (S k) f z d = nth 0 d 0 * dirder k (pd 0 f) z d.
Proof.
  intros H Hz. cbn [dirder]. unfold total. cbn [seq map].
  rewrite (zero_dirder k 0 (pd 1 f)), (zero_dirder k 0 (pd 2 f)) by (auto; eapply power_pd; eauto). unfold sumR. cbn [fold_right]. ring.
Qed.
Lemma first_le_norm d : three d -> Rabs (nth 0 d 0) <= normR d.
Proof.
  unfold three. destruct d as [|x [|y [|z [|]]]]; try discriminate. intros _. unfold normR, sumR. cbn [map fold_right nth].
  rewrite <- sqrt_Rsqr_abs. apply sqrt_le_1_alt. unfold Rsqr. nra.
Qed.
Lemma cube_below : derivatives_below 3 three (fun y => nth 0 y 0 ^ 3) 6.
Proof.
  intros z d Hz Hd. assert (P : power_of 1 3 (fun y => nth 0 y 0 ^ 3)) by (intros y _; ring).
  pose proof (power_pd0 _ _ _ P) as P1. pose proof (power_pd0 _ _ _ P1) as P2. pose proof (power_pd0 _ _ _ P2) as P3.
  rewrite (power_dirder 2 _ _ _ z d P Hz), (power_dirder 1 _ _ _ z d P1 Hz), (power_dirder 0 _ _ _ z d P2 Hz). cbn [dirder].
  rewrite P3 by auto. cbn [pred]. rewrite pow_O. replace (INR 3) with 3 by (cbn; lra). replace (INR 2) with 2 by (cbn; lra). change (INR 1) with 1.
  replace (nth 0 d 0 * (nth 0 d 0 * (nth 0 d 0 * (1 * 3 * 2 * 1 * 1)))) with (6 * nth 0 d 0 ^ 3) by ring.
  rewrite Rabs_mult, <- RPow_abs, (Rabs_right 6) by lra. apply Rmult_le_compat_l; [lra|]. apply pow_incr. split; [apply Rabs_pos|apply first_le_norm; auto].
Qed.
Lemma linear_below : derivatives_below 1 three (fun y => nth 0 y 0) 1.
Proof.
  intros z d Hz Hd. assert (P : power_of 1 1 (fun y => nth 0 y 0)) by (intros y _; ring).
  pose proof (power_pd0 _ _ _ P) as P1. rewrite (power_dirder 0 _ _ _ z d P Hz). cbn [dirder]. rewrite P1 by auto.
  change (INR 1) with 1. cbn [pred]. rewrite pow_O, pow_1. replace (nth 0 d 0 * (1 * 1 * 1)) with (nth 0 d 0) by ring. rewrite Rmult_1_l. apply first_le_norm; auto.
Qed.

(** *** p(s) / r with r the distance to a point at height c *)
Definition inv_dist (a b c s t : R) : R := / sqrt ((s - a) ^ 2 + (t - b) ^ 2 + c ^ 2).
Lemma height_sq a b c s t : 1 <= c -> 1 <= (s - a) ^ 2 + (t - b) ^ 2 + c ^ 2.
Proof. intros H. pose proof (pow2_ge_0 (s - a)). pose proof (pow2_ge_0 (t - b)). assert (1 <= c ^ 2) by nra. lra. Qed.
Lemma inv_dist_facts a b c s t : 1 <= c -> let u := inv_dist a b c s t in
  0 < u <= 1 /\ -1 <= (s - a) * u <= 1 /\ -1 <= (t - b) * u <= 1.
Proof.
  intros Hc u. set (r := sqrt ((s - a) ^ 2 + (t - b) ^ 2 + c ^ 2)).
  assert (P : 1 <= (s - a) ^ 2 + (t - b) ^ 2 + c ^ 2) by (apply height_sq; auto).
  assert (R1 : 1 <= r) by (rewrite <- sqrt_1; apply sqrt_le_1_alt; auto).
  assert (R2 : r * r = (s - a) ^ 2 + (t - b) ^ 2 + c ^ 2) by (apply sqrt_def; lra).
  assert (E : u * r = 1) by (unfold u, inv_dist; fold r; field; lra).
  assert (U : 0 < u) by (unfold u, inv_dist; fold r; apply Rinv_0_lt_compat; lra).
  split; [split; nra|].
  assert (A : (- r <= s - a <= r) /\ (- r <= t - b <= r)).
  { pose proof (pow2_ge_0 (s - a)). pose proof (pow2_ge_0 (t - b)). pose proof (pow2_ge_0 c).
    split; apply Rabs_le_between; rewrite <- (Rabs_right r) by lra; apply Rsqr_le_abs_0; unfold Rsqr; lra. }
  replace (-1) with (- r * u) by lra. replace 1 with (r * u) by lra.
  split; split; apply Rmult_le_compat_r; lra.
Qed.
Lemma inv_dist_d1 a b c s t : 1 <= c -> is_derive (fun x => inv_dist a b c x t) s (- (s - a) * inv_dist a b c s t ^ 3).
Proof.
  intros Hc. assert (P : 1 <= (s - a) ^ 2 + (t - b) ^ 2 + c ^ 2) by (apply height_sq; auto). unfold inv_dist. auto_derive.
  - repeat split; [simpl in P; lra|]. apply Rgt_not_eq, sqrt_lt_R0. simpl in P; lra.
  - set (r := sqrt _). assert (0 < r) by (apply sqrt_lt_R0; simpl in P; lra).
    change (sqrt ((s - a) ^ 2 + (t - b) ^ 2 + c ^ 2)) with r. field. lra.
Qed.
Lemma inv_dist_d2 a b c s t : 1 <= c -> is_derive (fun x => inv_dist a b c s x) t (- (t - b) * inv_dist a b c s t ^ 3).
Proof.
  intros Hc. assert (P : 1 <= (s - a) ^ 2 + (t - b) ^ 2 + c ^ 2) by (apply height_sq; auto). unfold inv_dist. auto_derive.
  - repeat split; [simpl in P; lra|]. apply Rgt_not_eq, sqrt_lt_R0. simpl in P; lra.
  - set (r := sqrt _). assert (0 < r) by (apply sqrt_lt_R0; simpl in P; lra).
    change (sqrt ((s - a) ^ 2 + (t - b) ^ 2 + c ^ 2)) with r. field. lra.
Qed.
Lemma layer_derivatives (p p1 p2 q : R -> R) a s e c1 c2 : is_derive p s (p1 s) -> is_derive p1 s (p2 s) ->
  is_derive q s (- (s - a) * q s ^ 3) ->
  is_derive (fun x => p x * q x) s (p1 s * q s - p s * ((s - a) * q s ^ 3)) /\
  is_derive (fun x => p1 x * q x - p x * ((x - a) * q x ^ 3)) s
    (p2 s * q s - 2 * p1 s * ((s - a) * q s ^ 3) - p s * q s ^ 3 + 3 * p s * ((s - a) ^ 2 * q s ^ 5)) /\
  is_derive (fun x => - p x * (e * q x ^ 3)) s (- p1 s * (e * q s ^ 3) + 3 * p s * (e * (s - a) * q s ^ 5)) /\
  is_derive (fun x => c1 * q x) s (- c1 * ((s - a) * q s ^ 3)) /\
  is_derive (fun x => - c1 * ((x - a) * q x ^ 3)) s (- c1 * q s ^ 3 + 3 * c1 * ((s - a) ^ 2 * q s ^ 5)) /\
  is_derive (fun x => c1 * q x - c2 * (e * q x ^ 3)) s (- c1 * ((s - a) * q s ^ 3) + 3 * c2 * (e * (s - a) * q s ^ 5)).
Proof.
  intros H1 H2 H3.
  pose proof (is_derive_unique _ _ _ H1) as E1. pose proof (is_derive_unique _ _ _ H2) as E2. pose proof (is_derive_unique _ _ _ H3) as E3.
  assert (X1 : ex_derive (fun x => p x) s) by (eexists; exact H1). assert (X2 : ex_derive (fun x => p1 x) s) by (eexists; exact H2).
  assert (X3 : ex_derive (fun x => q x) s) by (eexists; exact H3).
  assert (Y1 : Derive (fun x => p x) s = p1 s) by exact E1. assert (Y2 : Derive (fun x => p1 x) s = p2 s) by exact E2.
  assert (Y3 : Derive (fun x => q x) s = - (s - a) * q s ^ 3) by exact E3.
  repeat match goal with |- _ /\ _ => split end; (auto_derive; [tauto|]; rewrite ?Y1, ?Y2, ?Y3; ring).
Qed.
Lemma abs1 x y : Rabs x <= 1 -> Rabs y <= 1 -> Rabs (x * y) <= 1.
Proof. intros. rewrite Rabs_mult. replace 1 with (1 * 1) by ring. apply Rmult_le_compat; auto; apply Rabs_pos. Qed.
Lemma absB B x y : Rabs x <= B -> Rabs y <= 1 -> Rabs (x * y) <= B.
Proof. intros. rewrite Rabs_mult. replace B with (B * 1) by ring. apply Rmult_le_compat; auto; apply Rabs_pos. Qed.
Lemma abs_sum x y A B : Rabs x <= A -> Rabs y <= B -> Rabs (x + y) <= A + B.
Proof. intros. eapply Rle_trans; [apply Rabs_triang|lra]. Qed.
Lemma smooth_layer (p p1 p2 : R -> R) a b c lo hi lo' hi' B F : 1 <= c -> 0 <= B ->
  (forall s, is_derive p s (p1 s)) -> (forall s, is_derive p1 s (p2 s)) ->
  (forall s, lo <= s <= hi -> Rabs (p s) <= B /\ Rabs (p1 s) <= B /\ Rabs (p2 s) <= B) ->
  (forall s t, F [s; t] = p s * inv_dist a b c s t) -> smooth_box [(lo, hi); (lo', hi')] 1 (7 * B) F.
Proof.
  intros Hc B0 D1 D2 HB HF. set (u := inv_dist a b c).
  pose proof (fun s t => inv_dist_d1 a b c s t Hc) as Q1. pose proof (fun s t => inv_dist_d2 a b c s t Hc) as Q2.
  pose proof (fun s t e c1 c2 => layer_derivatives p p1 p2 (fun x => u x t) a s e c1 c2 (D1 s) (D2 s) (Q1 s t)) as LS.
  pose proof (fun s t e c1 c2 => layer_derivatives p p1 p2 (fun x => u s x) b t e c1 c2 (D1 t) (D2 t) (Q2 s t)) as LT.
  assert (U : forall s t, Rabs (u s t) <= 1 /\ Rabs ((s - a) * u s t) <= 1 /\ Rabs ((t - b) * u s t) <= 1).
  { intros s t. destruct (inv_dist_facts a b c s t Hc) as (H1 & H2 & H3). fold u in H1, H2, H3. split; [|split]; apply Rabs_le; lra. }
  apply (smooth_box2 lo hi lo' hi' (fun s t => p s * u s t) (fun s t => p1 s * u s t - p s * ((s - a) * u s t ^ 3))
    (fun s t => - p s * ((t - b) * u s t ^ 3))
    (fun s t => p2 s * u s t - 2 * p1 s * ((s - a) * u s t ^ 3) - p s * u s t ^ 3 + 3 * p s * ((s - a) ^ 2 * u s t ^ 5))
    (fun s t => - p1 s * ((t - b) * u s t ^ 3) + 3 * p s * ((s - a) * (t - b) * u s t ^ 5))
    (fun s t => - p1 s * ((t - b) * u s t ^ 3) + 3 * p s * ((t - b) * (s - a) * u s t ^ 5))
    (fun s t => - p s * u s t ^ 3 + 3 * p s * ((t - b) ^ 2 * u s t ^ 5)) (7 * B)); try lra; auto.
  - intros s t. apply (LS s t 0 0 0).
  - intros s t. destruct (LT s t 0 (p s) 0) as (_ & _ & _ & H & _). exact H.
  - intros s t. apply (LS s t 0 0 0).
  - intros s t. destruct (LT s t (s - a) (p1 s) (p s)) as (_ & _ & _ & _ & _ & H). exact H.
  - intros s t. apply (LS s t (t - b) 0 0).
  - intros s t. destruct (LT s t 0 (p s) 0) as (_ & _ & _ & _ & H & _). exact H.
  - intros s t Hs Ht. destruct (U s t) as (U1 & U2 & U3). destruct (HB s Hs) as (P0 & P1 & P2).
    assert (A3 : Rabs ((s - a) * u s t ^ 3) <= 1) by (replace ((s - a) * u s t ^ 3) with ((s - a) * u s t * (u s t * u s t)) by ring; auto using abs1).
    assert (B3 : Rabs ((t - b) * u s t ^ 3) <= 1) by (replace ((t - b) * u s t ^ 3) with ((t - b) * u s t * (u s t * u s t)) by ring; auto using abs1).
    split.
    + apply Rle_trans with (B + B); [|lra]. unfold Rminus. apply abs_sum; [apply absB; auto|]. rewrite Rabs_Ropp. apply absB; auto.
    + apply Rle_trans with B; [|lra]. apply absB; auto. rewrite Rabs_Ropp. auto.
  - intros s t Hs Ht. destruct (U s t) as (U1 & U2 & U3). destruct (HB s Hs) as (P0 & P1 & P2).
    assert (A3 : Rabs ((s - a) * u s t ^ 3) <= 1) by (replace ((s - a) * u s t ^ 3) with ((s - a) * u s t * (u s t * u s t)) by ring; auto using abs1).
    assert (B3 : Rabs ((t - b) * u s t ^ 3) <= 1) by (replace ((t - b) * u s t ^ 3) with ((t - b) * u s t * (u s t * u s t)) by ring; auto using abs1).
    assert (C3 : Rabs (u s t ^ 3) <= 1) by (replace (u s t ^ 3) with (u s t * (u s t * u s t)) by ring; auto using abs1).
    assert (A5 : Rabs ((s - a) ^ 2 * u s t ^ 5) <= 1) by (replace ((s - a) ^ 2 * u s t ^ 5) with ((s - a) * u s t * ((s - a) * u s t) * u s t ^ 3) by ring; auto using abs1).
    assert (B5 : Rabs ((t - b) ^ 2 * u s t ^ 5) <= 1) by (replace ((t - b) ^ 2 * u s t ^ 5) with ((t - b) * u s t * ((t - b) * u s t) * u s t ^ 3) by ring; auto using abs1).
    assert (M5 : Rabs ((s - a) * (t - b) * u s t ^ 5) <= 1) by (replace ((s - a) * (t - b) * u s t ^ 5) with ((s - a) * u s t * ((t - b) * u s t) * u s t ^ 3) by ring; auto using abs1).
    assert (M6 : Rabs ((t - b) * (s - a) * u s t ^ 5) <= 1) by (rewrite (Rmult_comm (t - b)); auto).
    assert (P3 : Rabs (3 * p s) <= 3 * B) by (rewrite Rabs_mult, (Rabs_right 3) by lra; lra).
    assert (P4 : Rabs (2 * p1 s) <= 2 * B) by (rewrite Rabs_mult, (Rabs_right 2) by lra; lra).
    assert (N0 : Rabs (- p s) <= B) by (rewrite Rabs_Ropp; auto). assert (N1 : Rabs (- p1 s) <= B) by (rewrite Rabs_Ropp; auto).
    split; [|split; [|split]].
    + apply Rle_trans with (B + 2 * B + B + 3 * B); [|lra]. unfold Rminus.
      repeat apply abs_sum; rewrite ?Rabs_Ropp; apply absB; auto.
    + apply Rle_trans with (B + 3 * B); [|lra]. apply abs_sum; apply absB; auto.
    + apply Rle_trans with (B + 3 * B); [|lra]. apply abs_sum; apply absB; auto.
    + apply Rle_trans with (B + 3 * B); [|lra]. apply abs_sum; apply absB; auto.
Qed.
