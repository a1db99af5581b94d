(** Proofs about solids, part 4: gradients. *)
From Coquelicot Require Import Coquelicot.
From Verif Require Import Base BaseFacts M_Quat S_Quat P_Quat M_RFun S_RFun P_RFun1 P_Vec P_RFun2 M_Solid S_Solid
  P_Solid1 P_Solid2 P_Solid3.

(** *** Real functions of a point *)
Definition cont_fun (h : list R -> R) (x : list R) : Prop := forall e, 0 < e -> exists d, 0 < d /\
  forall y, length y = length x -> edist y x < d -> Rabs (h y - h x) < e.
Definition grad_fun (h : list R -> R) (x g : list R) : Prop := length g = length x /\
  forall e, 0 < e -> exists d, 0 < d /\
  forall y, length y = length x -> edist y x < d -> Rabs (h y - h x - dotR g (vsub y x)) <= e * edist y x.

Lemma quad_grad (T : list R -> list R) n K x g0 c rho : length x = n -> length g0 = n -> 0 < K ->
  (forall y, length y = n -> length (T y) = length (T x)) ->
  (forall y, length y = n -> edist (T y) (T x) <= K * edist y x) ->
  (forall y, length y = n -> dotR (T x) (vsub (T y) (T x)) = dotR g0 (vsub y x)) ->
  grad_fun (fun y => c * (rho - sumsq (T y))) x (vscal (- 2 * c) g0).
Proof.
  intros Hx Hg HK HL HT HD. split; [rewrite vscal_length; congruence|]. intros e He.
  set (M := (Rabs c + 1) * (K * K)).
  assert (HM : 0 < M) by (unfold M; pose proof (Rabs_pos c); apply Rmult_lt_0_compat; nra).
  exists (e / M). split; [apply Rdiv_lt_0_compat; auto|]. intros y Hy L.
  assert (Hy' : length y = n) by congruence. specialize (HT y Hy'). specialize (HD y Hy').
  rewrite (sumsq_change (T y) (T x)) by auto. rewrite dotR_vscal, <- HD.
  replace (c * (rho - (sumsq (T x) + 2 * dotR (T x) (vsub (T y) (T x)) + sumsq (vsub (T y) (T x)))) -
    c * (rho - sumsq (T x)) - - 2 * c * dotR (T x) (vsub (T y) (T x))) with (- (c * sumsq (vsub (T y) (T x)))) by ring.
  rewrite Rabs_Ropp, Rabs_mult, (Rabs_right (sumsq _)) by (apply Rle_ge, sumsq_nonneg).
  rewrite <- edist_sq. pose proof (edist_nonneg (T y) (T x)). pose proof (edist_nonneg y x). pose proof (Rabs_pos c).
  assert (M * edist y x <= e).
  { replace e with (M * (e / M)) by (field; lra). apply Rmult_le_compat_l; lra. }
  apply Rle_trans with (M * edist y x * edist y x); [|nra]. unfold M.
  apply Rle_trans with (Rabs c * ((K * edist y x) * (K * edist y x))).
  - apply Rmult_le_compat_l; auto. apply Rmult_le_compat; auto.
  - pose proof (sq_nonneg (K * edist y x)). nra.
Qed.

Lemma grad_of_fun f h x g : (forall y, length y = length x -> f (A1 y) = Ok (h y)) -> grad_fun h x g ->
  has_gradient f x (h x) g.
Proof.
  intros E [Hg H]. split; auto. split; auto. intros e He. destruct (H e He) as (d & Hd & B). exists d. split; auto.
  intros y Hy L. exists (h y). split; auto.
Qed.

Lemma grad_ext f g x v p : (exists d, 0 < d /\ forall y, length y = length x -> edist y x < d -> g (A1 y) = f (A1 y)) ->
  has_gradient f x v p -> has_gradient g x v p.
Proof.
  intros (d0 & H0 & E) (V & Lp & C). split; [|split; auto].
  - rewrite E; auto. rewrite edist_self. auto.
  - intros e He. destruct (C e He) as (d & Hd & H). exists (Rmin d d0). split; [apply Rmin_pos; auto|].
    intros y Hy L. rewrite E; auto; [|eapply Rlt_le_trans; [exact L|apply Rmin_r]].
    apply H; auto. eapply Rlt_le_trans; [exact L|apply Rmin_l].
Qed.
Lemma grad_ext_all f g x v p : (forall y, length y = length x -> g (A1 y) = f (A1 y)) ->
  has_gradient f x v p -> has_gradient g x v p.
Proof. intros E. apply grad_ext. exists 1. split; [lra|]. auto. Qed.

Lemma grad_cont f x v g : has_gradient f x v g -> continuous_adf f x v.
Proof.
  intros (V & Lg & H). split; auto. intros e He. destruct (H 1 Rlt_0_1) as (d & Hd & B).
  set (M := normR g + 1). pose proof (normR_nonneg g). assert (HM : 0 < M) by (unfold M; lra).
  exists (Rmin d (e / M)). split; [apply Rmin_pos; auto; apply Rdiv_lt_0_compat; auto|]. intros y Hy L.
  destruct (B y Hy) as (w & Ew & Lw); [eapply Rlt_le_trans; [exact L|apply Rmin_l]|]. exists w. split; auto.
  assert (L2 : edist y x < e / M) by (eapply Rlt_le_trans; [exact L|apply Rmin_r]).
  pose proof (cauchy_schwarz_norm g (vsub y x) ltac:(rewrite vsub_length; congruence)) as C. fold (edist y x) in C.
  replace (w - v) with (w - v - dotR g (vsub y x) + dotR g (vsub y x)) by ring.
  eapply Rle_lt_trans; [apply Rabs_triang|]. apply Rle_lt_trans with (M * edist y x); [unfold M; lra|].
  replace e with (M * (e / M)) by (field; lra). apply Rmult_lt_compat_l; auto.
Qed.

(** A product with a continuous factor, at a zero. *)
Lemma grad_mult_zero f num h x g : num x = 0 -> grad_fun num x g -> cont_fun h x ->
  (exists d, 0 < d /\ forall y, length y = length x -> edist y x < d -> f (A1 y) = Ok (num y * h y)) ->
  has_gradient f x 0 (vscal (h x) g).
Proof.
  intros Z [Lg G] C (d0 & H0 & E). split; [|split].
  - rewrite E; [|auto|rewrite edist_self; auto]. rewrite Z. f_equal. ring.
  - rewrite vscal_length. auto.
  - intros e He. pose proof (Rabs_pos (h x)) as Ph. pose proof (normR_nonneg g) as Pg.
    set (e1 := e / (2 * (Rabs (h x) + 1))). set (e2 := Rmin 1 (e / (2 * (normR g + 1)))).
    assert (H1 : 0 < e1) by (apply Rdiv_lt_0_compat; lra).
    assert (H2 : 0 < e2) by (apply Rmin_pos; [lra|]; apply Rdiv_lt_0_compat; lra).
    destruct (G e1 H1) as (d1 & D1 & B1). destruct (C e2 H2) as (d2 & D2 & B2).
    exists (Rmin d0 (Rmin d1 d2)). split; [repeat apply Rmin_pos; auto|]. intros y Hy L.
    assert (L0 : edist y x < d0) by (eapply Rlt_le_trans; [exact L|apply Rmin_l]).
    assert (L1 : edist y x < d1).
    { eapply Rlt_le_trans; [exact L|]. eapply Rle_trans; [apply Rmin_r|apply Rmin_l]. }
    assert (L2 : edist y x < d2).
    { eapply Rlt_le_trans; [exact L|]. eapply Rle_trans; [apply Rmin_r|apply Rmin_r]. }
    specialize (B1 y Hy L1). specialize (B2 y Hy L2). rewrite Z in B1. rewrite E by auto.
    eexists. split; [reflexivity|]. rewrite dotR_vscal.
    pose proof (cauchy_schwarz_norm g (vsub y x) ltac:(rewrite vsub_length; congruence)) as CS. fold (edist y x) in CS.
    set (p := dotR g (vsub y x)) in *. set (D := edist y x) in *. pose proof (edist_nonneg y x) as PD. fold D in PD.
    replace (num y * h y - 0 - h x * p) with ((num y - 0 - p) * h y + p * (h y - h x)) by ring.
    eapply Rle_trans; [apply Rabs_triang|]. rewrite !Rabs_mult.
    assert (Hh : Rabs (h y) <= Rabs (h x) + 1).
    { replace (h y) with (h y - h x + h x) by ring. eapply Rle_trans; [apply Rabs_triang|].
      assert (e2 <= 1) by apply Rmin_l. lra. }
    assert (K1 : e1 * (Rabs (h x) + 1) = e / 2) by (unfold e1; field; lra).
    assert (K2 : e2 * (normR g + 1) <= e / 2).
    { apply Rle_trans with (e / (2 * (normR g + 1)) * (normR g + 1)); [apply Rmult_le_compat_r; [lra|apply Rmin_r]|].
      right. field. lra. }
    assert (A1' : Rabs (num y - 0 - p) * Rabs (h y) <= e1 * D * (Rabs (h x) + 1)).
    { apply Rmult_le_compat; auto using Rabs_pos. }
    assert (A2' : Rabs p * Rabs (h y - h x) <= normR g * D * e2).
    { apply Rmult_le_compat; auto using Rabs_pos. lra. }
    assert (0 <= D * e2) by (apply Rmult_le_pos; lra).
    replace (e * D) with (e / 2 * D + e / 2 * D) by field. rewrite <- K1 at 1. nra.
Qed.

(** *** Set operations *)
Definition unit_at (f : adf) (x : list R) : Prop := exists g, has_gradient f x 0 g /\ normR g = 1.

Lemma op_keeps_gradient op f h x b g : first_order op b -> has_gradient f x 0 g -> continuous_adf h x b ->
  has_gradient (pointwise op f h) x 0 g /\ has_gradient (pointwise op h f) x 0 g.
Proof.
  intros F (V & Lg & G) [Vh Ch].
  assert (Zero : op 0 b = Ok 0 /\ op b 0 = Ok 0).
  { destruct (F 1 Rlt_0_1) as (d & Hd & H).
    destruct (H 0 b) as [(v & E & L) (w & E' & L')]; try (rewrite ?Rminus_eq_0, Rabs_R0; auto).
    rewrite Rabs_R0 in L, L'. rewrite Rmult_0_r, Rminus_0_r in L, L'.
    assert (v = 0) by (destruct (Req_dec v 0); auto; pose proof (Rabs_pos_lt v); lra).
    assert (w = 0) by (destruct (Req_dec w 0); auto; pose proof (Rabs_pos_lt w); lra). subst. auto. }
  pose proof (normR_nonneg g) as Pg.
  assert (Main : forall e, 0 < e -> exists d, 0 < d /\ forall y, length y = length x -> edist y x < d ->
    exists a c v w, f (A1 y) = Ok a /\ h (A1 y) = Ok c /\ op a c = Ok v /\ op c a = Ok w /\
      Rabs (v - dotR g (vsub y x)) <= e * edist y x /\ Rabs (w - dotR g (vsub y x)) <= e * edist y x).
  { intros e He.
    set (e1 := Rmin 1 (e / 2)). set (e2 := e / (2 * (normR g + 1))).
    assert (H1 : 0 < e1) by (apply Rmin_pos; lra). assert (H2 : 0 < e2) by (apply Rdiv_lt_0_compat; lra).
    destruct (F e2 H2) as (dF & HdF & BF). destruct (G e1 H1) as (d1 & D1 & B1). destruct (Ch dF HdF) as (d2 & D2 & B2).
    exists (Rmin (dF / (normR g + 1)) (Rmin d1 d2)).
    split; [repeat apply Rmin_pos; auto; apply Rdiv_lt_0_compat; lra|]. intros y Hy L.
    assert (L0 : edist y x < dF / (normR g + 1)) by (eapply Rlt_le_trans; [exact L|apply Rmin_l]).
    assert (L1 : edist y x < d1).
    { eapply Rlt_le_trans; [exact L|]. eapply Rle_trans; [apply Rmin_r|apply Rmin_l]. }
    assert (L2 : edist y x < d2).
    { eapply Rlt_le_trans; [exact L|]. eapply Rle_trans; [apply Rmin_r|apply Rmin_r]. }
    destruct (B1 y Hy L1) as (a & Ea & La). destruct (B2 y Hy L2) as (c & Ec & Lc).
    pose proof (cauchy_schwarz_norm g (vsub y x) ltac:(rewrite vsub_length; congruence)) as CS. fold (edist y x) in CS.
    set (p := dotR g (vsub y x)) in *. set (D := edist y x) in *. pose proof (edist_nonneg y x) as PD. fold D in PD.
    rewrite Rminus_0_r in La.
    assert (E1 : e1 <= 1) by apply Rmin_l. assert (E1' : e1 <= e / 2) by apply Rmin_r.
    assert (Ba : Rabs a <= (normR g + 1) * D).
    { replace a with (a - p + p) by ring. eapply Rle_trans; [apply Rabs_triang|]. nra. }
    assert (Bd : Rabs a < dF).
    { eapply Rle_lt_trans; [exact Ba|]. replace dF with ((normR g + 1) * (dF / (normR g + 1))) by (field; lra).
      apply Rmult_lt_compat_l; lra. }
    destruct (BF a c Bd Lc) as [(v & Ev & Lv) (w & Ew & Lw)]. exists a, c, v, w.
    assert (K2 : e2 * ((normR g + 1) * D) = e / 2 * D) by (unfold e2; field; lra).
    assert (K : e2 * Rabs a <= e / 2 * D) by (rewrite <- K2; apply Rmult_le_compat_l; lra).
    assert (K1 : e1 * D <= e / 2 * D) by (apply Rmult_le_compat_r; lra).
    repeat split; auto.
    - replace (v - p) with (v - a + (a - p)) by ring. eapply Rle_trans; [apply Rabs_triang|]. lra.
    - replace (w - p) with (w - a + (a - p)) by ring. eapply Rle_trans; [apply Rabs_triang|]. lra. }
  split; (split; [unfold pointwise; rewrite ?V, ?Vh; cbn [bind]; rewrite ?V, ?Vh; cbn [bind]; apply Zero|split; auto]);
    intros e He; destruct (Main e He) as (d & Hd & H); exists d; (split; [auto|]); intros y Hy L;
    destruct (H y Hy L) as (a & c & v & w & Ea & Ec & Ev & Ew & Lv & Lw);
    unfold pointwise; rewrite ?Ea, ?Ec; cbn [bind]; rewrite ?Ea, ?Ec; cbn [bind]; rewrite ?Ev, ?Ew;
    eexists; (split; [reflexivity|]); rewrite Rminus_0_r; auto.
Qed.

Lemma op_unit op f h x b : first_order op b -> unit_at f x -> continuous_adf h x b ->
  unit_at (pointwise op f h) x /\ unit_at (pointwise op h f) x.
Proof.
  intros F (g & G & N) C. destruct (op_keeps_gradient op f h x b g F G C) as [H1 H2].
  split; exists g; auto.
Qed.
Lemma unit_negate f x : unit_at f x -> unit_at (negate f) x.
Proof.
  intros (g & (V & Lg & G) & N). exists (vscal (-1) g). split.
  - split; [|split].
    + unfold negate. rewrite V. cbn [bind]. f_equal. ring.
    + rewrite vscal_length. auto.
    + intros e He. destruct (G e He) as (d & Hd & H). exists d. split; auto. intros y Hy L.
      destruct (H y Hy L) as (w & Ew & Lw). unfold negate. rewrite Ew. exists (- w). split; auto.
      rewrite dotR_vscal. replace (- w - 0 - -1 * dotR g (vsub y x)) with (- (w - 0 - dotR g (vsub y x))) by ring.
      rewrite Rabs_Ropp. auto.
  - unfold vscal. rewrite normR_scal, N. rewrite Rabs_left by lra. ring.
Qed.
Lemma unit_ext f g x : (exists d, 0 < d /\ forall y, length y = length x -> edist y x < d -> g (A1 y) = f (A1 y)) ->
  unit_at f x -> unit_at g x.
Proof. intros E (p & G & N). exists p. split; auto. eapply grad_ext; eauto. Qed.
Lemma unit_cont f x : unit_at f x -> continuous_adf f x 0.
Proof. intros (g & G & _). eapply grad_cont; eauto. Qed.

(** *** Transformations *)
Lemma grad_move n m f h x g g' v : good_move n m -> length x = n ->
  (forall y, length y = n -> h (A1 y) = bind (f (A1 (back m y))) (fun w => Ok (factor m * w))) ->
  length g' = n ->
  (forall e, 0 < e -> exists d, 0 < d /\ forall y, length y = n -> edist y x < d ->
     Rabs (factor m * dotR g (vsub (back m y) (back m x)) - dotR g' (vsub y x)) <= e * edist y x) ->
  has_gradient f (back m x) v g -> has_gradient h x (factor m * v) g'.
Proof.
  intros Gm Hx E Lg' T (V & Lg & G). split; [rewrite E, V by auto; reflexivity|]. split; [congruence|]. intros e He.
  assert (F : 0 < factor m) by (destruct m; simpl in *; lra).
  destruct (back_lipschitz n m Gm) as (K & HK & L).
  assert (HFK : 0 < factor m * K) by (apply Rmult_lt_0_compat; auto).
  destruct (G (e / (2 * (factor m * K)))) as (d1 & D1 & B1); [apply Rdiv_lt_0_compat; lra|].
  destruct (T (e / 2)) as (d2 & D2 & B2); [lra|].
  exists (Rmin (d1 / K) d2). split; [apply Rmin_pos; auto; apply Rdiv_lt_0_compat; auto|]. intros y Hy D.
  assert (Hy' : length y = n) by congruence.
  assert (L1 : edist y x < d1 / K) by (eapply Rlt_le_trans; [exact D|apply Rmin_l]).
  assert (L2 : edist y x < d2) by (eapply Rlt_le_trans; [exact D|apply Rmin_r]).
  specialize (L x y Hx Hy').
  destruct (B1 (back m y)) as (w & Ew & Lw).
  - rewrite !(back_length n) by auto. reflexivity.
  - eapply Rle_lt_trans; [exact L|]. replace d1 with (K * (d1 / K)) by (field; lra). apply Rmult_lt_compat_l; auto.
  - rewrite E, Ew by auto. cbn [bind]. eexists. split; [reflexivity|]. specialize (B2 y Hy' L2).
    set (p := dotR g (vsub (back m y) (back m x))) in *. set (q := dotR g' (vsub y x)) in *.
    replace (factor m * w - factor m * v - q) with (factor m * (w - v - p) + (factor m * p - q)) by ring.
    eapply Rle_trans; [apply Rabs_triang|]. rewrite Rabs_mult, (Rabs_right (factor m)) by lra.
    assert (factor m * Rabs (w - v - p) <= e / 2 * edist y x); [|lra].
    apply Rle_trans with (factor m * (e / (2 * (factor m * K)) * (K * edist y x))).
    + apply Rmult_le_compat_l; [lra|]. eapply Rle_trans; [exact Lw|]. apply Rmult_le_compat_l; auto.
      left. apply Rdiv_lt_0_compat; lra.
    + right. field. split; lra.
Qed.

(** linear transport of the gradient, exact *)
Lemma exact_transport (P : list R -> R) (Q : list R -> R) n x : (forall y, length y = n -> P y = Q y) ->
  forall e, 0 < e -> exists d, 0 < d /\ forall y, length y = n -> edist y x < d -> Rabs (P y - Q y) <= e * edist y x.
Proof.
  intros H e He. exists 1. split; [lra|]. intros y Hy _. rewrite H by auto. rewrite Rminus_eq_0, Rabs_R0.
  pose proof (edist_nonneg y x). nra.
Qed.

Lemma axis_distance a b u v : 0 < a ^ 2 + b ^ 2 -> let r := sqrt (a ^ 2 + b ^ 2) in
  u * u + v * v <= r * r -> 
  Rabs (sqrt ((a + u) ^ 2 + (b + v) ^ 2) - r - (a / r * u + b / r * v)) <= (u * u + v * v) / (2 * r).
Proof.
  intros P r L. assert (Pr : 0 < r) by (apply sqrt_lt_R0; auto).
  assert (Q : r * r = a ^ 2 + b ^ 2) by (apply sqrt_sqrt; lra).
  assert (Pq : 0 <= (a + u) ^ 2 + (b + v) ^ 2) by (pose proof (pow2_ge_0 (a + u)); pose proof (pow2_ge_0 (b + v)); lra).
  pose proof (sqrt_pos ((a + u) ^ 2 + (b + v) ^ 2)) as Ps. pose proof (sqrt_sqrt _ Pq) as Qs.
  set (s := sqrt ((a + u) ^ 2 + (b + v) ^ 2)) in *.
  set (p := a / r * u + b / r * v).
  assert (Ep : r * p = a * u + b * v) by (unfold p; field; lra).
  assert (Lo : r + p <= s).
  { destruct (Rle_lt_dec (r + p) 0); [lra|]. apply Rsqr_incr_0_var; auto. unfold Rsqr. rewrite Qs.
    assert (p * p <= u * u + v * v).
    { apply Rmult_le_reg_l with (r * r); [nra|]. replace (r * r * (p * p)) with ((r * p) * (r * p)) by ring. rewrite Ep, Q.
      pose proof (sq_nonneg (a * v - b * u)). nra. }
    nra. }
  assert (Hi : s <= r + p + (u * u + v * v) / (2 * r)).
  { set (w := (u * u + v * v) / (2 * r)). assert (Ew : 2 * (r * w) = u * u + v * v) by (unfold w; field; lra).
    assert (Pos : 0 <= r + p + w).
    { assert (0 <= w). { unfold w. apply Rmult_le_pos; [pose proof (sq_nonneg u); pose proof (sq_nonneg v); lra|].
        left. apply Rinv_0_lt_compat. lra. }
      assert (- r <= p); [|lra].
      apply Rmult_le_reg_l with r; auto. rewrite Ep.
      assert (C : (a * u + b * v) * (a * u + b * v) <= (r * r) * (r * r)).
      { rewrite Q at 1. apply Rle_trans with ((a ^ 2 + b ^ 2) * (u * u + v * v)).
        - pose proof (sq_nonneg (a * v - b * u)). nra.
        - apply Rmult_le_compat_l; lra. }
      destruct (Rle_lt_dec (r * - r) (a * u + b * v)); auto. exfalso.
      assert (r * r < - (a * u + b * v)) by nra. assert (0 < r * r) by nra. nra. }
    apply Rsqr_incr_0_var; auto. unfold Rsqr. rewrite Qs.
    assert (Z : (r + p + w) * (r + p + w) = r * r + 2 * (r * p) + 2 * (r * w) + (p + w) * (p + w)) by ring.
    rewrite Z, Ep, Ew, Q. pose proof (sq_nonneg (p + w)). nra. }
  apply Rabs_le. split; [|lra].
  assert (0 <= (u * u + v * v) / (2 * r)); [|lra]. apply Rmult_le_pos; [pose proof (sq_nonneg u); pose proof (sq_nonneg v); lra|].
  left. apply Rinv_0_lt_compat. lra.
Qed.

Lemma normR_2 a b : normR [a; b] = sqrt (a * a + b * b).
Proof. rewrite normR_sumsq. f_equal. rewrite !sumsq_cons. unfold sumsq, sumR; simpl; ring. Qed.
Lemma norm_eq u v : sumsq u = sumsq v -> normR u = normR v.
Proof. intros H. rewrite !normR_sumsq, H. reflexivity. Qed.

Lemma revolve_transport (sel : bool) x g : length x = 3%nat -> length g = 2%nat -> keeps_normal (Revolve sel) x ->
  exists g', length g' = 3%nat /\ normR g' = normR g /\
  forall e, 0 < e -> exists d, 0 < d /\ forall y, length y = 3%nat -> edist y x < d ->
     Rabs (1 * dotR g (vsub (back (Revolve sel) y) (back (Revolve sel) x)) - dotR g' (vsub y x)) <= e * edist y x.
Proof.
  intros Hx Hg. rewrite (len2 g Hg). set (p := nth 0 g 0). set (q := nth 1 g 0). clearbody p q. clear g Hg.
  destruct x as [|x0 [|x1 [|x2 [|x3 x]]]]; simpl in Hx; try lia. clear Hx. simpl keeps_normal.
  set (a := if sel then x0 else x1). intros K.
  assert (P : 0 < a ^ 2 + x2 ^ 2) by (unfold a; destruct sel; simpl in *; lra).
  set (r := sqrt (a ^ 2 + x2 ^ 2)). assert (Pr : 0 < r) by (apply sqrt_lt_R0; auto).
  assert (Qr : r * r = a * a + x2 * x2) by (unfold r; rewrite sqrt_sqrt by lra; ring).
  set (k := if sel then p else q). (* component across the axis *)
  exists (if sel then [k * (a / r); q; k * (x2 / r)] else [p; k * (a / r); k * (x2 / r)]).
  split; [destruct sel; reflexivity|]. split.
  - apply norm_eq.
    assert (E : k * (a / r) * (k * (a / r)) + k * (x2 / r) * (k * (x2 / r)) = k * k).
    { replace (k * (a / r) * (k * (a / r)) + k * (x2 / r) * (k * (x2 / r))) with (k * k * ((a * a + x2 * x2) / (r * r))) by (field; lra).
      rewrite <- Qr. field. lra. }
    unfold k in *. destruct sel; rewrite !sumsq_cons; change (sumsq []) with 0; lra.
  - intros e He. set (d := Rmin r (e * (2 * r) / (Rabs k + 1))).
    pose proof (Rabs_pos k) as Pk.
    assert (Hd : 0 < d) by (apply Rmin_pos; auto; apply Rdiv_lt_0_compat; [nra|lra]).
    exists d. split; auto. intros y Hy L.
    destruct y as [|y0 [|y1 [|y2 [|y3 y]]]]; simpl in Hy; try lia. clear Hy.
    set (u := (if sel then y0 else y1) - a). set (v := y2 - x2).
    set (D := edist [y0; y1; y2] [x0; x1; x2]) in *. pose proof (edist_nonneg [y0; y1; y2] [x0; x1; x2]) as PD. fold D in PD.
    assert (UV : u * u + v * v <= D * D).
    { unfold D. rewrite edist_sq. unfold vsub, u, v, a. simpl. rewrite !sumsq_cons. change (sumsq []) with 0.
      pose proof (sq_nonneg (y0 - x0)). pose proof (sq_nonneg (y1 - x1)). destruct sel; lra. }
    assert (Dr : D < r) by (eapply Rlt_le_trans; [exact L|apply Rmin_l]).
    assert (De : D < e * (2 * r) / (Rabs k + 1)) by (eapply Rlt_le_trans; [exact L|apply Rmin_r]).
    pose proof (axis_distance a x2 u v P ltac:(fold r; nra)) as B. fold r in B.
    match goal with |- Rabs ?z <= _ =>
      replace z with (k * (sqrt ((a + u) ^ 2 + (x2 + v) ^ 2) - r - (a / r * u + x2 / r * v))) end.
    2: { unfold u, v, k, r, a. destruct sel; unfold dotR, sumR, vsub; cbn [back map2 map fold_right nth];
         [replace (x0 + (y0 - x0)) with y0 by ring|replace (x1 + (y1 - x1)) with y1 by ring];
         replace (x2 + (y2 - x2)) with y2 by ring; ring. }
    rewrite Rabs_mult. apply Rle_trans with (Rabs k * (D * D / (2 * r))).
    + apply Rmult_le_compat_l; auto. eapply Rle_trans; [exact B|].
      apply Rmult_le_compat_r; [left; apply Rinv_0_lt_compat; lra|auto].
    + assert ((Rabs k + 1) * D <= e * (2 * r)).
      { replace (e * (2 * r)) with ((Rabs k + 1) * (e * (2 * r) / (Rabs k + 1))) by (field; lra).
        apply Rmult_le_compat_l; lra. }
      apply Rmult_le_reg_r with (2 * r); [lra|].
      replace (Rabs k * (D * D / (2 * r)) * (2 * r)) with (Rabs k * D * D) by (field; lra). nra.
Qed.

Lemma move_transport n m x g : good_move n m -> length x = n -> length g = source m n -> keeps_normal m x ->
  exists g', length g' = n /\ normR g' = normR g /\
  forall e, 0 < e -> exists d, 0 < d /\ forall y, length y = n -> edist y x < d ->
     Rabs (factor m * dotR g (vsub (back m y) (back m x)) - dotR g' (vsub y x)) <= e * edist y x.
Proof.
  intros G Hx Hg Kn. pose proof (turn_norm n m) as TN.
  destruct m; try (destruct Kn; fail); simpl in G; simpl in Hg; cbn [factor].
  - exists g. split; auto. split; auto. apply exact_transport. intros z Hz. simpl. rewrite vsub_shift by congruence. ring.
  - exists g. split; auto. split; auto. apply exact_transport. intros z Hz. simpl.
    rewrite vsub_vscal, dotR_vscal_r by congruence. field. lra.
  - subst n. exists [nth 0 g 0 * cos angle - nth 1 g 0 * sin angle; nth 0 g 0 * sin angle + nth 1 g 0 * cos angle].
    split; [reflexivity|]. split.
    + apply norm_eq. rewrite (len2 g Hg) at 5. rewrite !sumsq_cons. change (sumsq []) with 0.
      pose proof (sin2_cos2 angle) as S. unfold Rsqr in S. set (c := cos angle) in *. set (s := sin angle) in *.
      transitivity ((s * s + c * c) * (nth 0 g 0 * nth 0 g 0 + nth 1 g 0 * nth 1 g 0)); [ring|]. rewrite S. ring.
    + apply exact_transport. intros z Hz. rewrite (len2 g Hg) at 1. rewrite (len2 x Hx), (len2 z Hz).
      unfold dotR, sumR, vsub, ccw. simpl. rewrite cos_neg, sin_neg. ring.
  - destruct G as [-> U]. exists (list3 (unturn (Rotate3 angle n0 o) (three g))). split; [reflexivity|]. split.
    + apply norm_eq. rewrite <- (list3_three g) at 2 by auto. rewrite <- !dotR_self.
      transitivity (dot3 (unturn (Rotate3 angle n0 o) (three g)) (unturn (Rotate3 angle n0 o) (three g)));
        [unfold dotR, sumR, list3, dot3; simpl; ring|].
      rewrite (proj2 (TN (three g) (conj eq_refl U))). unfold dotR, sumR, list3, dot3; simpl; ring.
    + apply exact_transport. intros z Hz. rewrite !(back_turn (Rotate3 angle n0 o)).
      rewrite <- (list3_three g) at 1 by auto. rewrite dot_list3, shift3, turn_sub, unshift3, turn_adjoint.
      rewrite <- dot_list3, !list3_three by auto. ring.
  - subst n. exists (list3 (unturn (Euler a b c o) (three g))). split; [reflexivity|]. split.
    + apply norm_eq. rewrite <- (list3_three g) at 2 by auto. rewrite <- !dotR_self.
      transitivity (dot3 (unturn (Euler a b c o) (three g)) (unturn (Euler a b c o) (three g)));
        [unfold dotR, sumR, list3, dot3; simpl; ring|].
      rewrite (proj2 (TN (three g) eq_refl)). unfold dotR, sumR, list3, dot3; simpl; ring.
    + apply exact_transport. intros z Hz. rewrite !(back_turn (Euler a b c o)).
      rewrite <- (list3_three g) at 1 by auto. rewrite dot_list3, shift3, turn_sub, unshift3, turn_adjoint.
      rewrite <- dot_list3, !list3_three by auto. ring.
  - destruct G as (G1 & G2 & G3). exists (vsub g (vscal (2 * dotR g n0 / dotR n0 n0) n0)).
    split; [rewrite vsub_length; rewrite ?vscal_length; congruence|]. split.
    + apply norm_eq. rewrite sumsq_vsub by (rewrite vscal_length; congruence).
      rewrite sumsq_vscal, dotR_vscal_r, <- (dotR_self n0). field. auto.
    + apply exact_transport. intros z Hz. simpl.
      assert (E : vsub (mirror_in n0 o z) (mirror_in n0 o x) = vsub (vsub z x) (vscal (2 * dotR (vsub z x) n0 / dotR n0 n0) n0)).
      { unfold mirror_in. apply vec_ext.
        - repeat (rewrite vsub_length; rewrite ?vscal_length; try congruence).
        - intros i Hi. repeat (rewrite nth_vsub; [|rewrite ?vsub_length; rewrite ?vscal_length; congruence]).
          rewrite !nth_vscal. rewrite !(dotR_vsub _ _ n0) by congruence. field. auto. }
      rewrite E. rewrite dotR_vsub_r by (rewrite vscal_length, vsub_length; congruence).
      rewrite dotR_vscal_r. rewrite (dotR_vsub g) by (rewrite vscal_length; congruence). rewrite dotR_vscal.
      rewrite (dotR_comm n0 (vsub z x)). field. auto.
  - subst n. apply revolve_transport; auto.
Qed.

Lemma unit_move n m f h x : good_move n m -> length x = n -> keeps_normal m x ->
  (forall y, length y = n -> h (A1 y) = bind (f (A1 (back m y))) (fun w => Ok (factor m * w))) ->
  unit_at f (back m x) -> unit_at h x.
Proof.
  intros G Hx Kn E (g & Gg & N).
  destruct (move_transport n m x g G Hx) as (g' & Lg' & Ng' & T); auto.
  { destruct Gg as (_ & L & _). rewrite L. apply back_length; auto. }
  exists g'. split; [|congruence]. rewrite <- (Rmult_0_r (factor m)). eapply grad_move; eauto.
Qed.
