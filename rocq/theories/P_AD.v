(** Multivariate calculus on lists of reals: chain rule along a line for C1
    functions, symmetry of second derivatives for C2 functions. *)
From Coquelicot Require Import Coquelicot.
From Verif Require Import Base BaseFacts P_Vec M_Tensor S_Calc.

Lemma Derive_shift (g : R -> R) a : Derive (fun t => g (a + t)) 0 = Derive g a.
Proof.
  unfold Derive. f_equal. apply Lim_ext. intros h. rewrite Rplus_0_r, Rplus_0_l. reflexivity.
Qed.

Lemma upd_upd {A} (l : list A) i u v : upd (upd l i u) i v = upd l i v.
Proof. revert i; induction l as [|a l IH]; intros [|i]; cbn; auto. f_equal. auto. Qed.

Lemma upd_comm {A} (l : list A) i j u v : i <> j -> upd (upd l i u) j v = upd (upd l j v) i u.
Proof.
  revert i j; induction l as [|a l IH]; intros [|i] [|j] H; cbn; auto; try congruence.
  f_equal. apply IH. congruence.
Qed.

Lemma near_refl d x : 0 < d -> near d x x.
Proof. intros H. split; auto. intros i. rewrite Rminus_eq_0, Rabs_R0. exact H. Qed.

Lemma near_upd d x y i u : near d x y -> Rabs (u - nth i x 0) < d -> near d x (upd y i u).
Proof.
  intros (L & H) Hu. split; [rewrite upd_length; auto|].
  intros j. destruct (Nat.eq_dec i j) as [->|Hij].
  - destruct (Nat.lt_ge_cases j (length y)) as [Hj|Hj].
    + rewrite upd_nth_same by auto. exact Hu.
    + rewrite !nth_overflow; [rewrite Rminus_eq_0, Rabs_R0; apply Rle_lt_trans with (2 := Hu), Rabs_pos|lia|].
      rewrite upd_length. lia.
  - rewrite upd_nth_other by auto. apply H.
Qed.

Lemma near_le d d' x y : d <= d' -> near d x y -> near d' x y.
Proof. intros H (L & N). split; auto. intros i. specialize (N i). lra. Qed.

Lemma pd_upd k f y c : (k < length y)%nat -> pd k f (upd y k c) = Derive (fun s => f (upd y k s)) c.
Proof.
  intros H. unfold pd. rewrite upd_nth_same by auto. apply Derive_ext. intros t. rewrite upd_upd. reflexivity.
Qed.

(** a common radius for finitely many conditions *)
Lemma common_radius n (P : nat -> R -> Prop) :
  (forall k d d', 0 < d' <= d -> P k d -> P k d') ->
  (forall k, (k < n)%nat -> exists d, 0 < d /\ P k d) ->
  exists d, 0 < d /\ forall k, (k < n)%nat -> P k d.
Proof.
  intros Hm H. induction n as [|n IH].
  - exists 1. split; [lra|]. intros; lia.
  - destruct IH as (d & Hd & Hall); [intros; apply H; lia|].
    destruct (H n ltac:(lia)) as (e & He & Pe).
    assert (0 < Rmin d e) by (apply Rmin_glb_lt; auto).
    exists (Rmin d e). split; auto. intros k Hk.
    destruct (Nat.eq_dec k n) as [->|].
    + apply (Hm n e); auto. split; auto. apply Rmin_r.
    + apply (Hm k d); [split; auto; apply Rmin_l|]. apply Hall. lia.
Qed.

Lemma axpy_length t x v : length x = length v -> length (axpy t x v) = length x.
Proof. intros H. apply map2_length_eq; auto. Qed.

Lemma nth_axpy t x v i : length x = length v -> nth i (axpy t x v) 0 = nth i x 0 + t * nth i v 0.
Proof.
  intros H. unfold axpy. destruct (Nat.lt_ge_cases i (length x)) as [Hi|Hi].
  - rewrite (nth_map2 (fun a b => a + t * b) x v i 0 0 0) by lia. reflexivity.
  - rewrite !nth_overflow; [ring|lia|lia|fold (axpy t x v); rewrite axpy_length by auto; lia].
Qed.

(** the first k coordinates moved *)
Definition zpath (x v : list R) (t : R) (k : nat) : list R :=
  map (fun i => if Nat.ltb i k then nth i x 0 + t * nth i v 0 else nth i x 0) (seq 0 (length x)).

Lemma nth_map_seq (g : nat -> R) n i : (i < n)%nat -> nth i (map g (seq 0 n)) 0 = g i.
Proof.
  intros H. rewrite (nth_indep _ 0 (g 0%nat)) by (rewrite map_length, seq_length; auto).
  rewrite map_nth, seq_nth by auto. reflexivity.
Qed.

Lemma zpath_length x v t k : length (zpath x v t k) = length x.
Proof. unfold zpath. rewrite map_length, seq_length. reflexivity. Qed.

Lemma zpath_nth x v t k i : (i < length x)%nat ->
  nth i (zpath x v t k) 0 = if Nat.ltb i k then nth i x 0 + t * nth i v 0 else nth i x 0.
Proof. intros H. unfold zpath. apply (nth_map_seq (fun i => if Nat.ltb i k then nth i x 0 + t * nth i v 0 else nth i x 0)). auto. Qed.

Lemma zpath_0 x v t : zpath x v t 0 = x.
Proof.
  apply vec_ext; [apply zpath_length|]. intros i Hi. rewrite zpath_length in Hi.
  rewrite zpath_nth by auto. reflexivity.
Qed.

Lemma zpath_n x v t : length x = length v -> zpath x v t (length x) = axpy t x v.
Proof.
  intros L. apply vec_ext; [rewrite zpath_length, axpy_length; auto|].
  intros i Hi. rewrite zpath_length in Hi. rewrite zpath_nth, nth_axpy by auto.
  destruct (Nat.ltb_spec i (length x)); [reflexivity|lia].
Qed.

Lemma zpath_S x v t k : (k < length x)%nat ->
  zpath x v t (S k) = upd (zpath x v t k) k (nth k x 0 + t * nth k v 0).
Proof.
  intros Hk. apply vec_ext; [rewrite upd_length, !zpath_length; auto|].
  intros i Hi. rewrite zpath_length in Hi. rewrite zpath_nth by auto.
  destruct (Nat.eq_dec k i) as [->|Hki].
  - rewrite upd_nth_same by (rewrite zpath_length; auto).
    destruct (Nat.ltb_spec i (S i)); [reflexivity|lia].
  - rewrite upd_nth_other, zpath_nth by auto.
    destruct (Nat.ltb_spec i (S k)), (Nat.ltb_spec i k); auto; lia.
Qed.

Lemma zpath_self x v t k : (k < length x)%nat -> zpath x v t k = upd (zpath x v t k) k (nth k x 0).
Proof.
  intros Hk. rewrite <- (upd_self (zpath x v t k) k 0) at 1. f_equal.
  rewrite zpath_nth by auto. destruct (Nat.ltb_spec k k); [lia|reflexivity].
Qed.

Lemma zpath_near x v t k d : (forall i, Rabs (t * nth i v 0) < d) -> near d x (zpath x v t k).
Proof.
  intros H. split; [apply zpath_length|]. intros i.
  assert (0 < d) as Hd by (apply Rle_lt_trans with (2 := H 0%nat), Rabs_pos).
  destruct (Nat.lt_ge_cases i (length x)) as [Hi|Hi].
  - rewrite zpath_nth by auto. destruct (Nat.ltb i k).
    + replace (_ + _ - _) with (t * nth i v 0) by ring. apply H.
    + rewrite Rminus_eq_0, Rabs_R0. exact Hd.
  - rewrite !nth_overflow; [rewrite Rminus_eq_0, Rabs_R0; exact Hd|lia|rewrite zpath_length; lia].
Qed.

Definition lsum (n : nat) (g : nat -> R) : R := sumR (map g (seq 0 n)).

Lemma lsum_S n g : lsum (S n) g = lsum n g + g n.
Proof. unfold lsum. rewrite seq_S, map_app, sumR_app. cbn. ring. Qed.

Lemma lsum_ext n g h : (forall i, (i < n)%nat -> g i = h i) -> lsum n g = lsum n h.
Proof. intros H. apply sumR_map_ext. intros i Hi. apply in_seq in Hi. apply H. lia. Qed.

Lemma lsum_nonneg n g : (forall i, 0 <= g i) -> 0 <= lsum n g.
Proof. intros H. apply sumR_nonneg, Forall_map, Forall_forall. intros i _. apply H. Qed.

Lemma lsum_pick n j (g : nat -> R) : (j < n)%nat ->
  lsum n (fun i => g i * (if Nat.eqb i j then 1 else 0)) = g j.
Proof.
  induction n as [|n IH]; intros H; [lia|]. rewrite lsum_S.
  destruct (Nat.eq_dec j n) as [->|Hn].
  - rewrite Nat.eqb_refl. replace (lsum n _) with 0; [ring|].
    symmetry. unfold lsum. apply sumR_map_0. intros i Hi. apply in_seq in Hi.
    destruct (Nat.eqb_spec i n); [lia|ring].
  - rewrite IH by lia. destruct (Nat.eqb_spec n j); [congruence|ring].
Qed.

(** ** chain rule along a line *)
Lemma line_estimate n D f x v d eps h : openset n D -> C1 n D f -> D x -> length v = n ->
  0 < d -> (forall y, near d x y -> D y) ->
  (forall k y, (k < n)%nat -> near d x y -> Rabs (pd k f y - pd k f x) < eps) ->
  (forall i, Rabs (h * nth i v 0) < d) ->
  forall k, (k <= n)%nat ->
  Rabs (f (zpath x v h k) - f x - h * lsum k (fun j => pd j f x * nth j v 0))
  <= Rabs h * eps * lsum k (fun j => Rabs (nth j v 0)).
Proof.
  intros HO HC Dx Lv Hd HD Hpd Hh. destruct (HO x Dx) as (Lx & _).
  assert (He : forall k, (k < n)%nat -> 0 < eps).
  { intros k Hk. apply Rle_lt_trans with (2 := Hpd k x Hk (near_refl d x Hd)), Rabs_pos. }
  induction k as [|k IH]; intros Hk.
  - rewrite zpath_0. unfold lsum. cbn. rewrite !Rmult_0_r, Rminus_eq_0, Rminus_0_r, Rabs_R0. lra.
  - specialize (IH ltac:(lia)). rewrite !lsum_S.
    set (z := zpath x v h k) in *.
    assert (Lz : length z = n) by (unfold z; rewrite zpath_length; auto).
    assert (Nz : near d x z) by (apply zpath_near; auto).
    set (b := nth k x 0 + h * nth k v 0).
    assert (Hb : Rabs (b - nth k x 0) < d).
    { unfold b. replace (_ + _ - _) with (h * nth k v 0) by ring. apply Hh. }
    assert (Hin : forall s, Rmin (nth k x 0) b <= s <= Rmax (nth k x 0) b -> Rabs (s - nth k x 0) < d).
    { intros s Hs. revert Hs Hb. unfold Rmin, Rmax. destruct (Rle_dec _ _); intros Hs Hb;
        apply Rabs_def2 in Hb; apply Rabs_def1; lra. }
    assert (Hex : forall s, Rmin (nth k x 0) b <= s <= Rmax (nth k x 0) b ->
              ex_derive (fun s => f (upd z k s)) s).
    { intros s Hs. assert (Ds : D (upd z k s)) by (apply HD, near_upd; auto).
      destruct (HC k (upd z k s) ltac:(lia) Ds) as (E & _).
      rewrite upd_nth_same in E by lia.
      apply (ex_derive_ext (fun t => f (upd (upd z k s) k t))); [|exact E].
      intros t. rewrite upd_upd. reflexivity. }
    destruct (MVT_gen (fun s => f (upd z k s)) (nth k x 0) b (Derive (fun s => f (upd z k s)))) as (c & Hc & E).
    { intros s Hs. apply Derive_correct, Hex. lra. }
    { intros s Hs. apply continuity_pt_filterlim. apply (ex_derive_continuous (fun s : R => f (upd z k s))), Hex. lra. }
    assert (Nc : near d x (upd z k c)) by (apply near_upd; auto).
    assert (Hp := Hpd k _ ltac:(lia) Nc). rewrite pd_upd in Hp by lia.
    rewrite zpath_S by lia. fold z. fold b.
    assert (Ez : f (upd z k (nth k x 0)) = f z) by (f_equal; symmetry; apply zpath_self; lia).
    rewrite Ez in E.
    set (dc := Derive (fun s => f (upd z k s)) c) in *.
    replace (f (upd z k b) - f x - h * (lsum k (fun j => pd j f x * nth j v 0) + pd k f x * nth k v 0))
      with ((f z - f x - h * lsum k (fun j => pd j f x * nth j v 0))
            + (h * nth k v 0) * (dc - pd k f x)).
    2:{ replace (f (upd z k b)) with (f z + dc * (b - nth k x 0)) by lra. unfold b. ring. }
    eapply Rle_trans; [apply Rabs_triang|].
    rewrite Rmult_plus_distr_l. apply Rplus_le_compat; [exact IH|].
    rewrite !Rabs_mult.
    replace (Rabs h * eps * Rabs (nth k v 0)) with (Rabs h * Rabs (nth k v 0) * eps) by ring.
    apply Rmult_le_compat_l; [apply Rmult_le_pos; apply Rabs_pos|lra].
Qed.

Lemma chain_line n D f x v : openset n D -> C1 n D f -> D x -> length v = n ->
  is_derive (fun t => f (axpy t x v)) 0 (lsum n (fun j => pd j f x * nth j v 0)).
Proof.
  intros HO HC Dx Lv. destruct (HO x Dx) as (Lx & d0 & Hd0 & HD0).
  apply is_derive_Reals. intros eps Heps.
  set (S := lsum n (fun j => Rabs (nth j v 0))).
  assert (HS : 0 <= S) by (apply lsum_nonneg; intros; apply Rabs_pos).
  set (e := eps / (2 * (1 + S))).
  assert (He : 0 < e) by (apply Rdiv_lt_0_compat; lra).
  destruct (common_radius n (fun k d => forall y, near d x y -> Rabs (pd k f y - pd k f x) < e)) as (d1 & Hd1 & H1).
  { intros k a b Hab H y Hy. apply H. eapply near_le; [|exact Hy]. lra. }
  { intros k Hk. destruct (HC k x Hk Dx) as (_ & Hc). apply Hc. exact He. }
  set (d := Rmin d0 d1). assert (Hd : 0 < d) by (apply Rmin_glb_lt; auto).
  assert (Hdel : 0 < d / (1 + S)) by (apply Rdiv_lt_0_compat; lra).
  exists (mkposreal _ Hdel). intros h Hh Hlt. cbn in Hlt. rewrite Rplus_0_l.
  assert (Hv : forall i, Rabs (nth i v 0) <= S).
  { intros i. destruct (Nat.lt_ge_cases i n) as [Hi|Hi].
    - unfold S. clear - Hi. induction n as [|n IH]; [lia|]. rewrite lsum_S.
      pose proof (Rabs_pos (nth n v 0)).
      assert (0 <= lsum n (fun j => Rabs (nth j v 0))) by (apply lsum_nonneg; intros; apply Rabs_pos).
      destruct (Nat.eq_dec i n) as [->|]; [lra|]. specialize (IH ltac:(lia)). lra.
    - rewrite nth_overflow by lia. rewrite Rabs_R0. exact HS. }
  assert (Hhv : forall i, Rabs (h * nth i v 0) < d).
  { intros i. rewrite Rabs_mult.
    apply Rle_lt_trans with (Rabs h * (1 + S)).
    - apply Rmult_le_compat_l; [apply Rabs_pos|]. specialize (Hv i). lra.
    - apply Rlt_le_trans with (d / (1 + S) * (1 + S)).
      + apply Rmult_lt_compat_r; [lra|exact Hlt].
      + right. field. lra. }
  assert (ES := line_estimate n D f x v d e h HO HC Dx Lv Hd
    (fun y Hy => HD0 y (near_le d d0 x y (Rmin_l _ _) Hy))
    (fun k y Hk Hy => H1 k Hk y (near_le d d1 x y (Rmin_r _ _) Hy)) Hhv n (le_n n)).
  rewrite <- Lx in ES at 1. rewrite zpath_n in ES by lia.
  assert (E0 : axpy 0 x v = x).
  { apply vec_ext; [apply axpy_length; lia|]. intros i Hi. rewrite nth_axpy by lia. ring. }
  rewrite E0. fold S in ES.
  set (L := lsum n (fun j => pd j f x * nth j v 0)) in *.
  replace ((f (axpy h x v) - f x) / h - L) with ((f (axpy h x v) - f x - h * L) * / h) by (field; auto).
  rewrite Rabs_mult, Rabs_inv.
  assert (Hah : 0 < Rabs h) by (apply Rabs_pos_lt; auto).
  apply Rle_lt_trans with (Rabs h * e * S * / Rabs h).
  - apply Rmult_le_compat_r; [left; apply Rinv_0_lt_compat; auto|exact ES].
  - replace (Rabs h * e * S * / Rabs h) with (e * S) by (field; lra).
    unfold e. apply Rle_lt_trans with (eps / 2).
    + replace (eps / (2 * (1 + S)) * S) with (eps / 2 * (S / (1 + S))) by (field; lra).
      rewrite <- (Rmult_1_r (eps / 2)) at 2. apply Rmult_le_compat_l; [lra|].
      apply (Rdiv_le_1 S (1 + S)); lra.
    + lra.
Qed.

(** ** symmetry of second derivatives *)
Lemma schwarz_n n D f x i j : openset n D -> C2 n D f -> D x -> (i < n)%nat -> (j < n)%nat ->
  pd i (pd j f) x = pd j (pd i f) x.
Proof.
  intros HO (HC1 & HC2) Dx Hi Hj. destruct (Nat.eq_dec i j) as [->|Hij]; [reflexivity|].
  destruct (HO x Dx) as (Lx & d0 & Hd0 & HD0).
  set (P u v := upd (upd x i u) j v).
  assert (Pi : forall u v, nth i (P u v) 0 = u).
  { intros. unfold P. rewrite upd_comm by auto. apply upd_nth_same. rewrite upd_length. lia. }
  assert (Pj : forall u v, nth j (P u v) 0 = v).
  { intros. unfold P. apply upd_nth_same. rewrite upd_length. lia. }
  assert (Ui : forall u v t, upd (P u v) i t = P t v).
  { intros. unfold P. rewrite upd_comm, upd_upd by auto. reflexivity. }
  assert (Uj : forall u v t, upd (P u v) j t = P u t).
  { intros. unfold P. rewrite upd_upd. reflexivity. }
  assert (Px : P (nth i x 0) (nth j x 0) = x).
  { unfold P. rewrite upd_self. apply upd_self. }
  assert (Pn : forall d u v, 0 < d -> Rabs (u - nth i x 0) < d -> Rabs (v - nth j x 0) < d -> near d x (P u v)).
  { intros. unfold P. apply near_upd; auto. apply near_upd; auto. apply near_refl; auto. }
  assert (Ei : forall g u v, pd i g (P u v) = Derive (fun t => g (P t v)) u).
  { intros. unfold pd. rewrite Pi. apply Derive_ext. intros. rewrite Ui. reflexivity. }
  assert (Ej : forall g u v, pd j g (P u v) = Derive (fun t => g (P u t)) v).
  { intros. unfold pd. rewrite Pj. apply Derive_ext. intros. rewrite Uj. reflexivity. }
  assert (Xi : forall g u v, C1 n D g -> D (P u v) -> ex_derive (fun t => g (P t v)) u).
  { intros g u v HC HD. destruct (HC i _ Hi HD) as (E & _). rewrite Pi in E.
    apply (ex_derive_ext (fun t => g (upd (P u v) i t))); [|exact E]. intros t. rewrite Ui. reflexivity. }
  assert (Xj : forall g u v, C1 n D g -> D (P u v) -> ex_derive (fun t => g (P u t)) v).
  { intros g u v HC HD. destruct (HC j _ Hj HD) as (E & _). rewrite Pj in E.
    apply (ex_derive_ext (fun t => g (upd (P u v) j t))); [|exact E]. intros t. rewrite Uj. reflexivity. }
  rewrite <- Px. rewrite Ei, Ej.
  transitivity (Derive (fun z => Derive (fun t => f (P z t)) (nth j x 0)) (nth i x 0)).
  { apply Derive_ext. intros t. apply Ej. }
  transitivity (Derive (fun z => Derive (fun t => f (P t z)) (nth i x 0)) (nth j x 0)).
  2:{ apply Derive_ext. intros t. symmetry. apply Ei. }
  apply (Schwarz (fun u v => f (P u v))).
  - exists (mkposreal d0 Hd0). cbn. intros u v Hu Hv.
    assert (DP : D (P u v)) by (apply HD0, Pn; auto).
    repeat split; auto.
    + apply (ex_derive_ext (fun z => pd j f (P z v))); [intros; apply Ej|]. apply Xi; auto.
    + apply (ex_derive_ext (fun z => pd i f (P u z))); [intros; apply Ei|]. apply Xj; auto.
  - intros eps. destruct (HC2 j Hj i x Hi Dx) as (_ & Hc).
    destruct (Hc eps (cond_pos eps)) as (d & Hd & H).
    exists (mkposreal d Hd). cbn. intros u v Hu Hv.
    specialize (H (P u v) (Pn d u v Hd Hu Hv)). rewrite <- Px in H.
    rewrite !Ei in H.
    rewrite (Derive_ext (fun z => Derive (fun t => f (P z t)) v) (fun t => pd j f (P t v))) by (intros; symmetry; apply Ej).
    rewrite (Derive_ext (fun z => Derive (fun t => f (P z t)) (nth j x 0)) (fun t => pd j f (P t (nth j x 0)))) by (intros; symmetry; apply Ej).
    exact H.
  - intros eps. destruct (HC2 i Hi j x Hj Dx) as (_ & Hc).
    destruct (Hc eps (cond_pos eps)) as (d & Hd & H).
    exists (mkposreal d Hd). cbn. intros u v Hu Hv.
    specialize (H (P u v) (Pn d u v Hd Hu Hv)). rewrite <- Px in H.
    rewrite !Ej in H.
    rewrite (Derive_ext (fun z => Derive (fun t => f (P t z)) u) (fun t => pd i f (P u t))) by (intros; symmetry; apply Ei).
    rewrite (Derive_ext (fun z => Derive (fun t => f (P t z)) (nth i x 0)) (fun t => pd i f (P (nth i x 0) t))) by (intros; symmetry; apply Ei).
    exact H.
Qed.
