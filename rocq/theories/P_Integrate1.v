(** Weighted sums of the quadrature rules as sums over panels. *)
From Verif Require Import Base BaseFacts P_Vec M_Integrate S_Integrate.

Definition ps_mid (f : R -> R) a b := (b - a) * f ((b + a) / 2).
Definition ps_trap (f : R -> R) a b := (b - a) / 2 * (f a + f b).
Definition ps_simp (f : R -> R) a b := (b - a) / 6 * (f a + 4 * f ((a + b) / 2) + f b).
Definition ps_gauss (nodes weights : list R) (f : R -> R) a b :=
  (b - a) / 2 * sumR (map2 (fun w x => w * f ((a + b) / 2 + x * (b - a) / 2)) weights nodes).

(** the rule yields as many weights as nodes and its sum is a sum over panels *)
Definition panel_rule (rule : quadrule) (ps : (R -> R) -> R -> R -> R) (d : list R) : Prop :=
  exists W X, rule d = Ok (W, X) /\ length W = length X /\ (forall f, dotR W (map f X) = over_panels (ps f) d).

Lemma adjacent_cons {C} (q : R -> R -> C) a b t : adjacent q (a :: b :: t) = q a b :: adjacent q (b :: t).
Proof. reflexivity. Qed.
Lemma adjacent_length {C} (q : R -> R -> C) d : length (adjacent q d) = (length d - 1)%nat.
Proof. unfold adjacent. rewrite map2_length. destruct d; cbn [length tl]; lia. Qed.
Lemma adjacent_nth {C} (q : R -> R -> C) d i dc : (S i < length d)%nat ->
  nth i (adjacent q d) dc = q (nth i d 0) (nth (S i) d 0).
Proof.
  intros H. unfold adjacent. rewrite (nth_map2 q d (tl d) i 0 0 dc).
  - f_equal. destruct d; simpl; auto; destruct i; auto.
  - lia.
  - destruct d; simpl in *; lia.
Qed.
Lemma adjacent_map {C D} (g : C -> D) (q : R -> R -> C) d : map g (adjacent q d) = adjacent (fun a b => g (q a b)) d.
Proof. unfold adjacent. apply map_map2. Qed.

Lemma midpoint_panels d : panel_rule midpoint ps_mid d.
Proof.
  do 2 eexists. split; [reflexivity|]. split; [rewrite !adjacent_length; auto|]. intros f.
  induction d as [|a d IH]; [reflexivity|]. destruct d as [|b t]; [reflexivity|].
  rewrite !adjacent_cons. cbn [map]. rewrite dotR_cons, IH. reflexivity.
Qed.

Lemma trap_panels_gen f : forall t a c,
  dotR (map2 (fun x y => (x + y) / 2) (adjacent (fun a b => b - a) (a :: t) ++ [0]) (c :: adjacent (fun a b => b - a) (a :: t)))
       (map f (a :: t)) = c / 2 * f a + over_panels (ps_trap f) (a :: t).
Proof.
  induction t as [|b t IH]; intros a c.
  - unfold dotR, sumR. simpl. field.
  - rewrite adjacent_cons. cbn [app map2 map]. rewrite dotR_cons.
    change (f b :: map f t) with (map f (b :: t)). rewrite IH.
    change (over_panels (ps_trap f) (a :: b :: t)) with (ps_trap f a b + over_panels (ps_trap f) (b :: t)).
    unfold ps_trap at 2. field.
Qed.
Lemma trap_panels d : panel_rule trap ps_trap d.
Proof.
  unfold panel_rule, trap. do 2 eexists. split; [reflexivity|]. split.
  - destruct d as [|a t]; [reflexivity|]. rewrite map2_length. rewrite app_length. cbn [length].
    rewrite adjacent_length. cbn [length]. lia.
  - intros f. destruct d as [|a t]; [reflexivity|]. rewrite trap_panels_gen. field.
Qed.

(** *** simpson *)
Fixpoint simp_w (c a : R) (t : list R) : list R :=
  match t with [] => [c] | b :: t' => (c + (b - a) / 6) :: ((b - a) / 6 * 4) :: simp_w ((b - a) / 6) b t' end.
Fixpoint simp_x (a : R) (t : list R) : list R :=
  match t with [] => [a] | b :: t' => a :: ((a + b) / 2) :: simp_x b t' end.
Definition diffs (d : list R) := adjacent (fun a b => b - a) d.

Lemma simp_w_length c a t : length (simp_w c a t) = (2 * length t + 1)%nat.
Proof. revert c a; induction t as [|b t IH]; intros c a; simpl; [auto|]. rewrite IH. lia. Qed.
Lemma simp_x_length a t : length (simp_x a t) = (2 * length t + 1)%nat.
Proof. revert a; induction t as [|b t IH]; intros a; simpl; [auto|]. rewrite IH. lia. Qed.

Lemma simp_w_odd : forall t c a j, nth (2 * j + 1) (simp_w c a t) 0 = nth j (diffs (a :: t)) 0 / 6 * 4.
Proof.
  induction t as [|b t IH]; intros c a j.
  - replace (2 * j + 1)%nat with (S (2 * j)) by lia. simpl. destruct (j + (j + 0))%nat; destruct j; simpl; field.
  - unfold diffs. rewrite adjacent_cons. destruct j as [|j]; [reflexivity|].
    replace (2 * S j + 1)%nat with (S (S (2 * j + 1))) by lia. cbn [simp_w nth]. rewrite IH. reflexivity.
Qed.
Lemma simp_w_even : forall t c a j, nth (2 * j) (simp_w c a t) 0 =
  (match j with O => c | S k => nth k (diffs (a :: t)) 0 / 6 end) + nth j (diffs (a :: t)) 0 / 6.
Proof.
  induction t as [|b t IH]; intros c a j.
  - destruct j as [|j]; [simpl; field|]. replace (2 * S j)%nat with (S (S (2 * j))) by lia. simpl.
    destruct j; simpl; field.
  - unfold diffs. rewrite adjacent_cons. destruct j as [|j]; [reflexivity|].
    replace (2 * S j)%nat with (S (S (2 * j))) by lia. cbn [simp_w nth]. rewrite IH. destruct j; reflexivity.
Qed.

Lemma strided_set_length s k v l : length (strided_set s k v l) = length l.
Proof. unfold strided_set. rewrite map_length, seq_length. auto. Qed.
Lemma strided_set_nth s k v l p : (p < length l)%nat -> nth p (strided_set s k v l) 0 =
  if (Nat.leb s p && Nat.eqb ((p - s) mod k) 0 && Nat.ltb ((p - s) / k) (length v))%bool
  then nth ((p - s) / k) v 0 else nth p l 0.
Proof.
  intros H. unfold strided_set.
  rewrite (nth_indep _ 0 (nth 0 l 0)) by (rewrite map_length, seq_length; auto).
  match goal with |- nth p (map ?g _) _ = _ =>
    rewrite (nth_indep _ (nth 0 l 0) (g 0%nat)) by (rewrite map_length, seq_length; auto);
    rewrite (map_nth g) end.
  rewrite seq_nth by auto. reflexivity.
Qed.

Lemma even_strided s j : (s <= 2 * j)%nat -> Nat.even s = true ->
  ((2 * j - s) mod 2 = 0)%nat /\ ((2 * j - s) / 2 = j - s / 2)%nat.
Proof.
  intros H E. apply Nat.even_spec in E as [q ->]. replace (2 * j - 2 * q)%nat with ((j - q) * 2)%nat by lia.
  rewrite Nat.mod_mul, Nat.div_mul by lia. replace (2 * q / 2)%nat with q; auto.
  rewrite Nat.mul_comm, Nat.div_mul; lia.
Qed.

Lemma simpson_weights a b t : exists w0 rest,
  adjacent (fun a b => ((b - a) / 6 * 1, (b - a) / 6 * 4, (b - a) / 6 * 1)) (a :: b :: t) = w0 :: rest /\
  (let _w := w0 :: rest in
   let n := (length (a :: b :: t) + length (a :: b :: t) - 1)%nat in
    let w := repeat 0 n in
    let w := upd w 0 (fst (fst w0)) in
    let w := upd w (n - 1) (snd (last _w w0)) in
    let w := strided_set 1 2 (map (fun t => snd (fst t)) _w) w in
    strided_set 2 2 (map2 (fun t t' => snd t + fst (fst t')) _w (tl _w)) w) = simp_w 0 a (b :: t).
Proof.
  set (q := fun a b : R => ((b - a) / 6 * 1, (b - a) / 6 * 4, (b - a) / 6 * 1)).
  set (d := a :: b :: t).
  assert (Hq : forall i dc, (S i < length d)%nat -> nth i (adjacent q d) dc =
     (nth i (diffs d) 0 / 6 * 1, nth i (diffs d) 0 / 6 * 4, nth i (diffs d) 0 / 6 * 1)).
  { intros. rewrite adjacent_nth by auto. unfold diffs. rewrite adjacent_nth by auto. reflexivity. }
  assert (Lq : length (adjacent q d) = S (length t)) by (rewrite adjacent_length; simpl; lia).
  destruct (adjacent q d) as [|w0 rest] eqn:E; [discriminate|]. exists w0, rest. split; [reflexivity|].
  cbv zeta. set (N := length d) in *. assert (HN : N = S (S (length t))) by reflexivity.
  apply vec_ext.
  { rewrite !strided_set_length, !upd_length, repeat_length, simp_w_length. simpl. lia. }
  intros p Hp. rewrite !strided_set_length, !upd_length, repeat_length in Hp.
  rewrite !strided_set_nth by (rewrite ?strided_set_length, ?upd_length, ?repeat_length; auto).
  assert (L2 : length (map2 (fun t t' : R * R * R => snd t + fst (fst t')) (w0 :: rest) (tl (w0 :: rest))) = length t).
  { rewrite map2_length. cbn [tl length] in *. lia. }
  rewrite L2, map_length, Lq.
  destruct (Nat.Even_or_Odd p) as [[j ->]|[j ->]].
  - rewrite simp_w_even.
    assert (O1 : (Nat.leb 1 (2 * j) && Nat.eqb ((2 * j - 1) mod 2) 0)%bool = false).
    { destruct j as [|j]; [reflexivity|]. replace (2 * S j - 1)%nat with (1 + j * 2)%nat by lia.
      rewrite Nat.mod_add by lia. reflexivity. }
    rewrite O1. cbn [andb].
    destruct j as [|j].
    + cbn [Nat.leb Nat.mul andb]. rewrite upd_nth_other by lia. rewrite upd_nth_same by (rewrite repeat_length; lia).
      pose proof (Hq 0%nat w0 ltac:(lia)) as W0. cbn [nth] in W0. rewrite W0. cbn [fst]. change (a :: b :: t) with d. destruct (diffs d); simpl; field.
    + destruct (even_strided 2 (S j)) as [-> ->]; [lia|reflexivity|].
      replace (Nat.leb 2 (2 * S j)) with true by (symmetry; apply Nat.leb_le; lia).
      replace (S j - 2 / 2)%nat with j by (simpl; lia). cbn [andb Nat.eqb].
      destruct (Nat.ltb j (length t)) eqn:Ej.
      * apply Nat.ltb_lt in Ej.
        rewrite (nth_map2 _ _ _ _ w0 w0) by (cbn [length tl] in *; lia).
        replace (nth j (tl (w0 :: rest)) w0) with (nth (S j) (w0 :: rest) w0) by reflexivity.
        rewrite !Hq by lia. cbn [fst snd]. change (a :: b :: t) with d. field.
      * apply Nat.ltb_ge in Ej. assert (j = length t) by lia. subst j.
        replace (2 * S (length t))%nat with (N + N - 1 - 1)%nat by lia.
        rewrite upd_nth_same by (rewrite upd_length, repeat_length; lia).
        replace (last (w0 :: rest) w0) with (nth (length t) (w0 :: rest) w0).
        2:{ clear -Lq. cbn [length] in Lq. injection Lq as Lq. rewrite <- Lq. clear.
            assert (G : forall (l : list (R * R * R)) x dd, nth (length l) (x :: l) dd = last (x :: l) dd).
            { induction l as [|y l IH]; intros; [reflexivity|]. cbn [length]. change (nth (S (length l)) (x :: y :: l) dd) with (nth (length l) (y :: l) dd). rewrite IH. reflexivity. }
            apply G. }
        rewrite Hq by lia. cbn [snd].
        rewrite (nth_overflow (diffs (a :: b :: t)) 0 (n := S (length t))) by (unfold diffs; rewrite adjacent_length; cbn [length]; lia).
        change (a :: b :: t) with d. field.
  - rewrite simp_w_odd.
    assert (O1 : (Nat.leb 2 (2 * j + 1) && Nat.eqb ((2 * j + 1 - 2) mod 2) 0)%bool = false).
    { destruct j as [|j]; [reflexivity|]. replace (2 * S j + 1 - 2)%nat with (1 + j * 2)%nat by lia.
      rewrite Nat.mod_add by lia. apply Bool.andb_false_r. }
    rewrite O1. cbn [andb].
    replace (Nat.leb 1 (2 * j + 1)) with true by (symmetry; apply Nat.leb_le; lia).
    replace (2 * j + 1 - 1)%nat with (j * 2)%nat by lia. rewrite Nat.mod_mul, Nat.div_mul by lia. cbn [andb Nat.eqb].
    replace (Nat.ltb j (S (length t))) with true by (symmetry; apply Nat.ltb_lt; lia).
    rewrite (nth_indep _ 0 ((fun t : R * R * R => snd (fst t)) w0)) by (rewrite map_length; lia).
    rewrite (map_nth (fun t : R * R * R => snd (fst t))). rewrite Hq by lia. reflexivity.
Qed.

Lemma filter_combine_seq : forall n s p vs, length vs = n ->
  map snd (filter (fun q : nat * R => Nat.eqb (fst q) p) (combine (seq s n) vs)) =
  if (Nat.leb s p && Nat.ltb p (s + n))%bool then [nth (p - s) vs 0] else [].
Proof.
  induction n as [|n IH]; intros s p vs L.
  - simpl. replace (Nat.ltb p (s + 0)) with (negb (Nat.leb s p)). 
    + destruct (Nat.leb s p); reflexivity.
    + rewrite Nat.add_0_r. rewrite Nat.ltb_antisym. reflexivity.
  - destruct vs as [|v vs]; [discriminate|]. cbn [seq combine filter]. cbn [fst].
    specialize (IH (S s) p vs ltac:(simpl in L; lia)).
    destruct (Nat.eqb s p) eqn:E.
    + apply Nat.eqb_eq in E. subst p. cbn [map]. rewrite IH.
      replace (Nat.leb (S s) s) with false by (symmetry; apply Nat.leb_gt; lia). cbn [andb].
      rewrite Nat.leb_refl. replace (Nat.ltb s (s + S n)) with true by (symmetry; apply Nat.ltb_lt; lia).
      rewrite Nat.sub_diag. reflexivity.
    + apply Nat.eqb_neq in E. rewrite IH. replace (S s + n)%nat with (s + S n)%nat by lia.
      destruct (Nat.leb (S s) p) eqn:E1.
      * apply Nat.leb_le in E1. replace (Nat.leb s p) with true by (symmetry; apply Nat.leb_le; lia).
        destruct (Nat.ltb p (s + S n)); [|reflexivity]. cbn [andb]. replace (p - s)%nat with (S (p - S s)) by lia. reflexivity.
      * apply Nat.leb_gt in E1. replace (Nat.leb s p) with false by (symmetry; apply Nat.leb_gt; lia). reflexivity.
Qed.

Lemma simpson_nodes_gen : forall t a pre, 
  let d := pre ++ a :: t in
  np_insert (S (length pre)) t (combine (seq 1 (length d - 1)) (adjacent (fun a b => (a + b) / 2) d)) = tl (simp_x a t).
Proof.
  induction t as [|b t IH]; intros a pre d.
  - cbn [np_insert]. rewrite filter_combine_seq by (rewrite adjacent_length; auto).
    replace (Nat.ltb (S (length pre)) (1 + (length d - 1))) with false; [rewrite Bool.andb_false_r; reflexivity|].
    symmetry; apply Nat.ltb_ge. unfold d. rewrite app_length. simpl. lia.
  - cbn [np_insert]. rewrite filter_combine_seq by (rewrite adjacent_length; auto).
    assert (Ld : length d = (length pre + S (S (length t)))%nat) by (unfold d; rewrite app_length; reflexivity).
    replace (Nat.leb 1 (S (length pre))) with true by reflexivity.
    replace (Nat.ltb (S (length pre)) (1 + (length d - 1))) with true by (symmetry; apply Nat.ltb_lt; lia).
    cbn [andb app]. replace (S (length pre) - 1)%nat with (length pre) by lia.
    rewrite adjacent_nth by lia. unfold d at 1 2. rewrite !app_nth2 by lia.
    rewrite Nat.sub_diag. replace (S (length pre) - length pre)%nat with 1%nat by lia. cbn [nth simp_x tl].
    f_equal. specialize (IH b (pre ++ [a])). cbv zeta in IH. rewrite <- app_assoc in IH. cbn [app] in IH.
    rewrite app_length in IH. cbn [length] in IH. replace (length pre + 1)%nat with (S (length pre)) in IH by lia.
    fold d in IH. rewrite IH. destruct t; reflexivity.
Qed.
Lemma simpson_nodes a t :
  np_insert 0 (a :: t) (combine (seq 1 (length (a :: t) - 1)) (adjacent (fun a b => (a + b) / 2) (a :: t))) = simp_x a t.
Proof.
  cbn [np_insert]. rewrite filter_combine_seq by (rewrite adjacent_length; auto). cbn [Nat.leb andb app].
  pose proof (simpson_nodes_gen t a []) as H. cbv zeta in H. cbn [app length] in H. cbn [length]. rewrite H.
  destruct t; reflexivity.
Qed.

Lemma simp_sum f : forall t a c, dotR (simp_w c a t) (map f (simp_x a t)) = c * f a + over_panels (ps_simp f) (a :: t).
Proof.
  induction t as [|b t IH]; intros a c.
  - unfold dotR, sumR. simpl. ring.
  - cbn [simp_w simp_x map]. rewrite !dotR_cons, IH.
    change (over_panels (ps_simp f) (a :: b :: t)) with (ps_simp f a b + over_panels (ps_simp f) (b :: t)).
    unfold ps_simp at 2. field.
Qed.

Lemma simpson_eq a b t : simpson (a :: b :: t) = Ok (simp_w 0 a (b :: t), simp_x a (b :: t)).
Proof.
  unfold simpson. destruct (simpson_weights a b t) as (w0 & rest & -> & H). cbv zeta in *. rewrite H.
  rewrite simpson_nodes. reflexivity.
Qed.
Lemma simpson_panels d : (2 <= length d)%nat -> panel_rule simpson ps_simp d.
Proof.
  destruct d as [|a [|b t]]; simpl; try lia. intros _. do 2 eexists. split; [apply simpson_eq|].
  split; [rewrite simp_w_length, simp_x_length; auto|]. intros f. rewrite simp_sum. ring.
Qed.

Lemma gauss_panels nodes weights d : length nodes = length weights ->
  panel_rule (gauss nodes weights) (ps_gauss nodes weights) d.
Proof.
  intros L. do 2 eexists. split; [reflexivity|].
  assert (L2 : forall (q1 q2 : R -> R -> list R), (forall a b, length (q1 a b) = length (q2 a b)) ->
    length (concat (adjacent q1 d)) = length (concat (adjacent q2 d))).
  { intros q1 q2 H. induction d as [|a d IH]; [reflexivity|]. destruct d as [|b t]; [reflexivity|].
    rewrite !adjacent_cons. cbn [concat]. rewrite !app_length, IH, H. auto. }
  split; [apply L2; intros; rewrite !map_length; auto|]. intros f.
  induction d as [|a d IH]; [reflexivity|]. destruct d as [|b t]; [reflexivity|].
  rewrite !adjacent_cons. cbn [concat]. rewrite map_app.
  assert (A : forall u v u' v', length u = length u' -> dotR (u ++ v) (u' ++ v') = dotR u u' + dotR v v').
  { induction u as [|x u IHu]; intros v u' v' E; destruct u' as [|x' u']; try discriminate; [unfold dotR, sumR; simpl; ring|].
    cbn [app]. rewrite !dotR_cons, IHu by (simpl in E; lia). ring. }
  rewrite A by (rewrite !map_length; auto). rewrite IH; [|intros q1 q2 H; clear -H].
  - change (over_panels (ps_gauss nodes weights f) (a :: b :: t)) with
      (ps_gauss nodes weights f a b + over_panels (ps_gauss nodes weights f) (b :: t)).
    f_equal. unfold ps_gauss, dotR. rewrite map_map, map2_map_l, map2_map_r.
    clear -L. revert weights L. induction nodes as [|x ns IH]; intros [|w ws] L; simpl in *; try discriminate; [ring|].
    rewrite IH by lia. ring.
  - revert b. induction t as [|c t IH]; intros b; [reflexivity|]. rewrite !adjacent_cons. cbn [concat]. rewrite !app_length, IH, H. auto.
Qed.

(** *** one-dimensional integrate is the panel sum *)
Lemma integrate_1d rule ps d f : panel_rule rule ps d ->
  integrate (pointwise f) [d] rule = Ok (A0 (over_panels (ps f) d)).
Proof.
  intros (W & X & E & L & H). unfold integrate. cbn [map sequence]. rewrite E. cbn [bind]. unfold pointwise. cbn [bind].
  rewrite map_length, L, Nat.eqb_refl, H. reflexivity.
Qed.
