(** Proofs about the hypercube transformations of domain.py. *)
From Coquelicot Require Import Coquelicot.
From Verif Require Import Base BaseFacts M_RFun S_RFun P_Vec M_Domain S_Domain.

Lemma mod1_id x : 0 <= x < 1 -> mod1 x = x.
Proof.
  intros H. unfold mod1. assert (E : Int_part x = 0%Z).
  { unfold Int_part. rewrite <- (tech_up x 1); simpl; try lra. reflexivity. }
  rewrite E. simpl. ring.
Qed.
Lemma wrap1_id x : x <= 1 -> wrap1 x = x.
Proof. intros H. unfold wrap1. destruct (Rlt_dec 1 x); lra. Qed.
Lemma wrap1_range x : 0 <= x -> 0 <= wrap1 x <= 1.
Proof. intros H. unfold wrap1. destruct (Rlt_dec 1 x); [pose proof (mod1_range x)|]; lra. Qed.

Lemma nth_map_lt {A B} (f : A -> B) l i da db : (i < length l)%nat -> nth i (map f l) db = f (nth i l da).
Proof. intros H. rewrite nth_indep with (d' := f da) by (rewrite map_length; auto). apply map_nth. Qed.

Lemma thc_ok x l u : length x = length l -> length u = length l ->
  exists y, transform_hypercube (A1 x) l u = Ok (A1 y) /\ length y = length l /\
  forall i, (i < length l)%nat -> nth i y 0 = wrap1 (nth i x 0) * (nth i u 0 - nth i l 0) + nth i l 0.
Proof.
  intros Hx Hu. unfold transform_hypercube, bop, amap.
  rewrite bcast1_eq by auto. cbn [bind].
  rewrite bcast1_eq by (rewrite map_length, map2_length_eq; congruence). cbn [bind].
  rewrite bcast1_eq by (rewrite map2_length_eq; rewrite map_length; rewrite ?map2_length_eq; congruence). cbn [bind].
  eexists; split; [reflexivity|].
  assert (L1 : length (map wrap1 x) = length (map2 Rminus u l)) by (rewrite map_length, map2_length_eq; congruence).
  assert (L2 : length (map2 Rmult (map wrap1 x) (map2 Rminus u l)) = length l)
    by (rewrite map2_length_eq by auto; rewrite map_length; auto).
  split; [rewrite map2_length_eq; auto|].
  intros i Hi. rewrite (nth_map2 Rplus _ _ i 0 0) by congruence.
  rewrite (nth_map2 Rmult _ _ i 0 0) by (rewrite ?map_length, ?map2_length_eq; congruence).
  rewrite (nth_map2 Rminus _ _ i 0 0) by congruence. rewrite (nth_map_lt _ _ _ 0) by congruence. reflexivity.
Qed.

Lemma thc_eq x l u z : length x = length l -> length u = length l -> length z = length l ->
  (forall i, (i < length l)%nat -> nth i z 0 = wrap1 (nth i x 0) * (nth i u 0 - nth i l 0) + nth i l 0) ->
  transform_hypercube (A1 x) l u = Ok (A1 z).
Proof.
  intros Hx Hu Hz H. destruct (thc_ok x l u Hx Hu) as (y & E & Hy & V). rewrite E. do 2 f_equal.
  apply (list_eq_nth y z 0); [congruence|]. intros i Hi. rewrite V, H; auto; congruence.
Qed.

Lemma Hypercube_ok l u h : Hypercube l u = Ok h -> length l = length u /\ h = mkHypercube l u.
Proof.
  unfold Hypercube, assert_. destruct (Nat.eqb_spec (length l) (length u)); cbn; intros H; [|discriminate].
  injection H as <-. auto.
Qed.
Lemma Hypercube_rejects l u : length l <> length u <-> Hypercube l u = Err AssertionError.
Proof.
  unfold Hypercube, assert_. destruct (Nat.eqb_spec (length l) (length u)); cbn; split; intros; auto; try discriminate; congruence.
Qed.

Lemma includes_true l u y : inside_closed l u y ->
  hc_includes (mkHypercube l u) y = Ok (repeat true (length y)).
Proof.
  intros (Hl & Hu & H). unfold hc_includes. cbn [lb ub]. rewrite !bcast1_eq by congruence. cbn [bind]. f_equal.
  revert l u Hl Hu H. induction y as [|b y IH]; intros [|a l] [|c u] Hl Hu H; simpl in *; try lia; auto.
  f_equal.
  - specialize (H 0%nat ltac:(lia)). simpl in H.
    assert (E1 : Rleb a b = true) by (apply Rleb_true; lra). assert (E2 : Rleb b c = true) by (apply Rleb_true; lra).
    rewrite E1, E2. reflexivity.
  - apply IH; try lia. intros i Hi. apply (H (S i)). lia.
Qed.

(** C23 *)
Lemma transform_in_box l u h x : Hypercube l u = Ok h -> weak_box l u -> length x = length l ->
  Forall (fun e => 0 <= e) x ->
  exists y, hc_transform h (A1 x) = Ok (A1 y) /\ inside_closed l u y /\
    hc_includes h y = Ok (repeat true (length y)).
Proof.
  intros Hh (Hlu & Hle) Hx Hp. apply Hypercube_ok in Hh as [_ ->]. unfold hc_transform. cbn [lb ub].
  destruct (thc_ok x l u Hx (eq_sym Hlu)) as (y & E & Hy & V). exists y. split; auto.
  assert (IC : inside_closed l u y).
  { split; [congruence|]. split; [congruence|]. intros i Hi. rewrite Hy in Hi. rewrite V by auto.
    assert (W : 0 <= nth i x 0).
    { rewrite Forall_nth in Hp. apply Hp. congruence. }
    pose proof (wrap1_range _ W). specialize (Hle i Hi). nra. }
  split; auto. apply includes_true; auto.
Qed.
Lemma transform_affine l u h x : Hypercube l u = Ok h -> length x = length l ->
  Forall (fun e => 0 <= e <= 1) x ->
  exists y, hc_transform h (A1 x) = Ok (A1 y) /\ length y = length l /\
    forall i, (i < length l)%nat -> nth i y 0 = nth i l 0 + nth i x 0 * edge l u i.
Proof.
  intros Hh Hx Hp. apply Hypercube_ok in Hh as [Hlu ->]. unfold hc_transform. cbn [lb ub].
  destruct (thc_ok x l u Hx (eq_sym Hlu)) as (y & E & Hy & V). exists y. split; auto. split; auto.
  intros i Hi. rewrite V by auto. rewrite wrap1_id.
  - unfold edge. ring.
  - rewrite Forall_nth in Hp. apply Hp. congruence.
Qed.
Lemma transform_onto l u h y : Hypercube l u = Ok h -> weak_box l u -> inside_closed l u y ->
  exists x, length x = length l /\ Forall (fun e => 0 <= e <= 1) x /\ hc_transform h (A1 x) = Ok (A1 y).
Proof.
  intros Hh (Hlu & Hle) (H1 & H2 & H). apply Hypercube_ok in Hh as [_ ->]. unfold hc_transform. cbn [lb ub].
  set (g := fun i => if Req_EM_T (nth i u 0) (nth i l 0) then 0 else (nth i y 0 - nth i l 0) / (nth i u 0 - nth i l 0)).
  exists (map g (seq 0 (length l))).
  assert (G : forall i, (i < length l)%nat -> 0 <= g i <= 1 /\ nth i y 0 = g i * (nth i u 0 - nth i l 0) + nth i l 0).
  { intros i Hi. specialize (Hle i Hi). specialize (H i ltac:(congruence)). unfold g.
    destruct (Req_EM_T (nth i u 0) (nth i l 0)) as [E|E]; [split; lra|].
    assert (P : 0 < nth i u 0 - nth i l 0) by lra. split; [split|field; lra].
    - apply Rmult_le_pos; [lra|]. apply Rlt_le, Rinv_0_lt_compat; auto.
    - apply Rmult_le_reg_r with (nth i u 0 - nth i l 0); auto. unfold Rdiv.
      rewrite Rmult_assoc, Rinv_l by lra. lra. }
  assert (L : length (map g (seq 0 (length l))) = length l) by (rewrite map_length, seq_length; auto).
  split; auto. split.
  - apply Forall_forall. intros e He. apply in_map_iff in He as (i & <- & Hi). apply in_seq in Hi. apply G. lia.
  - apply thc_eq; try congruence. intros i Hi. destruct (G i Hi) as [R1 R2].
    rewrite (nth_map_lt g _ _ 0%nat) by (rewrite seq_length; auto). rewrite seq_nth by auto. simpl.
    rewrite wrap1_id by lra. exact R2.
Qed.
Lemma transform_inj l u h x x' : Hypercube l u = Ok h -> proper_box l u ->
  length x = length l -> length x' = length l ->
  Forall (fun e => 0 <= e <= 1) x -> Forall (fun e => 0 <= e <= 1) x' ->
  hc_transform h (A1 x) = hc_transform h (A1 x') -> x = x'.
Proof.
  intros Hh (Hlu & Hlt) Hx Hx' Hp Hp' E.
  destruct (transform_affine l u h x Hh Hx Hp) as (y & E1 & Ly & V).
  destruct (transform_affine l u h x' Hh Hx' Hp') as (y' & E2 & Ly' & V').
  rewrite E1, E2 in E. injection E as <-. apply (list_eq_nth x x' 0); [congruence|].
  intros i Hi. rewrite Hx in Hi. specialize (V i Hi). specialize (V' i Hi). specialize (Hlt i Hi).
  unfold edge in *. apply Rmult_eq_reg_r with (nth i u 0 - nth i l 0); lra.
Qed.
Lemma transform_wraps l u h x : Hypercube l u = Ok h -> length x = length l ->
  hc_transform h (A1 x) = hc_transform h (A1 (map (fun e => if Rlt_dec 1 e then e - IZR (Int_part e) else e) x)).
Proof.
  intros Hh Hx. apply Hypercube_ok in Hh as [Hlu ->]. unfold hc_transform. cbn [lb ub].
  destruct (thc_ok x l u Hx (eq_sym Hlu)) as (y & E & Hy & V). rewrite E. symmetry.
  apply thc_eq; auto; try (rewrite map_length; auto). intros i Hi. rewrite V by auto. f_equal. f_equal.
  rewrite (nth_map_lt _ _ _ 0) by congruence. unfold wrap1.
  destruct (Rlt_dec 1 (nth i x 0)) as [L|L].
  - fold (mod1 (nth i x 0)). pose proof (mod1_range (nth i x 0)). destruct (Rlt_dec 1 (mod1 (nth i x 0))); [lra|reflexivity].
  - destruct (Rlt_dec 1 (nth i x 0)); [lra|reflexivity].
Qed.
(** negative coordinates are not wrapped and leave the box *)
Lemma transform_negative l u h x i y : Hypercube l u = Ok h -> proper_box l u -> length x = length l ->
  (i < length l)%nat -> nth i x 0 < 0 -> hc_transform h (A1 x) = Ok (A1 y) -> nth i y 0 < nth i l 0.
Proof.
  intros Hh (Hlu & Hlt) Hx Hi Hn E. apply Hypercube_ok in Hh as [_ ->]. unfold hc_transform in E. cbn [lb ub] in E.
  destruct (thc_ok x l u Hx (eq_sym Hlu)) as (y' & E' & Hy & V). rewrite E in E'. injection E' as <-.
  rewrite V by auto. rewrite wrap1_id by lra. specialize (Hlt i Hi). nra.
Qed.
Lemma transform_bad_dim l u h x : Hypercube l u = Ok h -> length x <> length l -> length x <> 1%nat -> length l <> 1%nat ->
  hc_transform h (A1 x) = Err TypeError.
Proof.
  intros Hh Hx Hx1 Hl1. apply Hypercube_ok in Hh as [Hlu ->]. unfold hc_transform, transform_hypercube, bop, amap. cbn [lb ub].
  rewrite bcast1_eq by auto. cbn [bind]. unfold bcast1 at 1.
  assert (L : length (map2 Rminus u l) = length l) by (rewrite map2_length_eq; congruence).
  rewrite map_length, L. destruct (Nat.eqb_spec (length x) (length l)); [congruence|].
  destruct x as [|a [|b x]]; destruct (map2 Rminus u l) as [|c [|d z]]; simpl in *; try lia; try congruence; reflexivity.
Qed.

(** ** transform_hypercube_bnd *)
Lemma nth_cumsum_from l acc i : (i < length l)%nat -> nth i (cumsum_from acc l) 0 = acc + sumR (firstn (S i) l).
Proof.
  revert acc i; induction l as [|x l IH]; intros acc i Hi; simpl in Hi; [lia|].
  destruct i as [|i]; simpl.
  - unfold sumR. simpl. ring.
  - rewrite IH by lia. simpl. unfold sumR. simpl. ring.
Qed.
Lemma cumsum_length acc l : length (cumsum_from acc l) = length l.
Proof. revert acc; induction l; intros; simpl; auto. Qed.
Lemma nth_cumsum l i : (i < length l)%nat -> nth i (cumsum l) 0 = sumR (firstn (S i) l).
Proof. intros H. unfold cumsum. rewrite nth_cumsum_from by auto. ring. Qed.

Lemma find_true_some {A} (P : A -> bool) l d i : find_true (map P l) = Some i ->
  (i < length l)%nat /\ P (nth i l d) = true /\ forall j, (j < i)%nat -> P (nth j l d) = false.
Proof.
  revert i; induction l as [|x l IH]; intros i H; simpl in H; [discriminate|].
  destruct (P x) eqn:E.
  - injection H as <-. simpl. split; [lia|]. split; auto. intros; lia.
  - destruct (find_true (map P l)) as [k|]; [|discriminate]. injection H as <-.
    destruct (IH k eq_refl) as (H1 & H2 & H3). simpl. split; [lia|]. split; auto.
    intros [|j] Hj; auto. apply H3. lia.
Qed.
Lemma find_true_none {A} (P : A -> bool) l : find_true (map P l) = None -> forall x, In x l -> P x = false.
Proof.
  induction l as [|x l IH]; intros H y Hy; simpl in *; [contradiction|].
  destruct (P x) eqn:E; [discriminate|]. destruct (find_true (map P l)) eqn:F; [discriminate|].
  destruct Hy as [<-|Hy]; auto.
Qed.
Lemma find_true_intro {A} (P : A -> bool) l d i : (i < length l)%nat -> P (nth i l d) = true ->
  (forall j, (j < i)%nat -> P (nth j l d) = false) -> find_true (map P l) = Some i.
Proof.
  revert i; induction l as [|x l IH]; intros i Hi H1 H2; simpl in Hi; [lia|].
  destruct i as [|i]; simpl in *; [rewrite H1; reflexivity|].
  rewrite (H2 0%nat) by lia. rewrite (IH i); auto; [lia|]. intros j Hj. apply (H2 (S j)). lia.
Qed.

(** Cumulative distribution of non-negative weights *)
Definition cdf (s : list R) (k : nat) : R := sumR (firstn k s) / sumR s.
Lemma sumR_firstn_S s k : (k < length s)%nat -> sumR (firstn (S k) s) = sumR (firstn k s) + nth k s 0.
Proof.
  revert k; induction s as [|a s IH]; intros k Hk; simpl in Hk; [lia|].
  destruct k as [|k]; [unfold sumR; simpl; ring|].
  change (firstn (S (S k)) (a :: s)) with (a :: firstn (S k) s).
  change (firstn (S k) (a :: s)) with (a :: firstn k s).
  unfold sumR in *. simpl fold_right. simpl nth.
  change (fold_right Rplus 0 (firstn (S k) s)) with (fold_right Rplus 0 (firstn (S k) s)).
  specialize (IH k ltac:(lia)). simpl in IH |- *. rewrite IH. ring.
Qed.
Lemma cdf_0 s : cdf s 0 = 0.
Proof. unfold cdf, sumR. simpl. unfold Rdiv. ring. Qed.
Lemma cdf_S s k : (k < length s)%nat -> cdf s (S k) = cdf s k + nth k s 0 / sumR s.
Proof. intros H. unfold cdf. rewrite sumR_firstn_S by auto. unfold Rdiv. ring. Qed.
Lemma cdf_end s : 0 < sumR s -> cdf s (length s) = 1.
Proof. intros H. unfold cdf. rewrite firstn_all. field. lra. Qed.
Lemma cdf_mono s j k : Forall (fun a => 0 <= a) s -> 0 < sumR s -> (j <= k <= length s)%nat -> cdf s j <= cdf s k.
Proof.
  intros Hp Ht [Hjk Hk]. induction Hjk as [|k Hjk IH]; [lra|].
  rewrite cdf_S by lia. assert (0 <= nth k s 0 / sumR s).
  { apply Rmult_le_pos; [|apply Rlt_le, Rinv_0_lt_compat; auto]. rewrite Forall_nth in Hp. apply Hp. lia. }
  specialize (IH ltac:(lia)). lra.
Qed.

(** selection by inverse cumulative distribution *)
Definition select (s : list R) (x0 : R) : nat := argmax (map (Rltb x0) (map (fun c => c / sumR s) (cumsum s))).

Lemma nth_cdf s i : (i < length s)%nat -> nth i (map (fun c => c / sumR s) (cumsum s)) 0 = cdf s (S i).
Proof.
  intros H. rewrite (nth_map_lt _ _ _ 0) by (unfold cumsum; rewrite cumsum_length; auto).
  rewrite nth_cumsum by auto. reflexivity.
Qed.
Lemma select_spec s x0 : Forall (fun a => 0 <= a) s -> 0 < sumR s -> 0 <= x0 < 1 ->
  (select s x0 < length s)%nat /\ cdf s (select s x0) <= x0 < cdf s (S (select s x0)).
Proof.
  intros Hp Ht Hx. unfold select, argmax.
  assert (Ls : length (map (fun c => c / sumR s) (cumsum s)) = length s)
    by (rewrite map_length; apply cumsum_length).
  assert (NE : (0 < length s)%nat).
  { destruct s; simpl; [unfold sumR in Ht; simpl in Ht; lra|lia]. }
  destruct (find_true (map (Rltb x0) (map (fun c => c / sumR s) (cumsum s)))) as [i|] eqn:E.
  - apply (find_true_some _ _ 0) in E as (H1 & H2 & H3). rewrite Ls in H1.
    split; auto. rewrite nth_cdf in H2 by auto. apply Rltb_true in H2. split; auto.
    destruct i as [|i]; [rewrite cdf_0; lra|].
    specialize (H3 i ltac:(lia)). rewrite nth_cdf in H3 by lia. apply Rltb_false in H3. auto.
  - exfalso. pose proof (find_true_none _ _ E (cdf s (length s))) as N.
    assert (In (cdf s (length s)) (map (fun c => c / sumR s) (cumsum s))).
    { replace (length s) with (S (length s - 1)) by lia. rewrite <- nth_cdf by lia. apply nth_In. lia. }
    specialize (N H). apply Rltb_false in N. rewrite cdf_end in N by auto. lra.
Qed.
Lemma select_unique s x0 k : Forall (fun a => 0 <= a) s -> 0 < sumR s -> (k < length s)%nat ->
  cdf s k <= x0 < cdf s (S k) -> select s x0 = k.
Proof.
  intros Hp Ht Hk Hx. unfold select, argmax.
  assert (Ls : length (map (fun c => c / sumR s) (cumsum s)) = length s)
    by (rewrite map_length; apply cumsum_length).
  rewrite (find_true_intro _ _ 0 k); auto; [lia| |].
  - rewrite nth_cdf by auto. apply Rltb_true. lra.
  - intros j Hj. rewrite nth_cdf by lia. apply Rltb_false.
    pose proof (cdf_mono s (S j) k Hp Ht ltac:(lia)). lra.
Qed.

(** face supports *)
Lemma prodR_app l m : prodR (l ++ m) = prodR l * prodR m.
Proof. unfold prodR. induction l; simpl; [ring|]. rewrite IHl. ring. Qed.
Lemma prodR_cons a l : prodR (a :: l) = a * prodR l.
Proof. reflexivity. Qed.
Lemma prodR_pos l : Forall (fun a => 0 < a) l -> 0 < prodR l.
Proof. induction 1; unfold prodR in *; simpl; [lra|apply Rmult_lt_0_compat; auto]. Qed.
Lemma prodR_del i l : (i < length l)%nat -> prodR (del i l) * nth i l 0 = prodR l.
Proof.
  intros H. unfold del. rewrite prodR_app.
  rewrite <- (firstn_skipn i l) at 4. rewrite prodR_app. rewrite Rmult_assoc. f_equal.
  revert i H; induction l as [|a l IH]; intros [|i] H; simpl in H; try lia.
  - unfold prodR. simpl. ring.
  - change (skipn (S (S i)) (a :: l)) with (skipn (S i) l).
    change (skipn (S i) (a :: l)) with (skipn i l). change (nth (S i) (a :: l) 0) with (nth i l 0).
    apply IH. lia.
Qed.
Lemma del_length {A} i (l : list A) : (i < length l)%nat -> length (del i l) = (length l - 1)%nat.
Proof. intros H. unfold del. rewrite app_length, firstn_length, skipn_length. lia. Qed.

Lemma edges_abs l u : proper_box l u -> map2 (fun x y => Rabs (x - y)) u l = map2 Rminus u l.
Proof.
  intros (Hl & H). apply (list_eq_nth _ _ 0); [rewrite !map2_length_eq; congruence|].
  intros i Hi. rewrite map2_length_eq in Hi by congruence.
  rewrite (nth_map2 _ _ _ i 0 0) by congruence. rewrite (nth_map2 Rminus _ _ i 0 0) by congruence.
  specialize (H i ltac:(congruence)). apply Rabs_right. lra.
Qed.
Lemma edges_pos l u : proper_box l u -> Forall (fun a => 0 < a) (map2 Rminus u l).
Proof.
  intros (Hl & H). apply Forall_nth. intros i d Hi. rewrite map2_length_eq in Hi by congruence.
  rewrite (nth_indep _ d 0) by (rewrite map2_length_eq; congruence).
  rewrite (nth_map2 Rminus _ _ i 0 0) by congruence. specialize (H i ltac:(congruence)). lra.
Qed.

Lemma face_supports_length l u : length l = length u -> length (face_supports l u) = length l.
Proof. intros H. unfold face_supports. rewrite map_length, seq_length, map2_length_eq; congruence. Qed.
Lemma face_supports_nth l u i : proper_box l u -> (i < length l)%nat ->
  nth i (face_supports l u) 0 = prodR (map2 Rminus u l) / edge l u i.
Proof.
  intros Hb Hi. destruct Hb as (Hl & H). unfold face_supports. rewrite edges_abs by (split; auto).
  assert (L : length (map2 Rminus u l) = length l) by (rewrite map2_length_eq; congruence).
  rewrite (nth_map_lt _ _ _ 0%nat) by (rewrite seq_length, L; auto). rewrite seq_nth by (rewrite L; auto). simpl.
  assert (E : nth i (map2 Rminus u l) 0 = edge l u i).
  { rewrite (nth_map2 Rminus _ _ i 0 0) by congruence. reflexivity. }
  rewrite <- (prodR_del i (map2 Rminus u l)) by (rewrite L; auto). rewrite E.
  field. unfold edge. specialize (H i Hi). lra.
Qed.
Definition weights (l u : list R) : list R := face_supports l u ++ face_supports l u.
Lemma weights_length l u : length l = length u -> length (weights l u) = (length l + length l)%nat.
Proof. intros H. unfold weights. rewrite app_length, face_supports_length; auto. Qed.
Lemma weights_nth l u k : proper_box l u -> (k < 2 * length l)%nat -> nth k (weights l u) 0 = face_area l u k.
Proof.
  intros Hb Hk. unfold weights, face_area, face_axis. pose proof (proj1 Hb) as Hl.
  pose proof (face_supports_length l u Hl) as L.
  destruct (Nat.lt_ge_cases k (length l)) as [C|C].
  - rewrite app_nth1 by (rewrite L; auto). rewrite Nat.mod_small by auto. apply face_supports_nth; auto.
  - rewrite app_nth2 by (rewrite L; auto). rewrite L.
    replace k with (k - length l + 1 * length l)%nat at 2 by lia. rewrite Nat.mod_add by lia.
    rewrite Nat.mod_small by lia. apply face_supports_nth; auto. lia.
Qed.
Lemma face_area_pos l u k : proper_box l u -> l <> [] -> 0 < face_area l u k.
Proof.
  intros Hb Hne. unfold face_area. apply Rdiv_lt_0_compat.
  - apply prodR_pos, edges_pos; auto.
  - unfold edge. destruct Hb as (Hl & H).
    assert (face_axis (length l) k < length l)%nat.
    { unfold face_axis. apply Nat.mod_upper_bound. destruct l; simpl; [congruence|lia]. }
    specialize (H _ H0). lra.
Qed.
Lemma weights_pos l u : proper_box l u -> l <> [] -> Forall (fun a => 0 < a) (weights l u).
Proof.
  intros Hb Hne. apply Forall_nth. intros i d Hi. rewrite (nth_indep _ d 0) by auto.
  rewrite weights_length in Hi by apply Hb. rewrite weights_nth by (auto; lia). apply face_area_pos; auto.
Qed.
Lemma sumR_pos l : Forall (fun a => 0 < a) l -> l <> [] -> 0 < sumR l.
Proof.
  intros H. induction H as [|a l Ha H IH]; intros Hne; [congruence|]. unfold sumR in *; simpl.
  destruct l; simpl in *; [lra|]. assert (0 < r + fold_right Rplus 0 l) by (apply IH; discriminate). lra.
Qed.
Lemma weights_facts l u : proper_box l u -> l <> [] ->
  Forall (fun a => 0 <= a) (weights l u) /\ 0 < sumR (weights l u) /\ length (weights l u) = (2 * length l)%nat.
Proof.
  intros Hb Hne. pose proof (weights_pos l u Hb Hne) as P.
  assert (L : length (weights l u) = (2 * length l)%nat) by (rewrite weights_length by apply Hb; lia).
  split; [eapply Forall_impl; [|exact P]; intros; simpl in *; lra|]. split; auto.
  apply sumR_pos; auto. intros C. rewrite C in L. destruct l; simpl in *; [congruence|lia].
Qed.

Lemma insert_rules_ok l u : proper_box l u -> l <> [] ->
  insert_rules l u = Ok (map (fun c => c / sumR (weights l u)) (weights l u),
    map (fun c => c / sumR (weights l u)) (cumsum (weights l u)),
    repeat 0 (length l) ++ repeat 1 (length l)).
Proof.
  intros Hb Hne. destruct (weights_facts l u Hb Hne) as (_ & Ht & _).
  unfold insert_rules. fold (weights l u).
  rewrite (sequence_map_ext _ (fun c => c / sumR (weights l u))) by (intros; apply fdiv_ok; lra). cbn [bind].
  rewrite (sequence_map_ext _ (fun c => c / sumR (weights l u))) by (intros; apply fdiv_ok; lra). reflexivity.
Qed.

Lemma nth_repeat_lt {A} (v : A) n i d : (i < n)%nat -> nth i (repeat v n) d = v.
Proof. revert i; induction n; intros [|i] H; simpl; auto; try lia. apply IHn; lia. Qed.
Lemma bnd_insert_ok l u x0 xs : proper_box l u -> l <> [] -> 0 <= x0 < 1 ->
  let s := weights l u in let k := select s x0 in
  bnd_insert (length l) (map (fun c => c / sumR s) s) (map (fun c => c / sumR s) (cumsum s))
     (repeat 0 (length l) ++ repeat 1 (length l)) (x0 :: xs) =
  Ok (insert_at (face_axis (length l) k) (if Nat.ltb k (length l) then 0 else 1)
        ((x0 - cdf s k) / (nth k s 0 / sumR s) :: xs)) /\
  (k < 2 * length l)%nat /\ 0 <= (x0 - cdf s k) / (nth k s 0 / sumR s) < 1.
Proof.
  intros Hb Hne Hx s k. destruct (weights_facts l u Hb Hne) as (Hp & Ht & L). fold s in Hp, Ht, L.
  destruct (select_spec s x0 Hp Ht Hx) as [Hk HC]. fold k in Hk, HC. rewrite L in Hk.
  pose proof (cdf_S s k ltac:(lia)) as CS.
  assert (PW : 0 < nth k s 0).
  { pose proof (weights_pos l u Hb Hne) as P. rewrite Forall_nth in P. apply P. fold s. lia. }
  assert (PQ : 0 < nth k s 0 / sumR s) by (apply Rdiv_lt_0_compat; auto).
  split; [|split; auto].
  - unfold bnd_insert. fold (select s x0). fold k.
    rewrite (nth_map_lt _ _ _ 0) by lia.
    assert (EX : (if Nat.eqb k 0 then fdiv x0 (nth k s 0 / sumR s)
                  else fdiv (x0 - nth (k - 1) (map (fun c => c / sumR s) (cumsum s)) 0) (nth k s 0 / sumR s))
                 = Ok ((x0 - cdf s k) / (nth k s 0 / sumR s))).
    { destruct (Nat.eqb_spec k 0) as [E|E].
      - rewrite fdiv_ok by lra. do 2 f_equal. rewrite E, cdf_0. ring.
      - rewrite fdiv_ok by lra. do 2 f_equal. rewrite nth_cdf by lia. do 2 f_equal. lia. }
    rewrite EX. cbn [bind upd]. f_equal. unfold face_axis. f_equal.
    destruct (Nat.ltb_spec k (length l)) as [C|C].
    + rewrite app_nth1 by (rewrite repeat_length; auto). apply nth_repeat.
    + rewrite app_nth2 by (rewrite repeat_length; auto). rewrite repeat_length.
      apply nth_repeat_lt. lia.
  - split.
    + apply Rmult_le_pos; [lra|apply Rlt_le, Rinv_0_lt_compat; auto].
    + apply Rmult_lt_reg_r with (nth k s 0 / sumR s); auto.
      replace ((x0 - cdf s k) / (nth k s 0 / sumR s) * (nth k s 0 / sumR s)) with (x0 - cdf s k) by (field; split; lra).
      lra.
Qed.

Lemma insert_at_length {A} i (v : A) l : (i <= length l)%nat -> length (insert_at i v l) = S (length l).
Proof. intros H. unfold insert_at. rewrite app_length. simpl. rewrite firstn_length, skipn_length. lia. Qed.
Lemma insert_at_nth_eq {A} i (v : A) l d : (i <= length l)%nat -> nth i (insert_at i v l) d = v.
Proof.
  intros H. unfold insert_at. rewrite app_nth2; rewrite firstn_length_le by auto; [|lia].
  replace (i - i)%nat with 0%nat by lia. reflexivity.
Qed.
Lemma insert_at_Forall {A} (P : A -> Prop) i v l : P v -> Forall P l -> Forall P (insert_at i v l).
Proof.
  intros Hv Hl. unfold insert_at. apply Forall_app. split; [|constructor; auto].
  - rewrite <- (firstn_skipn i l) in Hl. apply Forall_app in Hl. tauto.
  - rewrite <- (firstn_skipn i l) in Hl. apply Forall_app in Hl. tauto.
Qed.
Lemma insert_del {A} i (l : list A) d : (i < length l)%nat -> insert_at i (nth i l d) (del i l) = l.
Proof.
  intros H. unfold insert_at, del.
  rewrite firstn_app, firstn_firstn, firstn_length_le by lia. replace (i - i)%nat with 0%nat by lia.
  rewrite Nat.min_id. simpl. rewrite app_nil_r.
  rewrite skipn_app, firstn_length_le by lia. replace (i - i)%nat with 0%nat by lia. simpl.
  rewrite skipn_all2 by (rewrite firstn_length; lia). simpl.
  rewrite <- (firstn_skipn i l) at 4. f_equal. clear - H. revert i H. induction l as [|a l IH]; intros [|i] H; simpl in *; try lia; auto.
  apply IH. lia.
Qed.

Lemma bnd_unfold l u h x : Hypercube l u = Ok h -> proper_box l u -> (2 <= length l)%nat ->
  length x = (length l - 1)%nat ->
  exists x0 xs, map mod1 x = x0 :: xs /\ 0 <= x0 < 1 /\ length (x0 :: xs) = (length l - 1)%nat /\
  let s := weights l u in let k := select s x0 in
  let z := (x0 - cdf s k) / (nth k s 0 / sumR s) :: xs in
  let w := insert_at (face_axis (length l) k) (if Nat.ltb k (length l) then 0 else 1) z in
  hc_transform_bnd h (A1 x) = transform_hypercube (A1 w) l u /\
  (k < 2 * length l)%nat /\ length w = length l /\ Forall (fun e => 0 <= e < 1) z.
Proof.
  intros Hh Hb Hd Hx. apply Hypercube_ok in Hh as [Hlu ->].
  assert (Hne : l <> []) by (destruct l; simpl in *; [lia|discriminate]).
  destruct (map mod1 x) as [|x0 xs] eqn:Ex.
  { apply (f_equal (@length R)) in Ex. rewrite map_length in Ex. simpl in Ex. lia. }
  assert (FM : Forall (fun e => 0 <= e < 1) (x0 :: xs)).
  { rewrite <- Ex. apply Forall_forall. intros e He. apply in_map_iff in He as (y & <- & _). apply mod1_range. }
  inversion FM as [|? ? H0 HF]; subst. exists x0, xs. split; auto. split; auto.
  assert (LX : length (x0 :: xs) = (length l - 1)%nat) by (rewrite <- Ex, map_length; auto).
  split; auto. intros s k z w.
  destruct (bnd_insert_ok l u x0 xs Hb Hne H0) as (E & Hk & Hz). fold s in E, Hk, Hz. fold k in E, Hk, Hz.
  unfold hc_transform_bnd, transform_hypercube_bnd. cbn [lb ub amap]. rewrite Ex. cbn [ravel].
  rewrite Hlu at 1. rewrite Nat.eqb_refl. cbn [assert_ bind].
  destruct (Nat.eqb_spec (length l) 1); [lia|]. rewrite LX, Nat.eqb_refl. cbn [assert_ bind].
  rewrite insert_rules_ok by auto. cbn [bind]. fold s. rewrite E. cbn [bind]. fold z. fold w.
  assert (Hax : (face_axis (length l) k < length l)%nat) by (apply Nat.mod_upper_bound; lia).
  split; [reflexivity|]. split; auto. split.
  - unfold w. rewrite insert_at_length; simpl in *; lia.
  - constructor; auto.
Qed.

(** C24, image on the boundary, on the selected face *)
Lemma bnd_on_face l u h x : Hypercube l u = Ok h -> proper_box l u -> (2 <= length l)%nat ->
  length x = (length l - 1)%nat ->
  exists y k, hc_transform_bnd h (A1 x) = Ok (A1 y) /\ (k < 2 * length l)%nat /\ on_face l u k y /\
    cdf (weights l u) k <= mod1 (nth 0 x 0) < cdf (weights l u) (S k).
Proof.
  intros Hh Hb Hd Hx. destruct (bnd_unfold l u h x Hh Hb Hd Hx) as (x0 & xs & Ex & Hx0 & LX & H).
  cbv zeta in H. destruct H as (E & Hk & Lw & Hz).
  set (s := weights l u) in *. set (k := select s x0) in *.
  set (z := (x0 - cdf s k) / (nth k s 0 / sumR s) :: xs) in *.
  set (w := insert_at (face_axis (length l) k) (if Nat.ltb k (length l) then 0 else 1) z) in *.
  assert (Hne : l <> []) by (destruct l; simpl in *; [lia|discriminate]).
  pose proof (proj1 Hb) as Hlu.
  destruct (thc_ok w l u Lw (eq_sym Hlu)) as (y & Ey & Ly & V).
  assert (FW : Forall (fun e => 0 <= e <= 1) w).
  { unfold w. apply insert_at_Forall.
    - destruct (Nat.ltb k (length l)); lra.
    - eapply Forall_impl; [|exact Hz]. intros; simpl in *; lra. }
  exists y, k. rewrite E. split; auto. split; auto.
  assert (Hax : (face_axis (length l) k < length l)%nat) by (apply Nat.mod_upper_bound; lia).
  split; [split|].
  - split; [congruence|]. split; [congruence|]. intros i Hi. rewrite Ly in Hi. rewrite V by auto.
    assert (W : 0 <= nth i w 0 <= 1).
    { rewrite Forall_nth in FW. apply FW. lia. }
    rewrite wrap1_id by lra. pose proof (proj2 Hb i Hi). nra.
  - rewrite V by auto. unfold w. rewrite insert_at_nth_eq by (unfold z; simpl in *; lia).
    destruct (Nat.ltb k (length l)); rewrite wrap1_id by lra; ring.
  - assert (EM : mod1 (nth 0 x 0) = x0).
    { destruct x as [|a x]; simpl in Ex; [discriminate|]. injection Ex as E0 _. exact E0. }
    rewrite EM. destruct (weights_facts l u Hb Hne) as (Hp & Ht & L). apply select_spec; auto.
Qed.

(** the interval of first coordinates that selects face k *)
Lemma bnd_selected l u h x k y : Hypercube l u = Ok h -> proper_box l u -> (2 <= length l)%nat ->
  length x = (length l - 1)%nat -> (k < 2 * length l)%nat ->
  cdf (weights l u) k <= mod1 (nth 0 x 0) < cdf (weights l u) (S k) ->
  hc_transform_bnd h (A1 x) = Ok (A1 y) -> on_face l u k y.
Proof.
  intros Hh Hb Hd Hx Hk HC E. destruct (bnd_on_face l u h x Hh Hb Hd Hx) as (y' & k' & E' & Hk' & HF & HC').
  rewrite E in E'. injection E' as <-.
  assert (Hne : l <> []) by (destruct l; simpl in *; [lia|discriminate]).
  destruct (weights_facts l u Hb Hne) as (Hp & Ht & L).
  rewrite <- (select_unique _ _ k Hp Ht ltac:(lia) HC).
  rewrite (select_unique _ _ k' Hp Ht ltac:(lia) HC'). auto.
Qed.

Lemma sum_faces l u : proper_box l u ->
  sumR (weights l u) = sumR (map (face_area l u) (seq 0 (2 * length l))).
Proof.
  intros Hb. f_equal. apply (list_eq_nth _ _ 0).
  - rewrite map_length, seq_length, weights_length by apply Hb. lia.
  - intros i Hi. rewrite weights_length in Hi by apply Hb. rewrite weights_nth by (auto; lia).
    rewrite (nth_map_lt _ _ _ 0%nat) by (rewrite seq_length; lia). rewrite seq_nth by lia. reflexivity.
Qed.

Lemma bnd_intervals l u : proper_box l u -> (2 <= length l)%nat ->
  exists c : nat -> R, c 0%nat = 0 /\ c (2 * length l)%nat = 1 /\
  (forall k, (k < 2 * length l)%nat ->
     c (S k) - c k = face_area l u k / sumR (map (face_area l u) (seq 0 (2 * length l))) /\ c k < c (S k)) /\
  (forall h x k y, Hypercube l u = Ok h -> length x = (length l - 1)%nat -> (k < 2 * length l)%nat ->
     c k <= mod1 (nth 0 x 0) < c (S k) -> hc_transform_bnd h (A1 x) = Ok (A1 y) -> on_face l u k y).
Proof.
  intros Hb Hd. assert (Hne : l <> []) by (destruct l; simpl in *; [lia|discriminate]).
  destruct (weights_facts l u Hb Hne) as (Hp & Ht & L).
  exists (cdf (weights l u)). split; [apply cdf_0|]. split; [rewrite <- L; apply cdf_end; auto|]. split.
  - intros k Hk. rewrite cdf_S by lia. rewrite weights_nth by auto. rewrite <- sum_faces by auto.
    assert (0 < face_area l u k / sumR (weights l u)) by (apply Rdiv_lt_0_compat; auto; apply face_area_pos; auto).
    lra.
  - intros h x k y Hh Hx Hk HC E. eapply bnd_selected; eauto.
Qed.

(** C24, onto *)
Lemma bnd_onto l u h y i upper : Hypercube l u = Ok h -> proper_box l u -> (2 <= length l)%nat ->
  length y = length l -> (i < length l)%nat ->
  nth i y 0 = nth i (if upper : bool then u else l) 0 ->
  (forall j, (j < length l)%nat -> j <> i -> nth j l 0 <= nth j y 0 < nth j u 0) ->
  exists x, length x = (length l - 1)%nat /\ Forall (fun e => 0 <= e < 1) x /\
    hc_transform_bnd h (A1 x) = Ok (A1 y).
Proof.
  intros Hh Hb Hd Hy Hi Hyi Hyj.
  assert (Hne : l <> []) by (destruct l; simpl in *; [lia|discriminate]).
  destruct (weights_facts l u Hb Hne) as (Hp & Ht & L). pose proof (proj1 Hb) as Hlu.
  set (d := length l) in *. set (s := weights l u) in *.
  set (k := if upper then (d + i)%nat else i).
  assert (Hk : (k < 2 * d)%nat) by (unfold k; destruct upper; lia).
  assert (Hax : face_axis d k = i).
  { unfold face_axis, k. destruct upper; [|apply Nat.mod_small; auto].
    replace (d + i)%nat with (i + 1 * d)%nat by lia. rewrite Nat.mod_add by lia. apply Nat.mod_small; auto. }
  assert (Hkb : Nat.ltb k d = negb upper).
  { unfold k. destruct upper; simpl; [apply Nat.ltb_ge|apply Nat.ltb_lt]; lia. }
  set (n := map (fun j => (nth j y 0 - nth j l 0) / edge l u j) (seq 0 d)).
  assert (Ln : length n = d) by (unfold n; rewrite map_length, seq_length; auto).
  assert (Vn : forall j, (j < d)%nat -> nth j n 0 = (nth j y 0 - nth j l 0) / edge l u j).
  { intros j Hj. unfold n. rewrite (nth_map_lt _ _ _ 0%nat) by (rewrite seq_length; auto).
    rewrite seq_nth by auto. reflexivity. }
  assert (Edge : forall j, (j < d)%nat -> 0 < edge l u j).
  { intros j Hj. unfold edge. pose proof (proj2 Hb j Hj). lra. }
  assert (Rn : forall j, (j < d)%nat -> j <> i -> 0 <= nth j n 0 < 1).
  { intros j Hj Hji. rewrite Vn by auto. specialize (Edge j Hj). specialize (Hyj j Hj Hji). split.
    - apply Rmult_le_pos; [lra|apply Rlt_le, Rinv_0_lt_compat; auto].
    - apply Rmult_lt_reg_r with (edge l u j); auto. unfold Rdiv. rewrite Rmult_assoc, Rinv_l by lra.
      unfold edge in *. lra. }
  assert (Ni : nth i n 0 = if upper then 1 else 0).
  { rewrite Vn by auto. rewrite Hyi. specialize (Edge i Hi). unfold edge in *. destruct upper.
    - field. lra.
    - unfold Rdiv. ring. }
  assert (FD : Forall (fun e => 0 <= e < 1) (del i n)).
  { unfold del. apply Forall_app. split; apply Forall_nth; intros j dd Hj.
    - rewrite firstn_length in Hj. rewrite (nth_indep _ dd 0) by (rewrite firstn_length; auto).
      rewrite <- (firstn_skipn i n) in Rn.
      specialize (Rn j ltac:(lia) ltac:(lia)). rewrite app_nth1 in Rn by (rewrite firstn_length; auto). exact Rn.
    - rewrite skipn_length in Hj. rewrite (nth_indep _ dd 0) by (rewrite skipn_length; auto).
      specialize (Rn (S i + j)%nat ltac:(lia) ltac:(lia)).
      rewrite <- (firstn_skipn (S i) n) in Rn. rewrite app_nth2 in Rn by (rewrite firstn_length; lia).
      rewrite firstn_length_le in Rn by lia. replace (S i + j - S i)%nat with j in Rn by lia. exact Rn. }
  pose proof (del_length i n ltac:(lia)) as LD. rewrite Ln in LD.
  destruct (del i n) as [|z0 zs] eqn:ED; [simpl in LD; lia|].
  pose proof (Forall_inv FD) as Hz0. pose proof (Forall_inv_tail FD) as Hzs. cbv beta in Hz0.
  pose proof (cdf_S s k ltac:(lia)) as CS.
  assert (PW : 0 < nth k s 0).
  { pose proof (weights_pos l u Hb Hne) as P. rewrite Forall_nth in P. apply P. fold s. lia. }
  assert (PQ : 0 < nth k s 0 / sumR s) by (apply Rdiv_lt_0_compat; auto).
  set (x0 := cdf s k + z0 * (nth k s 0 / sumR s)).
  assert (Hx0 : cdf s k <= x0 < cdf s (S k)) by (unfold x0; rewrite CS; nra).
  assert (R0 : 0 <= x0 < 1).
  { pose proof (cdf_mono s 0 k Hp Ht ltac:(lia)) as M1. rewrite cdf_0 in M1.
    pose proof (cdf_mono s (S k) (length s) Hp Ht ltac:(lia)) as M2. rewrite cdf_end in M2 by auto. lra. }
  exists (x0 :: zs). split; [simpl in *; lia|]. split; [constructor; auto|].
  destruct (bnd_unfold l u h (x0 :: zs) Hh Hb Hd) as (a & xs & Ex & _ & _ & H); [simpl in *; lia|].
  cbv zeta in H. destruct H as (E & _ & Lw & _). rewrite E.
  assert (Ea : a = x0 /\ xs = zs).
  { simpl in Ex. rewrite mod1_id in Ex by auto. injection Ex as <- E2. split; auto. rewrite <- E2.
    clear - Hzs. induction Hzs; simpl; f_equal; auto. apply mod1_id; auto. }
  destruct Ea as [-> ->]. fold s. fold s in Lw, E.
  rewrite (select_unique s x0 k Hp Ht ltac:(lia) Hx0) in Lw |- *.
  assert (Ez : (x0 - cdf s k) / (nth k s 0 / sumR s) = z0) by (unfold x0; field; split; lra).
  rewrite Ez in Lw |- *.
  fold d. fold d in Lw. rewrite Hax, Hkb in Lw |- *. rewrite <- ED in Lw |- *.
  assert (En : (if negb upper then 0 else 1) = nth i n 0) by (rewrite Ni; destruct upper; reflexivity).
  rewrite En in Lw |- *.
  rewrite insert_del in Lw |- * by lia.
  apply thc_eq; auto. intros j Hj. fold d in Hj. specialize (Edge j Hj). rewrite Vn by auto.
  rewrite wrap1_id.
  - unfold edge in *. field. lra.
  - rewrite <- Vn by auto. destruct (Nat.eq_dec j i) as [->|C]; [rewrite Ni; destruct upper; lra|].
    specialize (Rn j Hj C). lra.
Qed.

(** dimension 1 *)
Lemma bnd_dim1 a b h x : Hypercube [a] [b] = Ok h ->
  hc_transform_bnd h (A1 [x]) = Ok (A1 [if Rlt_dec (1 / 2) (mod1 x) then b else a]).
Proof.
  intros Hh. apply Hypercube_ok in Hh as [_ ->]. unfold hc_transform_bnd, transform_hypercube_bnd. cbn.
  unfold wrap1. destruct (Rlt_dec (1 / 2) (mod1 x)); (destruct (Rlt_dec 1 _); [lra|]); do 3 f_equal; ring.
Qed.
Lemma bnd_bad_dim l u h x : Hypercube l u = Ok h -> length l <> 1%nat -> length x <> (length l - 1)%nat ->
  hc_transform_bnd h (A1 x) = Err AssertionError.
Proof.
  intros Hh Hd Hx. apply Hypercube_ok in Hh as [Hlu ->]. unfold hc_transform_bnd, transform_hypercube_bnd. cbn [lb ub amap ravel].
  rewrite Hlu at 1. rewrite Nat.eqb_refl. cbn [assert_ bind].
  destruct (Nat.eqb_spec (length l) 1); [lia|]. rewrite map_length.
  destruct (Nat.eqb_spec (length x) (length l - 1)); [congruence|]. reflexivity.
Qed.
