(** Proofs about parallelograms, polylines and triangles in domain.py. *)
From Coquelicot Require Import Coquelicot.
From Verif Require Import Base BaseFacts M_RFun S_RFun P_Vec M_Domain S_Domain P_Domain1 P_Domain3.

(** *** affine_plane *)
Lemma det3_nz : det3 (mk3 0 1 0) (mk3 0 0 1) (mk3 1 1 1) <> 0.
Proof. unfold det3, dot3, cross3. simpl. lra. Qed.
Lemma solve_ref a b c : solve3 (mk3 0 0 1) (mk3 1 0 1) (mk3 0 1 1) (mk3 a b c) = Ok (mk3 (b - a) (c - a) a).
Proof.
  unfold solve3, col. cbn [v1 v2 v3]. pose proof det3_nz as D. rewrite !fdiv_ok by auto. cbn [bind].
  f_equal. unfold det3, dot3, cross3 in *. simpl in *. f_equal; field; lra.
Qed.
(** solve3 solves every regular system and its solution is the only one *)
Lemma solve3_correct r1 r2 r3 y :
  det3 (col v1 r1 r2 r3) (col v2 r1 r2 r3) (col v3 r1 r2 r3) <> 0 ->
  exists x, solve3 r1 r2 r3 y = Ok x /\
    (forall z, (dot3 r1 z = v1 y /\ dot3 r2 z = v2 y /\ dot3 r3 z = v3 y) <-> z = x).
Proof.
  intros H. unfold solve3. rewrite !fdiv_ok by auto. cbn [bind]. eexists; split; [reflexivity|].
  intros [z1 z2 z3]. split.
  - intros (E1 & E2 & E3). destruct r1 as [a1 a2 a3], r2 as [b1 b2 b3], r3 as [c1 c2 c3], y as [y1 y2 y3].
    unfold det3, dot3, cross3, col in *. simpl in *. subst y1 y2 y3. f_equal; field; auto.
  - intros E. injection E as -> -> ->. destruct r1 as [a1 a2 a3], r2 as [b1 b2 b3], r3 as [c1 c2 c3], y as [y1 y2 y3].
    unfold det3, dot3, cross3, col in *. simpl in *. repeat split; field; auto.
Qed.

Lemma map2_map2_pair {A} (f : A -> A -> A -> R) (a b c : list A) :
  map2 (fun ab z => f (fst ab) (snd ab) z) (map2 pair a b) c =
  map (fun t => f (fst (fst t)) (snd (fst t)) (snd t)) (map2 pair (map2 pair a b) c).
Proof. revert b c; induction a as [|x a IH]; intros [|y b] [|z c]; simpl; auto. f_equal; auto. Qed.

Lemma affine_plane_ok a b c : length b = length a -> length c = length a ->
  affine_plane a b c = Ok (map2 pair (vsub b a) (vsub c a), a).
Proof.
  intros Hb Hc. unfold affine_plane.
  assert (E : forall a b c, length b = length a -> length c = length a ->
     sequence (map2 (fun ab z => solve3 (mk3 0 0 1) (mk3 1 0 1) (mk3 0 1 1) (mk3 (fst ab) (snd ab) z)) (map2 pair a b) c)
     = Ok (map2 (fun ab z => mk3 (snd ab - fst ab) (z - fst ab) (fst ab)) (map2 pair a b) c)).
  { clear. induction a as [|x a IH]; intros [|y b] [|z c] Hb Hc; simpl in *; try lia; auto.
    rewrite solve_ref. cbn [bind]. rewrite IH by lia. reflexivity. }
  rewrite E by auto. cbn [bind]. do 2 f_equal; clear E.
  - revert b c Hb Hc; induction a as [|x a IH]; intros [|y b] [|z c] Hb Hc; simpl in *; try lia; auto. f_equal. apply IH; lia.
  - revert b c Hb Hc; induction a as [|x a IH]; intros [|y b] [|z c] Hb Hc; simpl in *; try lia; auto. f_equal. apply IH; lia.
Qed.
Lemma affine_at_nth B o s t i : length B = length o -> (i < length o)%nat ->
  nth i (affine_at B o s t) 0 = fst (nth i B (0, 0)) * s + snd (nth i B (0, 0)) * t + nth i o 0.
Proof. intros L Hi. unfold affine_at. rewrite (nth_map2 _ _ _ i (0, 0) 0) by lia. reflexivity. Qed.
Lemma affine_at_length B o s t : length B = length o -> length (affine_at B o s t) = length o.
Proof. intros. unfold affine_at. rewrite map2_length_eq; auto. Qed.
Lemma affine_plane_at a b c s t : length b = length a -> length c = length a ->
  affine_at (map2 pair (vsub b a) (vsub c a)) a s t = vadd a (vadd (vscal s (vsub b a)) (vscal t (vsub c a))).
Proof.
  intros Hb Hc.
  assert (L : length (map2 pair (vsub b a) (vsub c a)) = length a) by (rewrite map2_length_eq; vlen).
  apply vec_ext; [rewrite affine_at_length by auto; vlen|].
  rewrite affine_at_length by auto. intros i Hi. rewrite affine_at_nth by auto.
  rewrite (nth_map2 _ _ _ i 0 0) by vlen. cbn [fst snd]. vnth. ring.
Qed.
Lemma affine_plane_unique a b c B o : length b = length a -> length c = length a ->
  length B = length a -> length o = length a ->
  affine_at B o 0 0 = a -> affine_at B o 1 0 = b -> affine_at B o 0 1 = c ->
  affine_plane a b c = Ok (B, o).
Proof.
  intros Hb Hc HB Ho Ea Eb Ec. rewrite affine_plane_ok by auto.
  assert (L : length B = length o) by congruence.
  assert (EO : forall i, (i < length a)%nat -> nth i o 0 = nth i a 0 /\ fst (nth i B (0, 0)) = nth i b 0 - nth i a 0 /\
              snd (nth i B (0, 0)) = nth i c 0 - nth i a 0).
  { intros i Hi. rewrite <- Ho in Hi. rewrite <- Ea, <- Eb, <- Ec. rewrite !affine_at_nth by auto. repeat split; ring. }
  do 2 f_equal.
  - apply (list_eq_nth _ _ (0, 0)); [rewrite map2_length_eq; vlen|].
    rewrite map2_length_eq by vlen. rewrite vsub_length by auto. rewrite Hb. intros i Hi.
    rewrite (nth_map2 _ _ _ i 0 0) by vlen. rewrite !nth_vsub by auto.
    destruct (EO i Hi) as (_ & F & S). rewrite <- F, <- S. destruct (nth i B (0, 0)); reflexivity.
  - apply vec_ext; [congruence|]. intros i Hi. symmetry. apply EO; auto.
Qed.

Lemma Parallelogram_ok a b c p : Parallelogram a b c = Ok p ->
  length b = length a /\ length c = length a /\ p = mkPar a b c (map2 pair (vsub b a) (vsub c a)).
Proof.
  unfold Parallelogram, assert_. destruct (Nat.eqb_spec (length a) (length b)); [|discriminate].
  destruct (Nat.eqb_spec (length b) (length c)); [|discriminate]. cbn [andb bind].
  rewrite affine_plane_ok by lia. cbn [bind fst]. intros H. injection H as <-. repeat split; lia.
Qed.
Lemma Parallelogram_def a b c : length b = length a -> length c = length a -> exists p, Parallelogram a b c = Ok p.
Proof.
  intros Hb Hc. unfold Parallelogram. rewrite Hb, Hc, Nat.eqb_refl. cbn. rewrite affine_plane_ok by auto. eexists; reflexivity.
Qed.
Lemma Parallelogram_rejects a b c : ~ (length a = length b /\ length b = length c) -> Parallelogram a b c = Err AssertionError.
Proof.
  intros H. unfold Parallelogram, assert_. destruct (Nat.eqb_spec (length a) (length b)); [|reflexivity].
  destruct (Nat.eqb_spec (length b) (length c)); [|reflexivity]. tauto.
Qed.
Lemma par_transform_ok a b c p s t : Parallelogram a b c = Ok p -> 0 <= s <= 1 -> 0 <= t <= 1 ->
  par_transform p (A1 [s; t]) = Ok (vadd a (vadd (vscal s (vsub b a)) (vscal t (vsub c a)))).
Proof.
  intros H Hs Ht. apply Parallelogram_ok in H as (Hb & Hc & ->). unfold par_transform. cbn [pB pa].
  rewrite !wrap1_id by lra. f_equal. apply affine_plane_at; auto.
Qed.

(** support *)
Lemma gram_nonneg u v : length u = length v -> 0 <= dotR u u * dotR v v - dotR u v * dotR v u.
Proof. intros H. rewrite (dotR_comm v u), !dotR_self. pose proof (cauchy_schwarz u v H). lra. Qed.
Lemma par_support_ok a b c p : Parallelogram a b c = Ok p ->
  exists A, par_support p = Ok A /\ 0 <= A /\
    A ^ 2 = dotR (vsub b a) (vsub b a) * dotR (vsub c a) (vsub c a) - dotR (vsub b a) (vsub c a) ^ 2.
Proof.
  intros H. apply Parallelogram_ok in H as (Hb & Hc & ->). unfold par_support. cbn [pa pb pc].
  change (map2 Rminus b a) with (vsub b a). change (map2 Rminus c a) with (vsub c a).
  assert (G : 0 <= dotR (vsub b a) (vsub b a) * dotR (vsub c a) (vsub c a) - dotR (vsub b a) (vsub c a) * dotR (vsub c a) (vsub b a))
    by (apply gram_nonneg; vlen).
  rewrite fsqrt_ok by auto. eexists; split; [reflexivity|]. split; [apply sqrt_pos|].
  rewrite pow2_sqrt by auto. rewrite (dotR_comm (vsub c a) (vsub b a)). ring.
Qed.
Lemma par_support_3d a b c p : Parallelogram (list3 a) (list3 b) (list3 c) = Ok p ->
  par_support p = Ok (norm3 (cross3 (vsub3 b a) (vsub3 c a))).
Proof.
  intros H. apply Parallelogram_ok in H as (_ & _ & ->). unfold par_support. cbn [pa pb pc].
  destruct a as [a1 a2 a3], b as [b1 b2 b3], c as [c1 c2 c3]. unfold list3. cbn [v1 v2 v3].
  rewrite fsqrt_ok by (apply gram_nonneg; reflexivity). f_equal. unfold norm3. f_equal.
  unfold dotR, sumR, dot3, cross3, vsub3. simpl. ring.
Qed.

(** *** polylines *)
Lemma dist_comm x y : length x = length y -> dist x y = dist y x.
Proof.
  intros H. unfold dist. replace (vsub x y) with (vscal (-1) (vsub y x)) by vec.
  unfold vscal. rewrite normR_scal. rewrite Rabs_left by lra. ring.
Qed.
Lemma dist_nonneg x y : 0 <= dist x y.
Proof. apply normR_nonneg. Qed.
Lemma segments_cons p q rest : segments (p :: q :: rest) = dist q p :: segments (q :: rest).
Proof. reflexivity. Qed.
Lemma polyline_length_sum p rest : sumR (segments (p :: rest)) = polyline_length p rest.
Proof.
  revert p; induction rest as [|q rest IH]; intros p; [reflexivity|].
  rewrite segments_cons. cbn [polyline_length]. rewrite <- (IH q). reflexivity.
Qed.
Lemma polyline_length_nonneg p rest : 0 <= polyline_length p rest.
Proof.
  revert p; induction rest as [|q rest IH]; intros p; simpl; [lra|]. pose proof (dist_nonneg q p). specialize (IH q). lra.
Qed.

Lemma walk_segment p q rest t : length q = length p -> dist q p <> 0 -> t <= dist q p ->
  walk p (q :: rest) t = vadd q (vscal ((dist q p - t) / dist q p) (vsub p q)).
Proof.
  intros L N H. simpl. destruct (Rle_dec t (dist q p)); [|lra].
  apply vec_ext; [vlen|]. intros. vnth. field. auto.
Qed.

(** the segment found by argmax is the one the walk stops in *)
Lemma poly_walk rest : forall p acc t, length rest <> 0%nat -> Forall (fun q => length q = length p) rest ->
  0 <= t <= polyline_length p rest ->
  (0 < t \/ dist (hd [] rest) p <> 0) ->
  exists i, find_true (map (Rleb (acc + t)) (cumsum_from acc (segments (p :: rest)))) = Some i /\
    (i < length rest)%nat /\
    let p1 := nth i (p :: rest) [] in let p2 := nth (S i) (p :: rest) [] in
    let d := nth i (cumsum_from acc (segments (p :: rest))) 0 - (acc + t) in
    length p1 = length p /\ length p2 = length p /\ dist p2 p1 <> 0 /\
    walk p rest t = vadd p2 (vscal (d / dist p2 p1) (vsub p1 p2)).
Proof.
  induction rest as [|q rest IH]; intros p acc t Hne HL Ht Hp; [simpl in Hne; lia|].
  inversion HL as [|? ? Lq HL']; subst. rewrite segments_cons.
  change (cumsum_from acc (dist q p :: segments (q :: rest))) with ((acc + dist q p) :: cumsum_from (acc + dist q p) (segments (q :: rest))).
  destruct (Rle_dec t (dist q p)) as [C|C].
  - exists 0%nat. cbn [map find_true]. assert (E : Rleb (acc + t) (acc + dist q p) = true) by (apply Rleb_true; lra).
    rewrite E. split; auto. split; [simpl; lia|]. cbv zeta. cbn [nth].
    assert (N : dist q p <> 0) by (destruct Hp as [Hp|Hp]; [lra|exact Hp]).
    repeat split; auto. rewrite walk_segment by auto. do 3 f_equal. ring.
  - assert (E : Rleb (acc + t) (acc + dist q p) = false) by (apply Rleb_false; lra).
    cbn [map find_true]. rewrite E.
    assert (W : walk p (q :: rest) t = walk q rest (t - dist q p)).
    { simpl. destruct (Rle_dec t (dist q p)); [contradiction|reflexivity]. }
    rewrite W.
    assert (HLq : Forall (fun r => length r = length q) rest) by (eapply Forall_impl; [|exact HL']; simpl; intros; congruence).
    simpl in Ht.
    assert (Hne' : length rest <> 0%nat).
    { intros Z. destruct rest; simpl in *; [lra|lia]. }
    destruct (IH q (acc + dist q p) (t - dist q p) Hne' HLq) as (i & F & Hi & H); [lra|left; lra|].
    replace (acc + dist q p + (t - dist q p)) with (acc + t) in F, H by ring. rewrite F.
    exists (S i). split; auto. split; [simpl; lia|]. cbv zeta in H |- *. destruct H as (H1 & H2 & H3 & H4).
    change (nth (S i) (p :: q :: rest) []) with (nth i (q :: rest) []).
    change (nth (S (S i)) (p :: q :: rest) []) with (nth (S i) (q :: rest) []).
    split; [congruence|]. split; [congruence|]. split; [exact H3|]. rewrite H4. reflexivity.
Qed.
Lemma all_same_ok p rest : Forall (fun q => length q = length p) rest -> all_same_length (p :: rest) = true.
Proof. intros H. simpl. apply forallb_forall. rewrite Forall_forall in H. intros q Hq. apply Nat.eqb_eq. auto. Qed.

Lemma polyline_walk p q rest s : Forall (fun r => length r = length p) (q :: rest) ->
  (q <> p \/ 0 < mod1 s * polyline_length p (q :: rest)) ->
  transform_polyline s (p :: q :: rest) = Ok (walk p (q :: rest) (mod1 s * polyline_length p (q :: rest))).
Proof.
  intros HL Hq. unfold transform_polyline. rewrite all_same_ok by auto.
  rewrite polyline_length_sum. set (L := polyline_length p (q :: rest)) in *.
  assert (PL : 0 <= L) by apply polyline_length_nonneg. pose proof (mod1_range s) as M.
  set (t := mod1 s * L) in *.
  assert (Ht : 0 <= t <= L) by (unfold t; nra).
  assert (Lq : length q = length p) by (inversion HL; auto).
  destruct (poly_walk (q :: rest) p 0 t) as (i & F & Hi & H); auto; [simpl; lia| |].
  { destruct Hq as [Hq|Hq]; auto. right. simpl. intros Z. apply Hq. unfold dist in Z. apply normR_0 in Z.
    apply vec_ext; auto. intros j Hj.
    assert (Q : nth j (vsub q p) 0 = 0).
    { rewrite Forall_nth in Z. apply Z. vlen. }
    rewrite nth_vsub in Q by auto. lra. }
  rewrite Rplus_0_l in F, H. cbv zeta in H. destruct H as (H1 & H2 & H3 & H4).
  unfold cumsum. rewrite segments_cons in F, H4 |- *.
  change (cumsum_from 0 (dist q p :: segments (q :: rest))) with ((0 + dist q p) :: cumsum_from (0 + dist q p) (segments (q :: rest))) in F, H4 |- *.
  unfold argmax. rewrite F. rewrite H4.
  set (p1 := nth i (p :: q :: rest) []) in *. set (p2 := nth (S i) (p :: q :: rest) []) in *.
  set (d := nth i (0 + dist q p :: cumsum_from (0 + dist q p) (segments (q :: rest))) 0 - t).
  change (map2 Rminus p1 p2) with (vsub p1 p2). fold (dist p1 p2). rewrite (dist_comm p1 p2) by congruence.
  rewrite (sequence_map_ext _ (fun e => d / dist p2 p1 * e)).
  - cbn [bind]. reflexivity.
  - intros e He. rewrite fdiv_ok by auto. f_equal. field. auto.
Qed.
Lemma polyline_zero_first p rest : Forall (fun r => length r = length p) (p :: rest) -> p <> [] ->
  transform_polyline 0 (p :: p :: rest) = Err NonFinite.
Proof.
  intros HL Hp. unfold transform_polyline. rewrite all_same_ok by auto. rewrite segments_cons.
  unfold cumsum. cbn [cumsum_from]. rewrite mod1_id by lra. rewrite Rmult_0_l.
  assert (D : dist p p = 0).
  { unfold dist. apply normR_0. apply Forall_nth. intros i dd Hi. rewrite (nth_indep _ dd 0) by auto.
    rewrite nth_vsub by auto. ring. }
  unfold argmax. cbn [map find_true].
  assert (E : Rleb 0 (0 + dist p p) = true) by (apply Rleb_true; lra). rewrite E.
  cbn [nth]. change (map2 Rminus p p) with (vsub p p). fold (dist p p).
  destruct p as [|a p]; [congruence|]. cbn [vsub map2 map sequence].
  change (normR (map2 Rminus (a :: p) (a :: p))) with (dist (a :: p) (a :: p)).
  change (normR ((a - a) :: map2 Rminus p p)) with (dist (a :: p) (a :: p)).
  rewrite fdiv_0 by auto. reflexivity.
Qed.
Lemma polyline_too_few s : transform_polyline s [] = Err ValueError /\ forall p, transform_polyline s [p] = Err ValueError.
Proof. split; reflexivity. Qed.

(** points of the walk are points of the polyline and vice versa *)
Lemma walk_on_polyline rest : forall p t, rest <> [] -> Forall (fun q => length q = length p) rest ->
  0 <= t <= polyline_length p rest -> on_polyline p rest (walk p rest t).
Proof.
  induction rest as [|q rest IH]; intros p t Hne HL Ht; [congruence|]. inversion HL as [|? ? Lq HL']; subst.
  cbn [on_polyline walk]. destruct (Rle_dec t (dist q p)) as [C|C].
  - left. exists (t / dist q p). split; auto. destruct (Req_dec (dist q p) 0) as [Z|Z].
    + rewrite Z. unfold Rdiv. rewrite Rinv_0. lra.
    + pose proof (dist_nonneg q p). split.
      * apply Rmult_le_pos; [lra|apply Rlt_le, Rinv_0_lt_compat; lra].
      * apply Rmult_le_reg_r with (dist q p); [lra|]. replace (t / dist q p * dist q p) with t by (field; auto). lra.
  - right. simpl in Ht. apply IH.
    + intros ->. simpl in Ht. lra.
    + eapply Forall_impl; [|exact HL']. simpl; intros; congruence.
    + lra.
Qed.
Lemma last_cons {A} (x : A) l d : last (x :: l) d = last l x.
Proof.
  revert x d. induction l as [|y l IH]; intros x d; auto. change (last (y :: l) d = last (y :: l) x). rewrite !IH. auto.
Qed.
Lemma walk_end rest : forall p, Forall (fun q => length q = length p) rest ->
  walk p rest (polyline_length p rest) = last rest p.
Proof.
  induction rest as [|q rest IH]; intros p HL; [reflexivity|]. inversion HL as [|? ? Lq HL']; subst.
  cbn [walk polyline_length]. pose proof (polyline_length_nonneg q rest) as P.
  assert (HLq : Forall (fun r => length r = length q) rest) by (eapply Forall_impl; [|exact HL']; simpl; intros; congruence).
  rewrite last_cons. destruct (Rle_dec (dist q p + polyline_length q rest) (dist q p)) as [C|C].
  - assert (Z : polyline_length q rest = 0) by lra.
    rewrite Z.
    assert (AL : forall rest q, Forall (fun r => length r = length q) rest -> polyline_length q rest = 0 -> last rest q = q).
    { clear. induction rest as [|r rest IH]; intros q HL Z; auto. inversion HL as [|? ? Lr HL']; subst. simpl in Z.
      pose proof (dist_nonneg r q). pose proof (polyline_length_nonneg r rest).
      assert (Er : r = q).
      { assert (D : dist r q = 0) by lra. apply normR_0 in D. apply vec_ext; auto. intros j Hj.
        assert (Q : nth j (vsub r q) 0 = 0) by (rewrite Forall_nth in D; apply D; vlen). rewrite nth_vsub in Q by auto. lra. }
      subst r. destruct rest; auto. apply IH; [auto|]. lra. }
    rewrite AL by auto. rewrite Rplus_0_r. destruct (Req_dec (dist q p) 0) as [D|D].
    + assert (Er : q = p).
      { apply normR_0 in D. apply vec_ext; auto. intros j Hj.
        assert (Q : nth j (vsub q p) 0 = 0) by (rewrite Forall_nth in D; apply D; vlen). rewrite nth_vsub in Q by auto. lra. }
      subst q. apply vec_ext; [vlen|]. intros. vnth. ring.
    + apply vec_ext; [vlen|]. intros. vnth. field. auto.
  - replace (dist q p + polyline_length q rest - dist q p) with (polyline_length q rest) by ring. apply IH; auto.
Qed.
Lemma dist_zero_eq q p : length q = length p -> dist q p = 0 -> q = p.
Proof.
  intros L D. apply normR_0 in D. apply vec_ext; auto. intros j Hj.
  assert (Q : nth j (vsub q p) 0 = 0) by (rewrite Forall_nth in D; apply D; vlen). rewrite nth_vsub in Q by auto. lra.
Qed.
Lemma segment_same p y : on_segment p p y -> y = p.
Proof. intros (t & _ & ->). apply vec_ext; [vlen|]. intros. vnth. ring. Qed.
(** every polyline point is reached by the walk; positive arc length can be required for
    points after a vertex, so that the walk has left the earlier segments *)
Lemma walk_onto rest : forall p y, Forall (fun q => length q = length p) rest ->
  dist (hd p rest) p <> 0 -> on_polyline p rest y ->
  exists t, 0 <= t <= polyline_length p rest /\ y = walk p rest t.
Proof.
  assert (K : forall rest p y, Forall (fun q => length q = length p) rest -> on_polyline p rest y -> y <> p ->
     exists t, 0 < t <= polyline_length p rest /\ y = walk p rest t).
  { induction rest0 as [|q rest' IH]; intros p y HL H Hy; [contradiction|]. inversion HL as [|? ? Lq HL']; subst.
    assert (HLq : Forall (fun r => length r = length q) rest') by (eapply Forall_impl; [|exact HL']; simpl; intros; congruence).
    cbn [walk polyline_length on_polyline] in *. pose proof (dist_nonneg q p) as P. pose proof (polyline_length_nonneg q rest') as P'.
    destruct H as [(t & Ht & E)|H].
    - destruct (Req_dec (dist q p) 0) as [D|D].
      { exfalso. apply Hy. apply dist_zero_eq in D; auto. subst q. apply segment_same. exists t. auto. }
      destruct (Req_dec t 0) as [Zt|Zt].
      { exfalso. apply Hy. rewrite E, Zt. apply vec_ext; [vlen|]. intros. vnth. ring. }
      exists (t * dist q p). split; [split; [apply Rmult_lt_0_compat; lra|nra]|].
      destruct (Rle_dec (t * dist q p) (dist q p)) as [C|C]; [|exfalso; nra].
      replace (t * dist q p / dist q p) with t by (field; auto). auto.
    - destruct (list_eq_dec Req_EM_T y q) as [->|Nq].
      + destruct (Req_dec (dist q p) 0) as [D|D]; [exfalso; apply Hy; apply dist_zero_eq; auto|].
        exists (dist q p). split; [lra|]. destruct (Rle_dec (dist q p) (dist q p)); [|lra].
        replace (dist q p / dist q p) with 1 by (field; auto). apply vec_ext; [vlen|]. intros. vnth. ring.
      + destruct (IH q y HLq H Nq) as (t & Ht & E). exists (dist q p + t). split; [lra|].
        destruct (Rle_dec (dist q p + t) (dist q p)); [lra|]. replace (dist q p + t - dist q p) with t by ring. auto. }
  intros p y HL HN H. destruct (list_eq_dec Req_EM_T y p) as [->|N].
  - exists 0. split; [pose proof (polyline_length_nonneg p rest); lra|]. destruct rest as [|q rest]; [reflexivity|].
    simpl in HN |- *. inversion HL; subst. pose proof (dist_nonneg q p). destruct (Rle_dec 0 (dist q p)); [|lra].
    apply vec_ext; [vlen|]. intros. vnth. field. auto.
  - destruct (K rest p y HL H N) as (t & Ht & E). exists t. split; [lra|auto].
Qed.
Lemma polyline_onto p q rest y : Forall (fun r => length r = length p) (q :: rest) -> q <> p ->
  on_polyline p (q :: rest) y -> y <> last rest q ->
  exists s, 0 <= s < 1 /\ transform_polyline s (p :: q :: rest) = Ok y.
Proof.
  intros HL Hq H Hl. set (L := polyline_length p (q :: rest)).
  assert (Lq : length q = length p) by (inversion HL; auto).
  assert (D : dist q p <> 0) by (intros Z; apply Hq; apply dist_zero_eq; auto).
  destruct (walk_onto (q :: rest) p y HL D H) as (t & Ht & E). fold L in Ht.
  assert (PL : 0 < L).
  { unfold L. simpl. pose proof (dist_nonneg q p). pose proof (polyline_length_nonneg q rest). lra. }
  assert (TL : t <> L).
  { intros ->. apply Hl. rewrite E. unfold L. rewrite walk_end by auto.
    apply last_cons. }
  exists (t / L). assert (S : 0 <= t / L < 1).
  { split; [apply Rmult_le_pos; [lra|apply Rlt_le, Rinv_0_lt_compat; lra]|].
    apply Rmult_lt_reg_r with L; auto. replace (t / L * L) with t by (field; lra). lra. }
  split; auto. rewrite polyline_walk; auto. fold L. rewrite mod1_id by auto. replace (t / L * L) with t by (field; lra).
  rewrite E. reflexivity.
Qed.

(** *** boundary of the parallelogram *)
Lemma on_segment_ext p q p' q' y : p = p' -> q = q' -> on_segment p q y -> on_segment p' q' y.
Proof. intros -> ->; auto. Qed.
Lemma par_bnd_zero b c s p : length c = length b -> Forall (fun e => e = 0) (pa p) ->
  Parallelogram (pa p) b c = Ok p -> b <> pa p ->
  exists y, par_transform_bnd p s = Ok y /\ on_parallelogram_boundary (pa p) b c y.
Proof.
  intros Hbc Hz Hp Hb. apply Parallelogram_ok in Hp as (Lb & Lc & Ep). unfold par_transform_bnd.
  rewrite Ep. cbn [pa pb pc]. set (a := pa p) in *.
  change (map2 Rplus a b) with (vadd a b). change (map2 Rplus (vadd a b) c) with (vadd (vadd a b) c).
  assert (Za : forall i, nth i a 0 = 0).
  { intros i. destruct (Nat.lt_ge_cases i (length a)); [|apply nth_overflow; auto]. rewrite Forall_nth in Hz. apply Hz. auto. }
  assert (E1 : vadd a b = b) by (apply vec_ext; [vlen|]; intros; vnth; rewrite Za; ring).
  assert (E2 : vadd b c = vadd b (vsub c a)) by (apply vec_ext; [vlen|]; intros; vnth; rewrite Za; ring).
  rewrite E1, E2.
  assert (HL : Forall (fun r => length r = length a) [b; vadd b (vsub c a); c; a]).
  { repeat constructor; vlen. }
  rewrite polyline_walk by auto. eexists; split; [reflexivity|].
  pose proof (mod1_range s). pose proof (polyline_length_nonneg a [b; vadd b (vsub c a); c; a]).
  pose proof (walk_on_polyline [b; vadd b (vsub c a); c; a] a (mod1 s * polyline_length a [b; vadd b (vsub c a); c; a])) as W.
  specialize (W ltac:(discriminate) HL ltac:(nra)). cbn [on_polyline] in W. unfold on_parallelogram_boundary. cbv zeta. tauto.
Qed.
Lemma par_bnd_zero_onto b c p y : length c = length b -> Forall (fun e => e = 0) (pa p) ->
  Parallelogram (pa p) b c = Ok p -> b <> pa p -> on_parallelogram_boundary (pa p) b c y ->
  exists s, 0 <= s < 1 /\ par_transform_bnd p s = Ok y.
Proof.
  intros Hbc Hz Hp Hb Hy. apply Parallelogram_ok in Hp as (Lb & Lc & Ep). unfold par_transform_bnd.
  rewrite Ep. cbn [pa pb pc]. set (a := pa p) in *.
  change (map2 Rplus a b) with (vadd a b). change (map2 Rplus (vadd a b) c) with (vadd (vadd a b) c).
  assert (Za : forall i, nth i a 0 = 0).
  { intros i. destruct (Nat.lt_ge_cases i (length a)); [|apply nth_overflow; auto]. rewrite Forall_nth in Hz. apply Hz. auto. }
  assert (E1 : vadd a b = b) by (apply vec_ext; [vlen|]; intros; vnth; rewrite Za; ring).
  assert (E2 : vadd b c = vadd b (vsub c a)) by (apply vec_ext; [vlen|]; intros; vnth; rewrite Za; ring).
  rewrite E1, E2.
  assert (HL : Forall (fun r => length r = length a) [b; vadd b (vsub c a); c; a]) by (repeat constructor; vlen).
  destruct (list_eq_dec Req_EM_T y a) as [->|N].
  - exists 0. split; [lra|]. rewrite polyline_walk by auto. rewrite mod1_id, Rmult_0_l by lra. f_equal. simpl.
    pose proof (dist_nonneg b a). destruct (Rle_dec 0 (dist b a)); [|lra].
    apply vec_ext; [vlen|]. intros. vnth. unfold Rdiv. ring.
  - apply (polyline_onto a b [vadd b (vsub c a); c; a] y HL Hb); auto.
    unfold on_parallelogram_boundary in Hy. cbv zeta in Hy. cbn [on_polyline]. tauto.
Qed.

(** *** triangles *)
Lemma triangle_aligned x0 x1 a1 a2 p q :
  exists y0 y1, 0 <= y0 /\ 0 <= y1 /\ y0 + y1 <= 1 /\
  transform_triangle (A1 [x0; x1]) [a1; a2] [a1 + p; a2] [a1; a2 + q] = Ok (A1 [a1 + y0 * p; a2 + y1 * q]).
Proof.
  unfold transform_triangle. cbn. pose proof (mod1_range x0). pose proof (mod1_range x1).
  rewrite !Rabs_right by lra. destruct (Rlt_dec 1 (mod1 x0 + mod1 x1)); cbn.
  - exists (1 - mod1 x0), (1 - mod1 x1). repeat split; try lra. do 2 f_equal. f_equal; [ring|f_equal; ring].
  - exists (mod1 x0), (mod1 x1). repeat split; try lra. do 2 f_equal. f_equal; [ring|f_equal; ring].
Qed.
Lemma triangle_aligned_onto a1 a2 p q s t : 0 <= s < 1 -> 0 <= t < 1 -> s + t <= 1 ->
  transform_triangle (A1 [s; t]) [a1; a2] [a1 + p; a2] [a1; a2 + q] = Ok (A1 [a1 + s * p; a2 + t * q]).
Proof.
  intros Hs Ht H. unfold transform_triangle. cbn. rewrite !mod1_id by auto. rewrite !Rabs_right by lra.
  destruct (Rlt_dec 1 (s + t)); [lra|]. cbn. do 2 f_equal. f_equal; [ring|f_equal; ring].
Qed.
Lemma triangle_3d_error x0 x1 a b c : length a = 3%nat -> length b = 3%nat -> length c = 3%nat ->
  transform_triangle (A1 [x0; x1]) a b c = Err TypeError.
Proof.
  intros Ha Hb Hc. destruct a as [|a1 [|a2 [|a3 [|]]]]; simpl in Ha; try lia.
  destruct b as [|b1 [|b2 [|b3 [|]]]]; simpl in Hb; try lia. destruct c as [|c1 [|c2 [|c3 [|]]]]; simpl in Hc; try lia.
  unfold transform_triangle. cbn. destruct (Rlt_dec 1 _); reflexivity.
Qed.
