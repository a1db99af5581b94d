(** Proofs about surface_integral.py, part 2: multi-indices, Taylor polynomials,
    source and charge tensors and their contraction. *)
From Coquelicot Require Import Coquelicot.
From Verif Require Import Base BaseFacts P_Vec M_Tensor M_Calc S_Calc P_AD P_Calc P_Calc2 S_Model P_Model.
From Verif Require Import M_Integrate S_Integrate P_Integrate1 P_Integrate2 P_Integrate3 T_Integrate M_Surface S_Surface P_Surface1.

(** ** finite sums *)
Lemma lsum_total n g : total n g = lsum n g.
Proof. reflexivity. Qed.
Lemma lsum_plus_split n m g : lsum (n + m) g = lsum n g + lsum m (fun k => g (n + k)%nat).
Proof.
  induction m as [|m IH]; [rewrite Nat.add_0_r; unfold lsum at 3; cbn; change (sumR []) with 0; ring|].
  rewrite Nat.add_succ_r, !lsum_S, IH. ring.
Qed.
Lemma lsum_scal n c g : lsum n (fun i => c * g i) = c * lsum n g.
Proof. induction n as [|n IH]; [unfold lsum; cbn; ring|]. rewrite !lsum_S, IH. ring. Qed.
Lemma lsum_add n f g : lsum n (fun i => f i + g i) = lsum n f + lsum n g.
Proof. induction n as [|n IH]; [unfold lsum; cbn; ring|]. rewrite !lsum_S, IH. ring. Qed.
Lemma lsum_0 n : lsum n (fun _ => 0) = 0.
Proof. induction n as [|n IH]; [reflexivity|]. rewrite lsum_S, IH. ring. Qed.
Lemma lsum_mul_split a b g : lsum (a * b) g = lsum a (fun i => lsum b (fun r => g (i * b + r)%nat)).
Proof.
  induction a as [|a IH]; [reflexivity|]. rewrite lsum_S, <- IH.
  replace (S a * b)%nat with (a * b + b)%nat by lia. apply lsum_plus_split.
Qed.
Lemma lsum_shift n g : lsum (S n) g = g 0%nat + lsum n (fun k => g (S k)).
Proof. replace (S n) with (1 + n)%nat by lia. rewrite lsum_plus_split. unfold lsum at 1. cbn. f_equal. ring. Qed.

Lemma unravel_cons n s i r : (r < nprod s)%nat -> unravel (n :: s) (i * nprod s + r) = i :: unravel s r.
Proof.
  intros Hr. cbn [unravel]. rewrite Nat.div_add_l by lia. rewrite (Nat.div_small r) by auto.
  rewrite (Nat.add_comm (i * nprod s)), Nat.mod_add by lia. rewrite Nat.mod_small by auto. f_equal. lia.
Qed.
Lemma sum_unravel n s (F : list nat -> R) :
  lsum (nprod (n :: s)) (fun k => F (unravel (n :: s) k)) =
  lsum n (fun i => lsum (nprod s) (fun r => F (i :: unravel s r))).
Proof.
  change (nprod (n :: s)) with (n * nprod s)%nat. rewrite lsum_mul_split. apply lsum_ext. intros i Hi.
  apply lsum_ext. intros r Hr. rewrite unravel_cons by auto. reflexivity.
Qed.

(** ** multi-indices *)
Definition threes (k : nat) : list nat := repeat 3%nat k.
Lemma nprod_threes k : nprod (threes k) = (3 ^ k)%nat.
Proof. induction k as [|k IH]; [reflexivity|]. change (nprod (threes (S k))) with (3 * nprod (threes k))%nat. rewrite IH. reflexivity. Qed.
Lemma threes_snoc k : threes k ++ [3%nat] = threes (S k).
Proof. induction k as [|k IH]; [reflexivity|]. cbn [threes repeat app] in *. unfold threes in IH. rewrite IH. reflexivity. Qed.
Lemma threes_length k : length (threes k) = k.
Proof. apply repeat_length. Qed.

(** the m-th multi-index of the lengths k, k+1, ... *)
Fixpoint multi (fuel k m : nat) : list nat :=
  match fuel with
  | O => []
  | S f => if Nat.ltb m (3 ^ k) then unravel (threes k) m else multi f (S k) (m - 3 ^ k)
  end.
Fixpoint nmulti (fuel k : nat) : nat := match fuel with O => 0%nat | S f => (3 ^ k + nmulti f (S k))%nat end.

Lemma sum_multi (F : list nat -> R) fuel : forall k,
  lsum (nmulti fuel k) (fun m => F (multi fuel k m)) =
  lsum fuel (fun j => lsum (3 ^ (k + j)) (fun r => F (unravel (threes (k + j)) r))).
Proof.
  induction fuel as [|f IH]; intros k; [reflexivity|]. cbn [nmulti]. rewrite lsum_plus_split, lsum_shift.
  rewrite Nat.add_0_r. f_equal.
  - apply lsum_ext. intros i Hi. cbn [multi]. rewrite (proj2 (Nat.ltb_lt _ _) Hi). reflexivity.
  - rewrite (lsum_ext f _ (fun j => lsum (3 ^ (S k + j)) (fun r => F (unravel (threes (S k + j)) r)))).
    + rewrite <- IH. apply lsum_ext. intros i Hi. cbn [multi].
      rewrite (proj2 (Nat.ltb_ge _ _)) by lia. do 2 f_equal. lia.
    + intros j _. rewrite Nat.add_succ_r. reflexivity.
Qed.

Lemma block_multi (F : list nat -> R) q fuel : forall k l, length l = fuel ->
  (forall j a, nth_error l j = Some a -> last (shape a) 0%nat = (3 ^ (k + j))%nat /\
     forall r, (r < 3 ^ (k + j))%nat -> entry a (q ++ [r]) = F (unravel (threes (k + j)) r)) ->
  forall m, (m < nmulti fuel k)%nat -> block l q m = F (multi fuel k m).
Proof.
  induction fuel as [|f IH]; intros k [|a l] L H m Hm; try discriminate L; [cbn in Hm; lia|].
  cbn [block multi]. destruct (H 0%nat a eq_refl) as (Ha & Va). rewrite Nat.add_0_r in Ha, Va. rewrite Ha.
  destruct (Nat.ltb_spec m (3 ^ k)) as [Hlt|Hge]; [apply Va; auto|].
  apply IH; [cbn in L; lia| |cbn in Hm; lia].
  intros j b Hb. specialize (H (S j) b Hb). rewrite Nat.add_succ_r in H. exact H.
Qed.
Lemma lengths_multi fuel : forall k (l : list tensor), length l = fuel ->
  (forall j a, nth_error l j = Some a -> last (shape a) 0%nat = (3 ^ (k + j))%nat) ->
  fold_right Nat.add 0%nat (map (fun b => last (shape b) 0%nat) l) = nmulti fuel k.
Proof.
  induction fuel as [|f IH]; intros k [|a l] L H; try discriminate L; [reflexivity|].
  cbn [map fold_right nmulti]. rewrite (H 0%nat a eq_refl), Nat.add_0_r. f_equal.
  apply IH; [cbn in L; lia|]. intros j b Hb. specialize (H (S j) b Hb). rewrite Nat.add_succ_r in H. exact H.
Qed.

Lemma tconcat_multi (F : list nat -> list nat -> R) s l : l <> [] ->
  (forall j a, nth_error l j = Some a -> shape a = s ++ [(3 ^ j)%nat] /\
     forall q r, inside s q -> (r < 3 ^ j)%nat -> entry a (q ++ [r]) = F q (unravel (threes j) r)) ->
  exists T, tconcat l = Ok T /\ shape T = s ++ [nmulti (length l) 0] /\
    forall q m, inside s q -> (m < nmulti (length l) 0)%nat -> entry T (q ++ [m]) = F q (multi (length l) 0 m).
Proof.
  intros Ne H. destruct l as [|a l']; [congruence|]. unfold tconcat. remember (a :: l') as l eqn:El.
  assert (Ha : removelast (shape a) = s).
  { destruct (H 0%nat a ltac:(subst; reflexivity)) as (E & _). rewrite E. apply removelast_last. }
  replace (forallb _ l) with true.
  2:{ symmetry. apply forallb_forall. intros b Hb. apply In_nth_error in Hb. destruct Hb as (j & Hj).
      destruct (H j b Hj) as (E & _). rewrite Ha, E, removelast_last. apply list_eqb_refl. }
  eexists. split; [reflexivity|]. cbn [shape entry]. rewrite Ha. split.
  - do 2 f_equal. apply lengths_multi; auto. intros j b Hb. destruct (H j b Hb) as (E & _). rewrite E. apply last_last.
  - intros q m Hq Hm. rewrite removelast_last, last_last. apply block_multi; auto.
    intros j b Hb. destruct (H j b Hb) as (E & V). rewrite E, last_last. split; [reflexivity|]. intros r Hr. apply V; auto.
Qed.

(** ** the moments of the source *)
Definition mono (d : list R) (idx : list nat) : R := prodR (map (fun i => nth i d 0) idx).
Lemma prodR_app l m : prodR (l ++ m) = prodR l * prodR m.
Proof. induction l as [|a l IH]; [cbn; unfold prodR; cbn; ring|]. cbn [app]. change (prodR (?u :: ?v)) with (u * prodR v). rewrite IH. ring. Qed.

Definition power (k : nat) (d t : tensor) : Prop :=
  shape t = threes k /\ forall p, inside (threes k) p -> entry t p = mono (tlist d) p.
Lemma power_1 d : shape d = [3%nat] -> power 1 d d.
Proof.
  intros H. split; [exact H|]. intros p Hp. inversion Hp as [|i ? p' ? Hi Hp']; subst. inversion Hp'; subst.
  unfold mono, prodR. cbn [map fold_right]. rewrite (tlist_nth d 3) by auto. ring.
Qed.
Lemma power_S k d t : shape d = [3%nat] -> power k d t -> power (S k) d (touter t d).
Proof.
  intros H (St & Vt). split.
  - cbn [touter shape]. rewrite St, H. apply threes_snoc.
  - intros p Hp. rewrite <- threes_snoc in Hp. destruct (inside_snoc _ _ _ Hp) as (q & i & -> & Hq & Hi).
    cbn [touter entry]. rewrite St. rewrite <- (inside_length _ _ Hq).
    rewrite firstn_app, firstn_all, skipn_app, skipn_all, Nat.sub_diag. cbn [firstn skipn app]. rewrite app_nil_r.
    rewrite Vt by auto. unfold mono. rewrite map_app, prodR_app. cbn [map]. unfold prodR at 3. cbn [fold_right].
    rewrite (tlist_nth d 3) by auto. ring.
Qed.
Lemma moments_nth o : forall k t d j a, shape d = [3%nat] -> power k d t -> nth_error (moments o t d) j = Some a ->
  exists t', power (k + j) d t' /\ a = travel t'.
Proof.
  induction o as [|o IH]; intros k t d j a Hd Hp H; [destruct j; discriminate H|].
  destruct j as [|j]; cbn [moments nth_error] in H.
  - injection H as <-. exists t. rewrite Nat.add_0_r. auto.
  - destruct (IH (S k) (touter t d) d j a Hd (power_S k d t Hd Hp) H) as (t' & Ht & ->).
    exists t'. rewrite Nat.add_succ_r. auto.
Qed.
Lemma moments_length o t d : length (moments o t d) = o.
Proof. revert t. induction o as [|o IH]; intros t; [reflexivity|]. cbn [moments length]. rewrite IH. reflexivity. Qed.

Lemma source_moments o d : shape d = [3%nat] ->
  exists T, tconcat (tvec [1] :: moments o d d) = Ok T /\ shape T = [nmulti (S o) 0] /\
    forall m, (m < nmulti (S o) 0)%nat -> entry T [m] = mono (tlist d) (multi (S o) 0 m).
Proof.
  intros Hd.
  destruct (tconcat_multi (fun _ idx => mono (tlist d) idx) [] (tvec [1] :: moments o d d)) as (T & ET & ST & VT).
  - discriminate.
  - intros [|j] a Ha; cbn [nth_error] in Ha.
    + injection Ha as <-. split; [reflexivity|]. intros q r Hq Hr. inversion Hq; subst. cbn in Hr.
      assert (r = 0%nat) by lia. subst r. cbn. reflexivity.
    + destruct (moments_nth o 1 d d j a Hd (power_1 d Hd) Ha) as (t' & (St & Vt) & ->).
      change (1 + j)%nat with (S j) in St, Vt. split.
      * cbn [travel shape app]. rewrite St, nprod_threes. reflexivity.
      * intros q r Hq Hr. inversion Hq; subst. cbn [app]. rewrite travel_entry, St.
        apply Vt. apply unravel_inside. rewrite nprod_threes. exact Hr.
  - exists T. cbn [length] in *. rewrite moments_length in ST, VT. split; auto. split; auto.
    intros m Hm. apply (VT [] m); auto. constructor.
Qed.

Lemma tbop_minus3 a b : shape a = [3%nat] -> shape b = [3%nat] ->
  exists y, tbop Rminus a b = Ok y /\ shape y = [3%nat] /\ tlist y = map2 Rminus (tlist a) (tlist b).
Proof.
  intros Ha Hb. destruct (bop_same Rminus a b 3 Ha Hb) as (y & E & S & V). exists y. split; auto. split; auto.
  rewrite (tlist3 y S), (tlist3 a Ha), (tlist3 b Hb). cbn [map2]. rewrite !V by lia. reflexivity.
Qed.

Lemma dist_0 x y : length x = 3%nat -> length y = 3%nat -> dist x y = 0 -> x = y.
Proof.
  destruct x as [|a [|b [|c [|? ?]]]]; intros Hx; try discriminate Hx.
  destruct y as [|a' [|b' [|c' [|? ?]]]]; intros Hy; try discriminate Hy.
  intros H. unfold dist, normR in H. cbn [map2 map] in H. unfold sumR in H. cbn [fold_right] in H.
  pose proof (Rle_0_sqr (a - a')) as H1. pose proof (Rle_0_sqr (b - b')) as H2. pose proof (Rle_0_sqr (c - c')) as H3.
  unfold Rsqr in H1, H2, H3. apply sqrt_eq_0 in H; [|lra].
  assert (Ea : (a - a') * (a - a') = 0) by lra. assert (Eb : (b - b') * (b - b') = 0) by lra.
  assert (Ec : (c - c') * (c - c') = 0) by lra.
  apply Rmult_integral in Ea, Eb, Ec. repeat f_equal; lra.
Qed.

Lemma tnorm_tlist a n : shape a = [n] -> tnorm a = normR (tlist a).
Proof. intros H. unfold tnorm. destruct (travel_1d a n H) as (_ & ->). reflexivity. Qed.

Lemma source_integrand_rep o c x (D : list R -> Prop) : shape c = [3%nat] -> shape x = [3%nat] ->
  (forall y, D y -> y <> tlist x) ->
  repD 3 D [nmulti (S o) 0] (fun r => source_integrand o [r; c; x])
    (fun p y => mono (map2 Rminus y (tlist c)) (multi (S o) 0 (hd 0%nat p)) / dist (tlist x) y).
Proof.
  intros Sc Sx HD y Sy Dy. unfold source_integrand. rewrite Sy, Sx, Sc.
  cbn [list_eqb Nat.eqb andb assert_ bind].
  destruct (tbop_minus3 x y Sx Sy) as (xy & -> & Sxy & Vxy). cbn [bind].
  destruct (tbop_minus3 y c Sy Sc) as (d & -> & Sd & Vd). cbn [bind].
  destruct (source_moments o d Sd) as (T & -> & ST & VT). cbn [bind].
  rewrite (tnorm_tlist xy 3 Sxy), Vxy. fold (dist (tlist x) (tlist y)).
  destruct (Req_EM_T (dist (tlist x) (tlist y)) 0) as [E0|N0].
  - exfalso. apply (HD _ Dy). symmetry. apply dist_0; auto; apply tlist_length; auto.
  - eexists. split; [reflexivity|]. split; [exact ST|]. intros p Hp.
    inversion Hp as [|m ? p' ? Hm Hp']; subst. inversion Hp'; subst. cbn [tmap entry hd]. rewrite VT by auto.
    rewrite Vd. reflexivity.
Qed.
