(** rk4 has order four on autonomous systems. *)
From Coquelicot Require Import Coquelicot.
From Verif Require Import Base BaseFacts P_Vec M_Tree M_Ode S_Integrate S_Ode S_OdeErr S_Ode4 P_Tree P_Integrate2 P_Ode P_Ode2.

(** *** sums over positions *)
Section Over.
Variable sh : list nat.
Notation ov := (over sh).
Lemma over_ext g k : (forall p, g p = k p) -> ov g = ov k.
Proof. intros H. unfold over. f_equal. apply map_ext. auto. Qed.
Lemma over_lin g k a b : ov (fun p => a * g p + b * k p) = a * ov g + b * ov k.
Proof. unfold over, sumR. induction (positions sh) as [|p l IH]; cbn; [ring|]. rewrite IH. ring. Qed.
Lemma over_plus g k : ov (fun p => g p + k p) = ov g + ov k.
Proof. rewrite <- (Rmult_1_l (ov g)), <- (Rmult_1_l (ov k)), <- over_lin. apply over_ext. intros; ring. Qed.
Lemma over_scal g a : ov (fun p => a * g p) = a * ov g.
Proof. unfold over, sumR. induction (positions sh) as [|p l IH]; cbn; [ring|]. rewrite IH. ring. Qed.
Lemma over_abs g : Rabs (ov g) <= ov (fun p => Rabs (g p)).
Proof.
  unfold over, sumR. induction (positions sh) as [|p l IH]; cbn; [rewrite Rabs_R0; lra|].
  eapply Rle_trans; [apply Rabs_triang|]. lra.
Qed.
Lemma over_le g k : (forall p, g p <= k p) -> ov g <= ov k.
Proof. intros H. unfold over, sumR. induction (positions sh) as [|p l IH]; cbn; [lra|]. specialize (H p). lra. Qed.
Lemma over_derive (g : pos -> R -> R) (g' : pos -> R) t : (forall p, is_derive (g p) t (g' p)) ->
  is_derive (fun s => ov (fun p => g p s)) t (ov g').
Proof.
  intros H. unfold over, sumR. induction (positions sh) as [|p l IH]; cbn; [apply @is_derive_const|].
  apply (is_derive_plus (V := R_NormedModule)); auto.
Qed.
Lemma over_const c : ov (fun _ => c) = INR (length (positions sh)) * c.
Proof. unfold over, sumR. induction (positions sh) as [|p l IH]; [cbn; ring|]. cbn [map fold_right length]. rewrite IH, S_INR. ring. Qed.
End Over.

(** *** Taylor expansion from a chain of derivatives *)
Lemma mvt_bound (phi phi' : R -> R) s x C n : s <= x -> 0 <= C -> phi s = 0 ->
  (forall z, s <= z <= x -> is_derive phi z (phi' z) /\ Rabs (phi' z) <= C * (z - s) ^ n) -> Rabs (phi x) <= C * (x - s) ^ S n.
Proof.
  intros Hx HC H0 H.
  destruct (MVT_gen phi s x phi') as (z & Hz & E).
  - rewrite Rmin_left, Rmax_right by lra. intros z Hz. apply H. lra.
  - rewrite Rmin_left, Rmax_right by lra. intros z Hz. apply continuity_pt_filterlim. apply (ex_derive_continuous phi).
    exists (phi' z). apply H. lra.
  - rewrite Rmin_left, Rmax_right in Hz by lra. rewrite H0, Rminus_0_r in E. rewrite E, Rabs_mult, (Rabs_right (x - s)) by lra.
    replace (C * (x - s) ^ S n) with (C * (x - s) ^ n * (x - s)) by (cbn [pow]; ring).
    apply Rmult_le_compat_r; [lra|]. eapply Rle_trans; [apply H; lra|].
    apply Rmult_le_compat_l; auto. apply pow_incr. lra.
Qed.
Definition tpoly (g : nat -> R -> R) (s : R) (n : nat) (x : R) : R :=
  sum_f_R0 (fun k => g k s * ((x - s) ^ k / INR (fact k))) n.
Lemma monomial_derive (a s : R) n (x : R) : is_derive (fun x => a * ((x - s) ^ S n / INR (fact (S n)))) x (a * ((x - s) ^ n / INR (fact n))).
Proof.
  assert (D : is_derive (fun x => (x - s) ^ S n) x (INR (S n) * 1 * (x - s) ^ pred (S n))).
  { apply (is_derive_pow (fun x => x - s)). auto_derive; auto. }
  apply (is_derive_ext (fun x => a / INR (fact (S n)) * (x - s) ^ S n)).
  { assert (E : forall t : R, a / INR (fact (S n)) * (t - s) ^ S n = a * ((t - s) ^ S n / INR (fact (S n)))).
    { intros t. field. apply INR_fact_neq_0. }
    exact E. }
  replace (a * ((x - s) ^ n / INR (fact n))) with (a / INR (fact (S n)) * (INR (S n) * 1 * (x - s) ^ pred (S n))).
  - exact (is_derive_scal (fun x => (x - s) ^ S n) x (a / INR (fact (S n))) _ D).
  - cbn [pred]. change (fact (S n)) with (S n * fact n)%nat. rewrite mult_INR. field. split; [apply INR_fact_neq_0|apply not_0_INR; lia].
Qed.
Lemma tpoly_derive g s n x : is_derive (tpoly g s (S n)) x (tpoly (fun k => g (S k)) s n x).
Proof.
  unfold tpoly. induction n as [|n IH].
  - cbn [sum_f_R0 pow fact]. auto_derive; auto. simpl. field.
  - rewrite tech5. apply (is_derive_ext (fun x => sum_f_R0 (fun k => g k s * ((x - s) ^ k / INR (fact k))) (S n) + g (S (S n)) s * ((x - s) ^ (S (S n)) / INR (fact (S (S n)))))).
    { intros t. symmetry. apply tech5. }
    apply (is_derive_plus (V := R_NormedModule)); [exact IH|].
    apply monomial_derive.
Qed.
Lemma chain_taylor n : forall (g : nat -> R -> R) s x C, s <= x -> 0 <= C ->
  (forall k z, (k <= n)%nat -> s <= z <= x -> is_derive (g k) z (g (S k) z)) -> (forall z, s <= z <= x -> Rabs (g (S n) z) <= C) ->
  Rabs (g 0%nat x - tpoly g s n x) <= C * (x - s) ^ S n.
Proof.
  induction n as [|n IH]; intros g s x C Hx HC HD HB.
  - apply (mvt_bound (fun x => g 0%nat x - tpoly g s 0 x) (g 1%nat)); auto.
    + unfold tpoly. cbn. field.
    + intros z Hz. split.
      * unfold tpoly. cbn. apply (is_derive_ext (fun x => g 0%nat x + - (g 0%nat s * (1 / 1)))); [intros; cbn; ring|].
        rewrite <- (Rplus_0_r (g 1%nat z)). apply (is_derive_plus (V := R_NormedModule)); [apply HD; auto|apply @is_derive_const].
      * rewrite pow_O, Rmult_1_r. apply HB. auto.
  - apply (mvt_bound (fun x => g 0%nat x - tpoly g s (S n) x) (fun x => g 1%nat x - tpoly (fun k => g (S k)) s n x)); auto.
    + unfold tpoly. rewrite decomp_sum by lia. cbn [pow fact]. rewrite (sum_eq _ (fun _ => 0)).
      * rewrite sum_eq_R0 by auto. cbn. field.
      * intros i _. replace (s - s) with 0 by ring. unfold Rdiv. ring.
    + intros z Hz. split.
      * apply (is_derive_minus (V := R_NormedModule)); [apply HD; [lia|auto]|apply tpoly_derive].
      * apply (IH (fun k => g (S k)) s z C); auto; try lra.
        -- intros k w Hk Hw. apply HD; [lia|lra].
        -- intros w Hw. apply HB. lra.
Qed.

(** *** terms of order h^k, uniformly in the start s *)
Section BigO.
Variables (t0 T : R).
Definition dom (s h : R) : Prop := t0 <= s /\ 0 <= h <= 1 /\ s + h <= T.
Definition BO (k : nat) (g : R -> R -> R) : Prop := exists C, 0 <= C /\ forall s h, dom s h -> Rabs (g s h) <= C * h ^ k.
Definition EQ (k : nat) (g g' : R -> R -> R) : Prop := BO k (fun s h => g s h - g' s h).

Lemma BO_ext k g g' : (forall s h, dom s h -> g s h = g' s h) -> BO k g -> BO k g'.
Proof. intros E (C & HC & H). exists C. split; auto. intros s h Hd. rewrite <- E by auto. auto. Qed.
Lemma BO_plus k g g' : BO k g -> BO k g' -> BO k (fun s h => g s h + g' s h).
Proof.
  intros (C & HC & H) (C' & HC' & H'). exists (C + C'). split; [lra|]. intros s h Hd.
  eapply Rle_trans; [apply Rabs_triang|]. specialize (H s h Hd). specialize (H' s h Hd). lra.
Qed.
Lemma BO_mult j k g g' : BO j g -> BO k g' -> BO (j + k) (fun s h => g s h * g' s h).
Proof.
  intros (C & HC & H) (C' & HC' & H'). exists (C * C'). split; [apply Rmult_le_pos; auto|]. intros s h Hd.
  rewrite Rabs_mult, pow_add. replace (C * C' * (h ^ j * h ^ k)) with ((C * h ^ j) * (C' * h ^ k)) by ring.
  apply Rmult_le_compat; auto using Rabs_pos.
Qed.
Lemma BO_const k c g : BO k g -> BO k (fun s h => c * g s h).
Proof.
  intros (C & HC & H). exists (Rabs c * C). split; [apply Rmult_le_pos; auto using Rabs_pos|]. intros s h Hd.
  rewrite Rabs_mult, Rmult_assoc. apply Rmult_le_compat_l; auto using Rabs_pos.
Qed.
Lemma BO_opp k g : BO k g -> BO k (fun s h => - g s h).
Proof. intros H. apply (BO_ext k (fun s h => -1 * g s h)); [intros; ring|]. apply BO_const. auto. Qed.
Lemma BO_weak j k g : (j <= k)%nat -> BO k g -> BO j g.
Proof.
  intros L (C & HC & H). exists C. split; auto. intros s h Hd. eapply Rle_trans; [apply H; auto|].
  apply Rmult_le_compat_l; auto. destruct Hd as (_ & Hh & _). replace k with (j + (k - j))%nat by lia. rewrite pow_add.
  rewrite <- (Rmult_1_r (h ^ j)) at 2. apply Rmult_le_compat_l; [apply pow_le; lra|].
  rewrite <- (pow1 (k - j)). apply pow_incr. lra.
Qed.
Lemma BO_h k : BO k (fun _ h => h ^ k).
Proof. exists 1. split; [lra|]. intros s h (_ & Hh & _). rewrite Rabs_right; [lra|]. apply Rle_ge, pow_le. lra. Qed.
Lemma BO_hg k g : BO 0 g -> BO k (fun s h => h ^ k * g s h).
Proof. intros H. rewrite <- (Nat.add_0_r k) at 1. apply BO_mult; auto. apply BO_h. Qed.
Lemma BO_zero k : BO k (fun _ _ => 0).
Proof. exists 0. split; [lra|]. intros. rewrite Rabs_R0. lra. Qed.
Lemma BO_abs k g : BO k g -> BO k (fun s h => Rabs (g s h)).
Proof. intros (C & HC & H). exists C. split; auto. intros. rewrite Rabs_Rabsolu. auto. Qed.
Lemma BO_over sh k (g : pos -> R -> R -> R) : (forall p, BO k (g p)) -> BO k (fun s h => over sh (fun p => g p s h)).
Proof.
  intros H. unfold over, sumR. induction (positions sh) as [|p l IH]; cbn; [apply BO_zero|]. apply BO_plus; auto.
Qed.
Lemma BO_dominated k g g' : (forall s h, dom s h -> Rabs (g s h) <= Rabs (g' s h)) -> BO k g' -> BO k g.
Proof. intros L (C & HC & H). exists C. split; auto. intros s h Hd. eapply Rle_trans; [apply L; auto|auto]. Qed.
Lemma EQ_trans k f g w : EQ k f g -> EQ k g w -> EQ k f w.
Proof. intros H1 H2. eapply BO_ext; [|apply (BO_plus k _ _ H1 H2)]. intros; cbn; ring. Qed.
Lemma EQ_weak j k f g : (j <= k)%nat -> EQ k f g -> EQ j f g.
Proof. intros L. apply BO_weak; auto. Qed.
Lemma EQ_plus k f g f' g' : EQ k f g -> EQ k f' g' -> EQ k (fun s h => f s h + f' s h) (fun s h => g s h + g' s h).
Proof. intros H1 H2. eapply BO_ext; [|apply (BO_plus k _ _ H1 H2)]. intros; cbn; ring. Qed.
Lemma EQ_const k c f g : EQ k f g -> EQ k (fun s h => c * f s h) (fun s h => c * g s h).
Proof. intros H. eapply BO_ext; [|apply (BO_const k c _ H)]. intros; cbn; ring. Qed.
Lemma EQ_h k j f g : EQ k f g -> EQ (j + k) (fun s h => h ^ j * f s h) (fun s h => h ^ j * g s h).
Proof. intros H. eapply BO_ext; [|apply (BO_mult j k _ _ (BO_h j) H)]. intros; cbn; ring. Qed.
Lemma EQ_ext k f g : (forall s h, dom s h -> f s h = g s h) -> EQ k f g.
Proof. intros H. apply (BO_ext k (fun _ _ => 0)); [|apply BO_zero]. intros s h Hd. rewrite H by auto. ring. Qed.
Lemma EQ_BO k f g : EQ k f g -> BO k g -> BO k f.
Proof. intros H1 H2. eapply BO_ext; [|apply (BO_plus k _ _ H1 H2)]. intros; cbn; ring. Qed.

(** bounded with a bounded derivative on [t0, T] *)
Definition DB (g : R -> R) : Prop := exists g' C, forall s, t0 <= s <= T -> is_derive g s (g' s) /\ Rabs (g s) <= C /\ Rabs (g' s) <= C.
Lemma DB_BO g : DB g -> BO 0 (fun s _ => g s).
Proof.
  intros (g' & C & H). exists (Rabs C). split; [apply Rabs_pos|]. intros s h (H1 & H2 & H3). rewrite pow_O, Rmult_1_r.
  destruct (H s) as (_ & B & _); [lra|]. eapply Rle_trans; [exact B|apply Rle_abs].
Qed.
Lemma DB_plus g k : DB g -> DB k -> DB (fun s => g s + k s).
Proof.
  intros (g' & C & H) (k' & D & K). exists (fun s => g' s + k' s), (C + D). intros s Hs.
  destruct (H s Hs) as (H1 & H2 & H3). destruct (K s Hs) as (K1 & K2 & K3). split; [apply (is_derive_plus (V := R_NormedModule)); auto|].
  split; (eapply Rle_trans; [apply Rabs_triang|lra]).
Qed.
Lemma DB_mult g k : DB g -> DB k -> DB (fun s => g s * k s).
Proof.
  intros (g' & C & H) (k' & D & K). exists (fun s => g' s * k s + g s * k' s), (2 * (Rabs C * Rabs D)). intros s Hs.
  destruct (H s Hs) as (H1 & H2 & H3). destruct (K s Hs) as (K1 & K2 & K3).
  pose proof (Rle_abs C). pose proof (Rle_abs D). pose proof (Rabs_pos C). pose proof (Rabs_pos D).
  assert (P : forall a b, Rabs a <= C -> Rabs b <= D -> Rabs (a * b) <= Rabs C * Rabs D).
  { intros a b Ha Hb. rewrite Rabs_mult. apply Rmult_le_compat; auto using Rabs_pos; lra. }
  assert (0 <= Rabs C * Rabs D) by (apply Rmult_le_pos; auto).
  split; [apply (is_derive_mult g k s _ _ H1 K1); intros; apply Rmult_comm|]. split.
  - specialize (P _ _ H2 K2). lra.
  - eapply Rle_trans; [apply Rabs_triang|]. pose proof (P _ _ H3 K2). pose proof (P _ _ H2 K3). lra.
Qed.
Lemma DB_const c : DB (fun _ => c).
Proof. exists (fun _ => 0), (Rabs c). intros s _. split; [apply @is_derive_const|]. rewrite Rabs_R0. split; [lra|apply Rabs_pos]. Qed.
Lemma DB_over sh (g : pos -> R -> R) : (forall p, DB (g p)) -> DB (fun s => over sh (fun p => g p s)).
Proof. intros H. unfold over, sumR. induction (positions sh) as [|p l IH]; cbn; [apply DB_const|]. apply DB_plus; auto. Qed.
End BigO.

Section System.
Variables (sh : list nat) (f : pos -> tree -> R) (M : R) (sol : R -> tree) (t0 T B : R).
Variables (d1 : pos -> pos -> tree -> R) (d2 : pos -> pos -> pos -> tree -> R)
          (d3 : pos -> pos -> pos -> pos -> tree -> R) (d4 : pos -> pos -> pos -> pos -> pos -> tree -> R).
Hypothesis G1 : forall p, has_gradient sh (f p) (d1 p).
Hypothesis G2 : forall p q, has_gradient sh (d1 p q) (d2 p q).
Hypothesis G3 : forall p q r, has_gradient sh (d2 p q r) (d3 p q r).
Hypothesis G4 : forall p q r l, has_gradient sh (d3 p q r l) (d4 p q r l).
Hypothesis SY : forall p q r y, shape y = sh -> d2 p q r y = d2 p r q y.
Hypothesis BD : forall p q r l m y, shape y = sh -> Rabs (d1 p q y) <= M /\ Rabs (d2 p q r y) <= M /\ Rabs (d3 p q r l y) <= M /\ Rabs (d4 p q r l m y) <= M.
Hypothesis SS : forall t, shape (sol t) = sh.
Hypothesis DS : forall t p, t0 <= t <= T -> is_derive (fun s => at_pos (sol s) p) t (f p (sol t)) /\ Rabs (f p (sol t)) <= B.

Notation ov := (over sh).
Definition E1 p y (v : pos -> R) : R := ov (fun q => d1 p q y * v q).
Definition E2 p y (v w : pos -> R) : R := ov (fun q => ov (fun r => d2 p q r y * (v q * w r))).
Definition E3 p y (v w z : pos -> R) : R := ov (fun q => ov (fun r => ov (fun l => d3 p q r l y * (v q * w r * z l)))).
Definition E4 p y (v w z x : pos -> R) : R := ov (fun q => ov (fun r => ov (fun l => ov (fun m => d4 p q r l m y * (v q * w r * z l * x m))))).

Lemma E1_ext p y v v' : (forall q, v q = v' q) -> E1 p y v = E1 p y v'.
Proof. intros H. apply over_ext. intros q. rewrite H. reflexivity. Qed.
Lemma E2_ext p y v v' w w' : (forall q, v q = v' q) -> (forall q, w q = w' q) -> E2 p y v w = E2 p y v' w'.
Proof. intros H H'. apply over_ext. intros q. apply over_ext. intros r. rewrite H, H'. reflexivity. Qed.
Lemma E3_ext p y v v' w w' z z' : (forall q, v q = v' q) -> (forall q, w q = w' q) -> (forall q, z q = z' q) -> E3 p y v w z = E3 p y v' w' z'.
Proof. intros H H' H''. apply over_ext. intros q. apply over_ext. intros r. apply over_ext. intros l. rewrite H, H', H''. reflexivity. Qed.
Lemma E1_lin p y a b v w : E1 p y (fun q => a * v q + b * w q) = a * E1 p y v + b * E1 p y w.
Proof. unfold E1. rewrite <- over_lin. apply over_ext. intros; ring. Qed.
Lemma E2_lin_l p y a b v w z : E2 p y (fun q => a * v q + b * w q) z = a * E2 p y v z + b * E2 p y w z.
Proof. unfold E2. rewrite <- over_lin. apply over_ext. intros. rewrite <- over_lin. apply over_ext. intros; ring. Qed.
Lemma E2_lin_r p y a b v w z : E2 p y z (fun q => a * v q + b * w q) = a * E2 p y z v + b * E2 p y z w.
Proof. unfold E2. rewrite <- over_lin. apply over_ext. intros. rewrite <- over_lin. apply over_ext. intros; ring. Qed.
Lemma E3_scal p y a v : E3 p y (fun q => a * v q) (fun q => a * v q) (fun q => a * v q) = a ^ 3 * E3 p y v v v.
Proof.
  unfold E3. rewrite <- over_scal. apply over_ext. intros. rewrite <- over_scal. apply over_ext. intros. rewrite <- over_scal. apply over_ext. intros. ring.
Qed.
Lemma over_swap g : ov (fun q => ov (fun r => g q r)) = ov (fun r => ov (fun q => g q r)).
Proof.
  assert (G : forall l l', sumR (map (fun q => sumR (map (fun r => g q r) l')) l) = sumR (map (fun r => sumR (map (fun q => g q r) l)) l')).
  { intros l l'. unfold sumR. induction l as [|p l IH]; cbn [map fold_right].
    - induction l' as [|r l' IH']; cbn; [reflexivity|]. rewrite <- IH'. ring.
    - rewrite IH. clear IH. induction l' as [|r l' IH']; cbn [map fold_right]; [ring|]. rewrite <- IH'. ring. }
  apply G.
Qed.
Lemma E2_sym p y v w : shape y = sh -> E2 p y v w = E2 p y w v.
Proof. intros Sy. unfold E2. rewrite over_swap. apply over_ext. intros q. apply over_ext. intros r. rewrite SY by auto. ring. Qed.

(** derivatives along a curve *)
Section Curve.
Variables (c : R -> tree) (w : pos -> R) (t : R).
Hypothesis Sc : forall s, shape (c s) = sh.
Hypothesis Dc : forall p, is_derive (fun s => at_pos (c s) p) t (w p).
Lemma f_curve p : is_derive (fun s => f p (c s)) t (E1 p (c t) w).
Proof. apply G1; auto. Qed.
Lemma E1_curve p (v : R -> pos -> R) v' : (forall q, is_derive (fun s => v s q) t (v' q)) ->
  is_derive (fun s => E1 p (c s) (v s)) t (E2 p (c t) (v t) w + E1 p (c t) v').
Proof.
  intros Hv. unfold E1, E2. rewrite <- over_plus.
  apply (over_derive sh (fun q s => d1 p q (c s) * v s q)). intros q.
  replace (ov (fun r => d2 p q r (c t) * (v t q * w r)) + d1 p q (c t) * v' q)
    with (ov (fun r => d2 p q r (c t) * w r) * v t q + d1 p q (c t) * v' q).
  - apply (is_derive_mult (fun s => d1 p q (c s)) (fun s => v s q)); [apply G2; auto|auto|intros; apply Rmult_comm].
  - f_equal. rewrite Rmult_comm, <- over_scal. apply over_ext. intros; ring.
Qed.
Lemma E2_curve p (v z : R -> pos -> R) v' z' : (forall q, is_derive (fun s => v s q) t (v' q)) -> (forall q, is_derive (fun s => z s q) t (z' q)) ->
  is_derive (fun s => E2 p (c s) (v s) (z s)) t (E3 p (c t) (v t) (z t) w + (E2 p (c t) v' (z t) + E2 p (c t) (v t) z')).
Proof.
  intros Hv Hz. unfold E2, E3. rewrite <- !over_plus.
  apply (over_derive sh (fun q s => ov (fun r => d2 p q r (c s) * (v s q * z s r)))). intros q. rewrite <- !over_plus.
  apply (over_derive sh (fun r s => d2 p q r (c s) * (v s q * z s r))). intros r.
  replace (_ + _) with (ov (fun l => d3 p q r l (c t) * w l) * (v t q * z t r) + d2 p q r (c t) * (v' q * z t r + v t q * z' r)).
  - apply (is_derive_mult (fun s => d2 p q r (c s)) (fun s => v s q * z s r)); [apply G3; auto| |intros; apply Rmult_comm].
    apply (is_derive_mult (fun s => v s q) (fun s => z s r)); auto. intros; apply Rmult_comm.
  - rewrite Rmult_plus_distr_l. f_equal. rewrite Rmult_comm, <- over_scal. apply over_ext. intros; ring.
Qed.
Lemma E3_curve p v z x : is_derive (fun s => E3 p (c s) v z x) t (E4 p (c t) v z x w).
Proof.
  unfold E3, E4.
  apply (over_derive sh (fun q s => ov (fun r => ov (fun l => d3 p q r l (c s) * (v q * z r * x l))))). intros q.
  apply (over_derive sh (fun r s => ov (fun l => d3 p q r l (c s) * (v q * z r * x l)))). intros r.
  apply (over_derive sh (fun l s => d3 p q r l (c s) * (v q * z r * x l))). intros l.
  replace (ov _) with (ov (fun m => d4 p q r l m (c t) * w m) * (v q * z r * x l) + d3 p q r l (c t) * 0).
  - apply (is_derive_mult (fun s => d3 p q r l (c s)) (fun s => v q * z r * x l)); [apply G4; auto|apply @is_derive_const|intros; apply Rmult_comm].
  - rewrite Rmult_0_r, Rplus_0_r, Rmult_comm, <- over_scal. apply over_ext. intros; ring.
Qed.
End Curve.

Lemma over_sum4 (u : pos -> R) : ov (fun q => ov (fun r => ov (fun l => ov (fun m => u q * u r * u l * u m)))) = ov u ^ 4.
Proof.
  rewrite (over_ext sh _ (fun q => ov u ^ 3 * u q)); [rewrite over_scal; ring|]. intros q.
  rewrite (over_ext sh _ (fun r => ov u ^ 2 * u q * u r)); [rewrite over_scal; ring|]. intros r.
  rewrite (over_ext sh _ (fun l => ov u * u q * u r * u l)); [rewrite over_scal; ring|]. intros l.
  rewrite over_scal. ring.
Qed.
Lemma M_nonneg : 0 <= M.
Proof. destruct (BD (0%nat, 0%nat) (0%nat, 0%nat) (0%nat, 0%nat) (0%nat, 0%nat) (0%nat, 0%nat) (sol 0) (SS 0)) as (H & _). eapply Rle_trans; [apply Rabs_pos|exact H]. Qed.
Lemma E4_bound p y u : shape y = sh -> Rabs (E4 p y u u u u) <= M * ov (fun q => Rabs (u q)) ^ 4.
Proof.
  intros Sy. rewrite <- over_sum4, <- over_scal. unfold E4.
  eapply Rle_trans; [apply over_abs|]. apply over_le. intros q. rewrite <- over_scal.
  eapply Rle_trans; [apply over_abs|]. apply over_le. intros r. rewrite <- over_scal.
  eapply Rle_trans; [apply over_abs|]. apply over_le. intros l. rewrite <- over_scal.
  eapply Rle_trans; [apply over_abs|]. apply over_le. intros m.
  rewrite !Rabs_mult. apply Rmult_le_compat_r; [|apply BD; auto].
  repeat apply Rmult_le_pos; apply Rabs_pos.
Qed.

(** Taylor expansion of f along a line *)
Lemma at_pos_line y u s p : shape y = sh -> shape u = sh -> at_pos (tadd y (tscal s u)) p = at_pos y p + s * at_pos u p.
Proof. intros Sy Su. unfold at_pos. rewrite entry_add, entry_scal by (rewrite shape_scal; congruence). reflexivity. Qed.
Lemma shape_line y u s : shape y = sh -> shape u = sh -> shape (tadd y (tscal s u)) = sh.
Proof. intros Sy Su. rewrite shape_map2; [auto|]. rewrite shape_scal. congruence. Qed.
Lemma line_taylor p y u : shape y = sh -> shape u = sh ->
  Rabs (f p (tadd y u) - (f p y + E1 p y (at_pos u) + / 2 * E2 p y (at_pos u) (at_pos u) + / 6 * E3 p y (at_pos u) (at_pos u) (at_pos u)))
  <= M * ov (fun q => Rabs (at_pos u q)) ^ 4.
Proof.
  intros Sy Su. set (c := fun s => tadd y (tscal s u)). set (a := at_pos u).
  assert (Sc : forall s, shape (c s) = sh) by (intros; apply shape_line; auto).
  assert (Dc : forall t q, is_derive (fun s => at_pos (c s) q) t (a q)).
  { intros t q. apply (is_derive_ext (fun s => at_pos y q + s * a q)).
    - intros s. symmetry. apply at_pos_line; auto.
    - auto_derive; auto. ring. }
  assert (C0 : c 0 = y).
  { apply tree_ext; [rewrite Sc; auto|]. intros i j. pose proof (at_pos_line y u 0 (i, j) Sy Su) as H. unfold at_pos in H. cbn [fst snd] in H. unfold c. rewrite H. ring. }
  assert (C1 : c 1 = tadd y u).
  { apply tree_ext; [rewrite Sc, shape_map2; congruence|]. intros i j. pose proof (at_pos_line y u 1 (i, j) Sy Su) as H. unfold at_pos in H. cbn [fst snd] in H. unfold c. rewrite H, entry_add by congruence. ring. }
  set (g := fun k s => match k with
    | 0%nat => f p (c s) | 1%nat => E1 p (c s) a | 2%nat => E2 p (c s) a a | 3%nat => E3 p (c s) a a a | _ => E4 p (c s) a a a a end).
  pose proof (chain_taylor 3 g 0 1 (M * ov (fun q => Rabs (a q)) ^ 4)) as H.
  assert (P : g 0%nat 1 - tpoly g 0 3 1 = f p (tadd y u) - (f p y + E1 p y a + / 2 * E2 p y a a + / 6 * E3 p y a a a)).
  { unfold tpoly, g. cbn [sum_f_R0]. rewrite C0, C1. simpl. field. }
  rewrite P in H. replace ((1 - 0) ^ 4) with 1 in H by ring. rewrite Rmult_1_r in H. apply H; clear H P; try lra.
  - apply Rmult_le_pos; [apply M_nonneg|]. apply pow_le. eapply Rle_trans; [apply Rabs_pos|apply (over_abs sh a)].
  - intros k z Hk Hz. assert (Z : forall q : pos, is_derive (fun _ : R => a q) z 0) by (intros; apply @is_derive_const).
    assert (Z1 : forall q, E1 q (c z) (fun _ => 0) = 0).
    { intros q. unfold E1. rewrite (over_ext sh _ (fun _ => 0)) by (intros; ring). rewrite over_const. ring. }
    destruct k as [|[|[|[|k]]]]; [| | | |lia]; cbn [g].
    + apply f_curve; auto.
    + pose proof (E1_curve c a z Sc (Dc z) p (fun _ => a) (fun _ => 0) Z) as H. rewrite Z1, Rplus_0_r in H. exact H.
    + pose proof (E2_curve c a z Sc (Dc z) p (fun _ => a) (fun _ => a) (fun _ => 0) (fun _ => 0) Z Z) as H.
      assert (Y1 : E2 p (c z) (fun _ => 0) a = 0).
      { unfold E2. rewrite (over_ext sh _ (fun _ => 0)); [rewrite over_const; ring|]. intros q. rewrite (over_ext sh _ (fun _ => 0)) by (intros; ring). rewrite over_const. ring. }
      assert (Y2 : E2 p (c z) a (fun _ => 0) = 0) by (rewrite E2_sym by auto; exact Y1).
      cbv beta in H. rewrite Y1, Y2, !Rplus_0_r in H. exact H.
    + apply E3_curve; auto.
  - intros z Hz. cbn [g]. apply E4_bound. auto.
Qed.

(** *** elementary differentials along the solution *)
Definition FF s p := f p (sol s).
Definition A1 s p := E1 p (sol s) (FF s).
Definition A2 s p := E2 p (sol s) (FF s) (FF s).
Definition A11 s p := E1 p (sol s) (A1 s).
Definition A3 s p := E3 p (sol s) (FF s) (FF s) (FF s).
Definition A21 s p := E2 p (sol s) (FF s) (A1 s).
Definition A12 s p := E1 p (sol s) (A2 s).
Definition A111 s p := E1 p (sol s) (A11 s).

Lemma FF_derive t p : t0 <= t <= T -> is_derive (fun s => FF s p) t (A1 t p).
Proof. intros Ht. apply (f_curve sol (FF t) t); auto. intros q. apply DS; auto. Qed.
Lemma A1_derive t p : t0 <= t <= T -> is_derive (fun s => A1 s p) t (A2 t p + A11 t p).
Proof.
  intros Ht. apply (E1_curve sol (FF t) t SS (fun q => proj1 (DS t q Ht)) p FF (A1 t)). intros q. apply FF_derive; auto.
Qed.
Lemma A2_derive t p : t0 <= t <= T -> is_derive (fun s => A2 s p) t (A3 t p + 2 * A21 t p).
Proof.
  intros Ht. pose proof (E2_curve sol (FF t) t SS (fun q => proj1 (DS t q Ht)) p FF FF (A1 t) (A1 t)
    (fun q => FF_derive t q Ht) (fun q => FF_derive t q Ht)) as H.
  rewrite (E2_sym p (sol t) (A1 t) (FF t)) in H by auto. unfold A3, A21. replace (2 * _) with (E2 p (sol t) (FF t) (A1 t) + E2 p (sol t) (FF t) (A1 t)) by ring. exact H.
Qed.
Lemma A11_derive t p : t0 <= t <= T -> is_derive (fun s => A11 s p) t (A21 t p + (A12 t p + A111 t p)).
Proof.
  intros Ht. pose proof (E1_curve sol (FF t) t SS (fun q => proj1 (DS t q Ht)) p A1 (fun q => A2 t q + A11 t q) (fun q => A1_derive t q Ht)) as H.
  rewrite (E2_sym p (sol t) (A1 t) (FF t)) in H by auto.
  unfold A12, A111, A21. replace (E1 p (sol t) (A2 t) + E1 p (sol t) (A11 t)) with (E1 p (sol t) (fun q => A2 t q + A11 t q)); [exact H|].
  rewrite <- (Rmult_1_l (E1 p (sol t) (A2 t))), <- (Rmult_1_l (E1 p (sol t) (A11 t))), <- E1_lin. apply E1_ext. intros; ring.
Qed.

Notation bo := (BO t0 T). Notation eq_mod := (EQ t0 T). Notation db := (DB t0 T).
Lemma db_d1 p q : db (fun s => d1 p q (sol s)).
Proof.
  exists (fun s => ov (fun r => d2 p q r (sol s) * FF s r)), (M + INR (length (positions sh)) * (M * Rabs B)). intros s Hs.
  assert (0 <= INR (length (positions sh)) * (M * Rabs B)) by (apply Rmult_le_pos; [apply pos_INR|apply Rmult_le_pos; [apply M_nonneg|apply Rabs_pos]]).
  pose proof M_nonneg. split; [apply G2; auto; intros r; apply DS; auto|].
  split; [eapply Rle_trans; [apply (BD p q q q q); auto|lra]|].
  eapply Rle_trans; [apply over_abs|]. eapply Rle_trans; [apply (over_le sh _ (fun _ => M * Rabs B))|rewrite over_const; lra].
  intros r. rewrite Rabs_mult. apply Rmult_le_compat; auto using Rabs_pos; [apply (BD p q r r r); auto|].
  eapply Rle_trans; [apply DS; auto|apply Rle_abs].
Qed.
Lemma db_d2 p q r : db (fun s => d2 p q r (sol s)).
Proof.
  exists (fun s => ov (fun l => d3 p q r l (sol s) * FF s l)), (M + INR (length (positions sh)) * (M * Rabs B)). intros s Hs.
  assert (0 <= INR (length (positions sh)) * (M * Rabs B)) by (apply Rmult_le_pos; [apply pos_INR|apply Rmult_le_pos; [apply M_nonneg|apply Rabs_pos]]).
  pose proof M_nonneg. split; [apply G3; auto; intros l; apply DS; auto|].
  split; [eapply Rle_trans; [apply (BD p q r q q); auto|lra]|].
  eapply Rle_trans; [apply over_abs|]. eapply Rle_trans; [apply (over_le sh _ (fun _ => M * Rabs B))|rewrite over_const; lra].
  intros l. rewrite Rabs_mult. apply Rmult_le_compat; auto using Rabs_pos; [apply (BD p q r l r); auto|].
  eapply Rle_trans; [apply DS; auto|apply Rle_abs].
Qed.
Lemma db_d3 p q r m : db (fun s => d3 p q r m (sol s)).
Proof.
  exists (fun s => ov (fun l => d4 p q r m l (sol s) * FF s l)), (M + INR (length (positions sh)) * (M * Rabs B)). intros s Hs.
  assert (0 <= INR (length (positions sh)) * (M * Rabs B)) by (apply Rmult_le_pos; [apply pos_INR|apply Rmult_le_pos; [apply M_nonneg|apply Rabs_pos]]).
  pose proof M_nonneg. split; [apply G4; auto; intros l; apply DS; auto|].
  split; [eapply Rle_trans; [apply (BD p q r m q); auto|lra]|].
  eapply Rle_trans; [apply over_abs|]. eapply Rle_trans; [apply (over_le sh _ (fun _ => M * Rabs B))|rewrite over_const; lra].
  intros l. rewrite Rabs_mult. apply Rmult_le_compat; auto using Rabs_pos; [apply (BD p q r m l); auto|].
  eapply Rle_trans; [apply DS; auto|apply Rle_abs].
Qed.
Lemma db_FF p : db (fun s => FF s p).
Proof.
  exists (fun s => A1 s p), (Rabs B + INR (length (positions sh)) * (M * Rabs B)). intros s Hs.
  assert (0 <= INR (length (positions sh)) * (M * Rabs B)) by (apply Rmult_le_pos; [apply pos_INR|apply Rmult_le_pos; [apply M_nonneg|apply Rabs_pos]]).
  pose proof M_nonneg. pose proof (Rle_abs B). pose proof (Rabs_pos B). split; [apply FF_derive; auto|].
  split; [eapply Rle_trans; [apply DS; auto|lra]|].
  eapply Rle_trans; [apply over_abs|]. eapply Rle_trans; [apply (over_le sh _ (fun _ => M * Rabs B))|rewrite over_const; lra].
  intros l. rewrite Rabs_mult. apply Rmult_le_compat; auto using Rabs_pos; [apply (BD p l p p p); auto|].
  eapply Rle_trans; [apply DS; auto|apply Rle_abs].
Qed.
Lemma db_E1 p (v : R -> pos -> R) : (forall q, db (fun s => v s q)) -> db (fun s => E1 p (sol s) (v s)).
Proof. intros H. apply (DB_over t0 T sh (fun q s => d1 p q (sol s) * v s q)). intros q. apply DB_mult; auto. apply db_d1. Qed.
Lemma db_E2 p (v w : R -> pos -> R) : (forall q, db (fun s => v s q)) -> (forall q, db (fun s => w s q)) -> db (fun s => E2 p (sol s) (v s) (w s)).
Proof.
  intros H K. apply (DB_over t0 T sh (fun q s => ov (fun r => d2 p q r (sol s) * (v s q * w s r)))). intros q.
  apply (DB_over t0 T sh (fun r s => d2 p q r (sol s) * (v s q * w s r))). intros r. apply DB_mult; [apply db_d2|]. apply (DB_mult t0 T (fun s => v s q) (fun s => w s r)); auto.
Qed.
Lemma db_A1 p : db (fun s => A1 s p). Proof. apply db_E1, db_FF. Qed.
Lemma db_A2 p : db (fun s => A2 s p). Proof. apply db_E2; apply db_FF. Qed.
Lemma db_A11 p : db (fun s => A11 s p). Proof. apply db_E1, db_A1. Qed.
Lemma db_A21 p : db (fun s => A21 s p). Proof. apply db_E2; [apply db_FF|apply db_A1]. Qed.
Lemma db_A12 p : db (fun s => A12 s p). Proof. apply db_E1, db_A2. Qed.
Lemma db_A111 p : db (fun s => A111 s p). Proof. apply db_E1, db_A11. Qed.
Lemma db_A3 p : db (fun s => A3 s p).
Proof.
  apply (DB_over t0 T sh (fun q s => ov (fun r => ov (fun l => d3 p q r l (sol s) * (FF s q * FF s r * FF s l))))). intros q.
  apply (DB_over t0 T sh (fun r s => ov (fun l => d3 p q r l (sol s) * (FF s q * FF s r * FF s l)))). intros r.
  apply (DB_over t0 T sh (fun l s => d3 p q r l (sol s) * (FF s q * FF s r * FF s l))). intros l.
  apply DB_mult; [apply db_d3|]. apply (DB_mult t0 T (fun s => FF s q * FF s r) (fun s => FF s l)); [|apply db_FF].
  apply (DB_mult t0 T (fun s => FF s q) (fun s => FF s r)); apply db_FF.
Qed.

(** *** the solution *)
Lemma sol_expansion p : bo 5 (fun s h => at_pos (sol (s + h)) p -
  (at_pos (sol s) p + h * FF s p + h ^ 2 / 2 * A1 s p + h ^ 3 / 6 * (A2 s p + A11 s p) + h ^ 4 / 24 * (A3 s p + 3 * A21 s p + A12 s p + A111 s p))).
Proof.
  assert (D4 : db (fun s => A3 s p + 3 * A21 s p + A12 s p + A111 s p)).
  { apply (DB_plus t0 T (fun s => A3 s p + 3 * A21 s p + A12 s p)); [|apply db_A111].
    apply (DB_plus t0 T (fun s => A3 s p + 3 * A21 s p)); [|apply db_A12].
    apply (DB_plus t0 T (fun s => A3 s p)); [apply db_A3|]. apply (DB_mult t0 T (fun _ => 3)); [apply DB_const|apply db_A21]. }
  destruct D4 as (g5 & C & H5). exists (Rabs C). split; [apply Rabs_pos|]. intros s h (Hs & Hh & HT).
  set (g := fun k x => match k with 0%nat => at_pos (sol x) p | 1%nat => FF x p | 2%nat => A1 x p | 3%nat => A2 x p + A11 x p
    | 4%nat => A3 x p + 3 * A21 x p + A12 x p + A111 x p | _ => g5 x end).
  pose proof (chain_taylor 4 g s (s + h) (Rabs C)) as H.
  assert (P : g 0%nat (s + h) - tpoly g s 4 (s + h) = at_pos (sol (s + h)) p -
    (at_pos (sol s) p + h * FF s p + h ^ 2 / 2 * A1 s p + h ^ 3 / 6 * (A2 s p + A11 s p) + h ^ 4 / 24 * (A3 s p + 3 * A21 s p + A12 s p + A111 s p))).
  { unfold tpoly, g. cbn [sum_f_R0]. replace (s + h - s) with h by ring. simpl. field. }
  rewrite P in H. replace (s + h - s) with h in H by ring. apply H; clear H P; [lra|apply Rabs_pos| |].
  - intros k z Hk Hz. destruct k as [|[|[|[|[|k]]]]]; [| | | | |lia]; cbn [g].
    + apply DS. lra.
    + apply FF_derive. lra.
    + apply A1_derive. lra.
    + replace (A3 z p + 3 * A21 z p + A12 z p + A111 z p) with ((A3 z p + 2 * A21 z p) + (A21 z p + (A12 z p + A111 z p))) by ring.
      apply (is_derive_plus (V := R_NormedModule) (fun x => A2 x p) (fun x => A11 x p)); [apply A2_derive|apply A11_derive]; lra.
    + apply H5. lra.
  - intros z Hz. cbn [g]. eapply Rle_trans; [apply H5; lra|apply Rle_abs].
Qed.

(** *** stages *)
Lemma bo_E1 k p (v : pos -> R -> R -> R) : (forall q, bo k (v q)) -> bo k (fun s h => E1 p (sol s) (fun q => v q s h)).
Proof.
  intros H. apply (BO_over t0 T sh k (fun q s h => d1 p q (sol s) * v q s h)). intros q.
  apply (BO_mult t0 T 0 k (fun s _ => d1 p q (sol s))); auto. apply (DB_BO t0 T (fun s => d1 p q (sol s))), db_d1.
Qed.
Lemma bo_E2 j k p (v w : pos -> R -> R -> R) : (forall q, bo j (v q)) -> (forall q, bo k (w q)) ->
  bo (j + k) (fun s h => E2 p (sol s) (fun q => v q s h) (fun q => w q s h)).
Proof.
  intros H K. apply (BO_over t0 T sh (j + k) (fun q s h => ov (fun r => d2 p q r (sol s) * (v q s h * w r s h)))). intros q.
  apply (BO_over t0 T sh (j + k) (fun r s h => d2 p q r (sol s) * (v q s h * w r s h))). intros r.
  apply (BO_mult t0 T 0 (j + k) (fun s _ => d2 p q r (sol s))); [apply (DB_BO t0 T (fun s => d2 p q r (sol s))), db_d2|].
  apply BO_mult; auto.
Qed.
Lemma bo_E3 i j k p (v w z : pos -> R -> R -> R) : (forall q, bo i (v q)) -> (forall q, bo j (w q)) -> (forall q, bo k (z q)) ->
  bo (i + j + k) (fun s h => E3 p (sol s) (fun q => v q s h) (fun q => w q s h) (fun q => z q s h)).
Proof.
  intros H K L. apply (BO_over t0 T sh (i + j + k) (fun q s h => ov (fun r => ov (fun l => d3 p q r l (sol s) * (v q s h * w r s h * z l s h))))). intros q.
  apply (BO_over t0 T sh (i + j + k) (fun r s h => ov (fun l => d3 p q r l (sol s) * (v q s h * w r s h * z l s h)))). intros r.
  apply (BO_over t0 T sh (i + j + k) (fun l s h => d3 p q r l (sol s) * (v q s h * w r s h * z l s h))). intros l.
  apply (BO_mult t0 T 0 (i + j + k) (fun s _ => d3 p q r l (sol s))); [apply (DB_BO t0 T (fun s => d3 p q r l (sol s))), db_d3|].
  apply (BO_mult t0 T (i + j) k (fun s h => v q s h * w r s h)); auto. apply BO_mult; auto.
Qed.
Lemma E2_diff p y (v w : pos -> R) : E2 p y v v - E2 p y w w = E2 p y (fun q => v q - w q) v + E2 p y w (fun q => v q - w q).
Proof.
  apply (Rplus_eq_reg_r (E2 p y w w)). ring_simplify. unfold E2. rewrite <- !over_plus. apply over_ext. intros q.
  rewrite <- !over_plus. apply over_ext. intros r. ring.
Qed.
Lemma E3_diff p y (v w : pos -> R) : E3 p y v v v - E3 p y w w w =
  E3 p y (fun q => v q - w q) v v + (E3 p y w (fun q => v q - w q) v + E3 p y w w (fun q => v q - w q)).
Proof.
  apply (Rplus_eq_reg_r (E3 p y w w w)). ring_simplify. unfold E3. rewrite <- !over_plus. apply over_ext. intros q.
  rewrite <- !over_plus. apply over_ext. intros r. rewrite <- !over_plus. apply over_ext. intros l. ring.
Qed.

Lemma stage a b (W : R -> pos -> R) (U : R -> R -> tree) : (forall q, bo 0 (fun s _ => W s q)) -> (forall s h, shape (U s h) = sh) ->
  (forall q, eq_mod 4 (fun s h => at_pos (U s h) q) (fun s h => a * h * FF s q + b * h ^ 2 * A1 s q + h ^ 3 * W s q)) ->
  forall p, eq_mod 4 (fun s h => f p (tadd (sol s) (U s h)))
    (fun s h => FF s p + a * h * A1 s p + h ^ 2 * (b * A11 s p + a ^ 2 / 2 * A2 s p) + h ^ 3 * (E1 p (sol s) (W s) + a * b * A21 s p + a ^ 3 / 6 * A3 s p)).
Proof.
  intros HW SU HU p. set (u := fun q s h => at_pos (U s h) q).
  assert (BF : forall q, bo 0 (fun s _ => FF s q)) by (intros q; apply (DB_BO t0 T (fun s => FF s q)), db_FF).
  assert (BA : forall q, bo 0 (fun s _ => A1 s q)) by (intros q; apply (DB_BO t0 T (fun s => A1 s q)), db_A1).
  assert (B1 : forall q, bo 1 (fun s h => a * h * FF s q)).
  { intros q. apply (BO_ext t0 T 1 (fun s h => a * (h ^ 1 * FF s q))); [intros; ring|]. apply BO_const, (BO_hg t0 T 1 (fun s _ => FF s q)); auto. }
  assert (B2 : forall q, bo 2 (fun s h => b * h ^ 2 * A1 s q)).
  { intros q. apply (BO_ext t0 T 2 (fun s h => b * (h ^ 2 * A1 s q))); [intros; ring|]. apply BO_const, (BO_hg t0 T 2 (fun s _ => A1 s q)); auto. }
  assert (B3 : forall q, bo 3 (fun s h => h ^ 3 * W s q)) by (intros q; apply (BO_hg t0 T 3 (fun s _ => W s q)); auto).
  set (u' := fun q s h => a * h * FF s q + b * h ^ 2 * A1 s q). set (u2 := fun q s h => a * h * FF s q).
  assert (D3 : forall q, bo 3 (fun s h => u q s h - u' q s h)).
  { intros q. apply (BO_ext t0 T 3 (fun s h => (u q s h - (a * h * FF s q + b * h ^ 2 * A1 s q + h ^ 3 * W s q)) + h ^ 3 * W s q)).
    - intros; unfold u'; ring.
    - apply BO_plus; auto. apply (BO_weak t0 T 3 4); auto. apply HU. }
  assert (D2 : forall q, bo 2 (fun s h => u q s h - u2 q s h)).
  { intros q. apply (BO_ext t0 T 2 (fun s h => (u q s h - u' q s h) + b * h ^ 2 * A1 s q)); [intros; unfold u', u2; ring|].
    apply BO_plus; auto. apply (BO_weak t0 T 2 3); auto. }
  assert (Bu2 : forall q, bo 1 (u2 q)) by exact B1.
  assert (Bu' : forall q, bo 1 (u' q)).
  { intros q. apply BO_plus; auto. apply (BO_weak t0 T 1 2); auto. }
  assert (Bu : forall q, bo 1 (u q)).
  { intros q. apply (BO_ext t0 T 1 (fun s h => (u q s h - u' q s h) + u' q s h)); [intros; ring|]. apply BO_plus; auto. apply (BO_weak t0 T 1 3); auto. }
  (* remainder of the Taylor polynomial *)
  assert (R0 : bo 4 (fun s h => f p (tadd (sol s) (U s h)) - (FF s p + E1 p (sol s) (at_pos (U s h))
     + / 2 * E2 p (sol s) (at_pos (U s h)) (at_pos (U s h)) + / 6 * E3 p (sol s) (at_pos (U s h)) (at_pos (U s h)) (at_pos (U s h))))).
  { set (S := fun s h => ov (fun q => Rabs (u q s h))).
    assert (BS : bo 1 S) by (apply (BO_over t0 T sh 1 (fun q s h => Rabs (u q s h))); intros q; apply BO_abs; auto).
    apply (BO_dominated t0 T 4 _ (fun s h => M * (S s h * S s h * (S s h * S s h)))).
    - intros s h Hd. eapply Rle_trans; [apply line_taylor; auto|].
      eapply Rle_trans; [|apply Rle_abs]. apply Req_le. unfold S, u. ring.
    - apply BO_const. apply (BO_mult t0 T 2 2 (fun s h => S s h * S s h)); apply (BO_mult t0 T 1 1); auto. }
  (* linear term *)
  assert (R1 : bo 4 (fun s h => E1 p (sol s) (at_pos (U s h)) - (a * h * A1 s p + b * h ^ 2 * A11 s p + h ^ 3 * E1 p (sol s) (W s)))).
  { apply (BO_ext t0 T 4 (fun s h => E1 p (sol s) (fun q => u q s h - (a * h * FF s q + b * h ^ 2 * A1 s q + h ^ 3 * W s q)))).
    - intros s h _. unfold A1 at 2, A11.
      replace (a * h * E1 p (sol s) (FF s) + b * h ^ 2 * E1 p (sol s) (A1 s) + h ^ 3 * E1 p (sol s) (W s)) with
        (1 * (a * h * E1 p (sol s) (FF s) + b * h ^ 2 * E1 p (sol s) (A1 s)) + h ^ 3 * E1 p (sol s) (W s)) by ring.
      rewrite <- E1_lin, <- E1_lin. rewrite <- (Rmult_1_l (E1 p (sol s) (at_pos (U s h)))). unfold Rminus at 2.
      rewrite <- (Rmult_1_l (- _)), <- Ropp_mult_distr_r, Ropp_mult_distr_l, <- E1_lin. apply E1_ext. intros q. unfold u. ring.
    - apply (bo_E1 4 p (fun q s h => u q s h - (a * h * FF s q + b * h ^ 2 * A1 s q + h ^ 3 * W s q))). exact HU. }
  (* quadratic term *)
  assert (R2 : bo 4 (fun s h => E2 p (sol s) (at_pos (U s h)) (at_pos (U s h)) - E2 p (sol s) (fun q => u' q s h) (fun q => u' q s h))).
  { apply (BO_ext t0 T 4 (fun s h => E2 p (sol s) (fun q => u q s h - u' q s h) (fun q => u q s h) + E2 p (sol s) (fun q => u' q s h) (fun q => u q s h - u' q s h))).
    - intros s h _. symmetry. apply (E2_diff p (sol s) (fun q => u q s h) (fun q => u' q s h)).
    - apply BO_plus; [apply (bo_E2 3 1 p (fun q s h => u q s h - u' q s h) u); auto|apply (bo_E2 1 3 p u' (fun q s h => u q s h - u' q s h)); auto]. }
  assert (X2 : forall s h, E2 p (sol s) (fun q => u' q s h) (fun q => u' q s h) =
     a ^ 2 * h ^ 2 * A2 s p + 2 * a * b * h ^ 3 * A21 s p + h ^ 4 * (b ^ 2 * E2 p (sol s) (A1 s) (A1 s))).
  { intros s h. unfold u'.
    rewrite E2_lin_l, !E2_lin_r. rewrite (E2_sym p (sol s) (A1 s) (FF s)) by auto. unfold A2, A21. ring. }
  assert (X4 : bo 4 (fun s h => h ^ 4 * (b ^ 2 * E2 p (sol s) (A1 s) (A1 s)))).
  { apply (BO_hg t0 T 4 (fun s _ => b ^ 2 * E2 p (sol s) (A1 s) (A1 s))). apply (BO_const t0 T 0 (b ^ 2) (fun s _ => E2 p (sol s) (A1 s) (A1 s))).
    apply (DB_BO t0 T (fun s => E2 p (sol s) (A1 s) (A1 s))). apply db_E2; apply db_A1. }
  (* cubic term *)
  assert (R3 : bo 4 (fun s h => E3 p (sol s) (at_pos (U s h)) (at_pos (U s h)) (at_pos (U s h)) - a ^ 3 * h ^ 3 * A3 s p)).
  { apply (BO_ext t0 T 4 (fun s h => E3 p (sol s) (fun q => u q s h - u2 q s h) (fun q => u q s h) (fun q => u q s h) +
      (E3 p (sol s) (fun q => u2 q s h) (fun q => u q s h - u2 q s h) (fun q => u q s h) + E3 p (sol s) (fun q => u2 q s h) (fun q => u2 q s h) (fun q => u q s h - u2 q s h)))).
    - intros s h _. pose proof (E3_diff p (sol s) (fun q => u q s h) (fun q => u2 q s h)) as H. rewrite <- H.
      f_equal. f_equal. unfold u2. rewrite (E3_scal p (sol s) (a * h) (FF s)). unfold A3. ring.
    - apply BO_plus; [apply (bo_E3 2 1 1 p (fun q s h => u q s h - u2 q s h) u u); auto|].
      apply BO_plus; [apply (bo_E3 1 2 1 p u2 (fun q s h => u q s h - u2 q s h) u); auto|apply (bo_E3 1 1 2 p u2 u2 (fun q s h => u q s h - u2 q s h)); auto]. }
  eapply BO_ext; [|apply (BO_plus t0 T 4 _ _ R0 (BO_plus t0 T 4 _ _ R1 (BO_plus t0 T 4 _ _ (BO_const t0 T 4 (/ 2) _ R2)
    (BO_plus t0 T 4 _ _ (BO_const t0 T 4 (/ 6) _ R3) (BO_const t0 T 4 (/ 2) _ X4)))))].
  intros s h _. cbn beta. rewrite X2. field.
Qed.

Lemma times_h c (k : R -> R -> R) (c0 c1 c2 c3 : R -> R) : bo 0 (fun s _ => c3 s) ->
  eq_mod 4 k (fun s h => c0 s + h * c1 s + h ^ 2 * c2 s + h ^ 3 * c3 s) ->
  eq_mod 4 (fun s h => c * h * k s h) (fun s h => c * h * c0 s + c * h ^ 2 * c1 s + c * h ^ 3 * c2 s).
Proof.
  intros H3 H. pose proof (BO_mult t0 T 1 4 _ _ (BO_h t0 T 1) H) as H5. apply (BO_weak t0 T 4 5) in H5; [|lia].
  pose proof (BO_hg t0 T 4 _ H3) as H4.
  eapply BO_ext; [|apply (BO_plus t0 T 4 _ _ (BO_const t0 T 4 c _ H5) (BO_const t0 T 4 c _ H4))].
  intros s h _. cbn beta. ring.
Qed.

Variable df : dynamics.
Hypothesis HC : components sh df f.
Definition slope (y : tree) : tree := match df y 0 with Ok k => k | Err _ => [] end.
Lemma df_slope y t : shape y = sh -> df y t = Ok (slope y) /\ shape (slope y) = sh /\ forall p, at_pos (slope y) p = f p y.
Proof.
  intros Sy. destruct (HC y t Sy) as (k & E & Sk & Vk). destruct (HC y 0 Sy) as (k0 & E0 & S0 & V0).
  assert (slope y = k0) as -> by (unfold slope; rewrite E0; reflexivity).
  split; [|auto]. rewrite E. f_equal. apply tree_ext; [congruence|]. intros i j.
  specialize (Vk (i, j)). specialize (V0 (i, j)). unfold at_pos in *. cbn [fst snd] in *. congruence.
Qed.
Definition K1 (s : R) : tree := slope (sol s).
Definition K2 (s h : R) : tree := slope (tadd (sol s) (tscal (1 / 2 * h) (K1 s))).
Definition K3 (s h : R) : tree := slope (tadd (sol s) (tscal (1 / 2 * h) (K2 s h))).
Definition K4 (s h : R) : tree := slope (tadd (sol s) (tscal h (K3 s h))).
Lemma K1_shape s : shape (K1 s) = sh. Proof. apply (df_slope (sol s) 0); auto. Qed.
Lemma K2_shape s h : shape (K2 s h) = sh. Proof. apply (df_slope _ 0). apply shape_line; auto. apply K1_shape. Qed.
Lemma K3_shape s h : shape (K3 s h) = sh. Proof. apply (df_slope _ 0). apply shape_line; auto. apply K2_shape. Qed.
Lemma K4_shape s h : shape (K4 s h) = sh. Proof. apply (df_slope _ 0). apply shape_line; auto. apply K3_shape. Qed.
Lemma at_pos_scal c y p : at_pos (tscal c y) p = c * at_pos y p.
Proof. apply entry_scal. Qed.
Lemma K1_val s p : at_pos (K1 s) p = FF s p. Proof. apply (df_slope (sol s) 0); auto. Qed.
Lemma K2_val s h p : at_pos (K2 s h) p = f p (tadd (sol s) (tscal (1 / 2 * h) (K1 s))).
Proof. apply (df_slope _ 0). apply shape_line; auto. apply K1_shape. Qed.
Lemma K3_val s h p : at_pos (K3 s h) p = f p (tadd (sol s) (tscal (1 / 2 * h) (K2 s h))).
Proof. apply (df_slope _ 0). apply shape_line; auto. apply K2_shape. Qed.
Lemma K4_val s h p : at_pos (K4 s h) p = f p (tadd (sol s) (tscal h (K3 s h))).
Proof. apply (df_slope _ 0). apply shape_line; auto. apply K3_shape. Qed.

Ltac bo0 := first [apply (DB_BO t0 T (fun s => FF s _)), db_FF | apply (DB_BO t0 T (fun s => A1 s _)), db_A1 | apply (DB_BO t0 T (fun s => A2 s _)), db_A2
  | apply (DB_BO t0 T (fun s => A11 s _)), db_A11 | apply (DB_BO t0 T (fun s => A3 s _)), db_A3 | apply (DB_BO t0 T (fun s => A21 s _)), db_A21
  | apply (DB_BO t0 T (fun s => A12 s _)), db_A12 | apply (DB_BO t0 T (fun s => A111 s _)), db_A111
  | apply BO_const; bo0 | apply BO_plus; bo0].

Lemma K2_expansion p : eq_mod 4 (fun s h => at_pos (K2 s h) p)
  (fun s h => FF s p + h * (1 / 2 * A1 s p) + h ^ 2 * (1 / 8 * A2 s p) + h ^ 3 * (1 / 48 * A3 s p)).
Proof.
  assert (Z : forall q, E1 q (sol 0) (fun _ => 0) = 0) by (intros q; unfold E1; rewrite (over_ext sh _ (fun _ => 0)) by (intros; ring); rewrite over_const; ring).
  pose proof (stage (1 / 2) 0 (fun _ _ => 0) (fun s h => tscal (1 / 2 * h) (K1 s))) as H.
  eapply BO_ext; [|apply H].
  - intros s h _. cbn beta. rewrite K2_val.
    assert (Z' : E1 p (sol s) (fun _ => 0) = 0) by (unfold E1; rewrite (over_ext sh _ (fun _ => 0)) by (intros; ring); rewrite over_const; ring).
    rewrite Z'. field.
  - intros q. apply BO_zero.
  - intros s h. rewrite shape_scal. apply K1_shape.
  - intros q. apply EQ_ext. intros s h _. rewrite at_pos_scal, K1_val. ring.
Qed.
Lemma K3_expansion p : eq_mod 4 (fun s h => at_pos (K3 s h) p)
  (fun s h => FF s p + h * (1 / 2 * A1 s p) + h ^ 2 * (1 / 4 * A11 s p + 1 / 8 * A2 s p)
    + h ^ 3 * (1 / 16 * A12 s p + (1 / 8 * A21 s p + 1 / 48 * A3 s p))).
Proof.
  pose proof (stage (1 / 2) (1 / 4) (fun s q => 1 / 16 * A2 s q) (fun s h => tscal (1 / 2 * h) (K2 s h))) as H.
  eapply BO_ext; [|apply H].
  - intros s h _. cbn beta. rewrite K3_val.
    assert (Z : E1 p (sol s) (fun q => 1 / 16 * A2 s q) = 1 / 16 * A12 s p).
    { rewrite (E1_ext p (sol s) _ (fun q => 1 / 16 * A2 s q + 0 * A2 s q)) by (intros; ring). rewrite E1_lin. unfold A12. ring. }
    rewrite Z. field.
  - intros q. bo0.
  - intros s h. rewrite shape_scal. apply K2_shape.
  - intros q. assert (B3 : bo 0 (fun s _ => 1 / 48 * A3 s q)) by bo0.
    pose proof (times_h (1 / 2) _ _ _ _ (fun s => 1 / 48 * A3 s q) B3 (K2_expansion q)) as K.
    eapply BO_ext; [|exact K]. intros s h _. cbn beta. rewrite at_pos_scal. field.
Qed.
Lemma K4_expansion p : eq_mod 4 (fun s h => at_pos (K4 s h) p)
  (fun s h => FF s p + h * A1 s p + h ^ 2 * (1 / 2 * A11 s p + 1 / 2 * A2 s p)
    + h ^ 3 * (1 / 4 * A111 s p + 1 / 8 * A12 s p + (1 / 2 * A21 s p + 1 / 6 * A3 s p))).
Proof.
  pose proof (stage 1 (1 / 2) (fun s q => 1 / 4 * A11 s q + 1 / 8 * A2 s q) (fun s h => tscal h (K3 s h))) as H.
  eapply BO_ext; [|apply H].
  - intros s h _. cbn beta. rewrite K4_val.
    assert (Z : E1 p (sol s) (fun q => 1 / 4 * A11 s q + 1 / 8 * A2 s q) = 1 / 4 * A111 s p + 1 / 8 * A12 s p) by apply E1_lin.
    rewrite Z. field.
  - intros q. bo0.
  - intros s h. rewrite shape_scal. apply K3_shape.
  - intros q. assert (B3 : bo 0 (fun s _ => 1 / 16 * A12 s q + (1 / 8 * A21 s q + 1 / 48 * A3 s q))) by bo0.
    pose proof (times_h 1 _ _ _ _ (fun s => 1 / 16 * A12 s q + (1 / 8 * A21 s q + 1 / 48 * A3 s q)) B3 (K3_expansion q)) as K.
    eapply BO_ext; [|exact K]. intros s h _. cbn beta. rewrite at_pos_scal. field.
Qed.

(** local error *)
Lemma local_error p : bo 5 (fun s h => at_pos (sol s) p + h / 6 * (at_pos (K1 s) p + 2 * at_pos (K2 s h) p + 2 * at_pos (K3 s h) p + at_pos (K4 s h) p)
  - at_pos (sol (s + h)) p).
Proof.
  pose proof (BO_plus t0 T 4 _ _ (BO_const t0 T 4 2 _ (K2_expansion p)) (BO_plus t0 T 4 _ _ (BO_const t0 T 4 2 _ (K3_expansion p)) (K4_expansion p))) as H.
  pose proof (BO_mult t0 T 1 4 _ _ (BO_h t0 T 1) H) as H5.
  pose proof (BO_plus t0 T 5 _ _ (BO_const t0 T 5 (1 / 6) _ H5) (BO_opp t0 T 5 _ (sol_expansion p))) as K.
  eapply BO_ext; [|exact K]. intros s h _. cbn beta. rewrite K1_val. field.
Qed.
(** one constant for all positions *)
Lemma list_bound (l : list pos) : exists C, 0 <= C /\ forall p, In p l -> forall s h, dom t0 T s h ->
  Rabs (at_pos (sol s) p + h / 6 * (at_pos (K1 s) p + 2 * at_pos (K2 s h) p + 2 * at_pos (K3 s h) p + at_pos (K4 s h) p) - at_pos (sol (s + h)) p) <= C * h ^ 5.
Proof.
  induction l as [|p l (C & HC0 & H)]; [exists 0; split; [lra|]; intros ? []|].
  destruct (local_error p) as (C' & HC' & H'). exists (C + C'). split; [lra|]. intros q [->|Hq] s h Hd.
  - specialize (H' s h Hd). eapply Rle_trans; [exact H'|]. apply Rmult_le_compat_r; [|lra]. destruct Hd as (_ & Hh & _). apply pow_le; lra.
  - specialize (H q Hq s h Hd). eapply Rle_trans; [exact H|]. apply Rmult_le_compat_r; [|lra]. destruct Hd as (_ & Hh & _). apply pow_le; lra.
Qed.
Lemma outside y p : shape y = sh -> ~ In p (positions sh) -> at_pos y p = 0.
Proof.
  intros Sy Hp. destruct p as [i j]. unfold at_pos, entry. cbn [fst snd].
  destruct (lt_dec i (length y)) as [Hi|Hi]; [|rewrite (nth_overflow y) by lia; destruct j; reflexivity].
  apply nth_overflow. destruct (le_lt_dec (length (nth i y [])) j); auto. exfalso. apply Hp.
  unfold positions. apply in_flat_map. exists i. subst sh. unfold shape. rewrite map_length. split; [apply in_seq; lia|].
  apply in_map. apply in_seq. rewrite (nth_indep _ 0%nat (length (@nil R))) by (rewrite map_length; auto). rewrite map_nth. lia.
Qed.
Lemma rk4_consistent4 : exists C, 0 <= C /\ forall s h r t, dom t0 T s h -> rk4 df (sol s) t h = Ok r -> close (C * h ^ 5) r (sol (s + h)).
Proof.
  destruct (list_bound (positions sh)) as (C & C0 & H). exists C. split; auto. intros s h r t Hd Er.
  assert (SH : shaped df (sol s)).
  { intros z u Hz. rewrite SS in Hz. destruct (df_slope z u Hz) as (E & Sz & _). exists (slope z). split; auto. rewrite SS. auto. }
  destruct (rk4_stages df (sol s) t h SH) as (k1 & k2 & k3 & k4 & r1 & E1' & E2' & E3' & E4' & S1 & S2 & S3 & S4 & ER & SR & V).
  rewrite Er in ER. injection ER as <-. rewrite !tscal_tscal in E2', E3'.
  assert (Q1 : k1 = K1 s). { rewrite (proj1 (df_slope (sol s) t (SS s))) in E1'. injection E1' as <-. reflexivity. }
  subst k1. assert (Q2 : k2 = K2 s h).
  { rewrite (proj1 (df_slope _ (t + h / 2) (shape_line (sol s) (K1 s) (1 / 2 * h) (SS s) (K1_shape s)))) in E2'. injection E2' as <-. reflexivity. }
  subst k2. assert (Q3 : k3 = K3 s h).
  { rewrite (proj1 (df_slope _ (t + h / 2) (shape_line (sol s) (K2 s h) (1 / 2 * h) (SS s) (K2_shape s h)))) in E3'. injection E3' as <-. reflexivity. }
  subst k3. assert (Q4 : k4 = K4 s h).
  { rewrite (proj1 (df_slope _ (t + h) (shape_line (sol s) (K3 s h) h (SS s) (K3_shape s h)))) in E4'. injection E4' as <-. reflexivity. }
  subst k4. intros i j.
  destruct (in_dec (fun x y : pos => ltac:(decide equality; apply Nat.eq_dec)) (i, j) (positions sh)) as [Hin|Hout].
  - rewrite V. apply (H (i, j) Hin s h Hd).
  - pose proof (outside r (i, j) ltac:(rewrite SR; auto) Hout) as Z1. pose proof (outside (sol (s + h)) (i, j) (SS _) Hout) as Z2.
    unfold at_pos in Z1, Z2. cbn [fst snd] in Z1, Z2. rewrite Z1, Z2, Rminus_diag_eq, Rabs_R0 by auto.
    apply Rmult_le_pos; auto. destruct Hd as (_ & Hh & _). apply pow_le; lra.
Qed.
(** f is Lipschitz *)
Lemma f_lipschitz : lipschitz_ode sh df (INR (length (positions sh)) * M) 0.
Proof.
  split.
  - intros y s Sy. destruct (df_slope y s Sy) as (E & S' & _). eauto.
  - intros y z s t k m e Sy Sz Ek Em Hc. pose proof (close_nonneg _ _ _ Hc) as e0.
    destruct (df_slope y s Sy) as (E & Sk & Vk). rewrite Ek in E. injection E as ->.
    destruct (df_slope z t Sz) as (E & Sm & Vm). rewrite Em in E. injection E as ->.
    rewrite Rmult_0_l, Rplus_0_r. intros i j. pose proof (Vk (i, j)) as V1. pose proof (Vm (i, j)) as V2. unfold at_pos in V1, V2. cbn [fst snd] in V1, V2.
    rewrite V1, V2. set (p := (i, j)).
    set (u := tadd y (tscal (-1) z)). assert (Su : shape u = sh) by (apply shape_line; auto).
    assert (Vu : forall q, at_pos u q = at_pos y q - at_pos z q) by (intros q; unfold u; rewrite at_pos_line by auto; ring).
    set (c := fun s => tadd z (tscal s u)). assert (Sc : forall s, shape (c s) = sh) by (intros; apply shape_line; auto).
    assert (C0 : c 0 = z).
    { apply tree_ext; [rewrite Sc; auto|]. intros i' j'. pose proof (at_pos_line z u 0 (i', j') Sz Su) as H. unfold at_pos in H. cbn [fst snd] in H. unfold c. rewrite H. ring. }
    assert (C1 : c 1 = y).
    { apply tree_ext; [rewrite Sc; auto|]. intros i' j'. pose proof (at_pos_line z u 1 (i', j') Sz Su) as H. specialize (Vu (i', j')). unfold at_pos in H, Vu. cbn [fst snd] in H, Vu. unfold c. rewrite H, Vu. ring. }
    assert (Dc : forall t q, is_derive (fun s => at_pos (c s) q) t (at_pos u q)).
    { intros x q. apply (is_derive_ext (fun s => at_pos z q + s * at_pos u q)).
      - intros w. symmetry. apply at_pos_line; auto.
      - auto_derive; auto. ring. }
    pose proof (mvt_bound (fun x => f p (c x) - f p z) (fun x => E1 p (c x) (at_pos u)) 0 1 (INR (length (positions sh)) * M * e) 0) as H.
    cbv beta in H. rewrite C1 in H. replace ((1 - 0) ^ 1) with 1 in H by ring. rewrite Rmult_1_r in H. apply H; clear H; [lra| | |].
    + apply Rmult_le_pos; auto. apply Rmult_le_pos; [apply pos_INR|apply M_nonneg].
    + rewrite C0. ring.
    + intros x _. split.
      * rewrite <- (Rminus_0_r (E1 p (c x) (at_pos u))). apply (is_derive_minus (V := R_NormedModule)); [apply f_curve; auto|apply @is_derive_const].
      * rewrite pow_O, Rmult_1_r. unfold E1. eapply Rle_trans; [apply over_abs|].
        rewrite Rmult_assoc, <- over_const. apply over_le. intros q. rewrite Rabs_mult, Vu. apply Rmult_le_compat; auto using Rabs_pos; [|apply Hc].
        apply (BD p q q q q). auto.
Qed.
End System.

Lemma rk4_fourth_order : forall sh df f M sol t0 T B, components sh df f -> four_derivatives sh f M -> (forall t, shape (sol t) = sh) ->
  solves sh df sol t0 T B -> exists K, 0 <= K /\ forall ts h e0 y,
  nondecreasing (t0 :: ts) -> steps_at_most h (t0 :: ts) -> 0 <= h <= 1 -> final (t0 :: ts) <= T ->
  shape y = sh -> close e0 y (sol t0) ->
  exists ys, odeint df y (t0 :: ts) rk4 = Ok ys /\ forall n t, nth_error (t0 :: ts) n = Some t ->
    close (exp (INR (length (positions sh)) * M * (t - t0)) * (e0 + K * h ^ 4 * (t - t0))) (nth n ys []) (sol t).
Proof.
  intros sh df f M sol t0 T B HC (d1 & d2 & d3 & d4 & G1 & G2 & G3 & G4 & SY & BD) SS HS.
  assert (DS : forall t p, t0 <= t <= T -> is_derive (fun s => at_pos (sol s) p) t (f p (sol t)) /\ Rabs (f p (sol t)) <= B).
  { intros t p Ht. destruct (HS t Ht) as (_ & k & Ek & Dk). destruct (HC (sol t) t (SS t)) as (k' & Ek' & _ & Vk').
    rewrite Ek in Ek'. injection Ek' as <-. rewrite <- (Vk' p). destruct p as [i j]. apply Dk. }
  destruct (rk4_consistent4 sh f M sol t0 T B d1 d2 d3 d4 G1 G2 G3 G4 SY BD SS DS df HC) as (C & C0 & HC5).
  pose proof (f_lipschitz sh f M sol d1 d2 d3 d4 G1 BD SS df HC) as HL.
  pose proof (M_nonneg sh M sol d1 d2 d3 d4 BD SS) as M0.
  set (L := INR (length (positions sh)) * M) in *. assert (L0 : 0 <= L) by (apply Rmult_le_pos; [apply pos_INR|auto]).
  exists C. split; auto. intros ts h e0 y Hm Hh h0 HT Sy Hc.
  assert (GS : good_step sh df sol t0 T L rk4 (C * h ^ 3) h).
  { intros z s t e H1 H2 H3 H4 Sz Hz.
    assert (shp : forall w, shape w = sh -> shaped df w).
    { intros w E v u Hv. destruct (proj1 HL v u) as (k & X1 & X2); [congruence|]. exists k. split; auto. congruence. }
    destruct (rk4_stages df z t (t - s) (shp z Sz)) as (_ & _ & _ & _ & r & _ & _ & _ & _ & _ & _ & _ & _ & Er & Sr & _).
    destruct (rk4_stages df (sol s) t (t - s) (shp _ (SS s))) as (_ & _ & _ & _ & r' & _ & _ & _ & _ & _ & _ & _ & _ & Er' & _ & _).
    exists r. split; auto. split; [congruence|].
    assert (Hd : dom t0 T s (t - s)) by (unfold dom; lra).
    pose proof (HC5 s (t - s) r' t Hd Er') as K. replace (s + (t - s)) with t in K by ring.
    eapply close_le; [|eapply close_trans; [apply (rk4_stable sh df L 0 HL L0 z (sol s) t (t - s) e r r'); auto; lra|exact K]].
    apply Rplus_le_compat_l. replace (C * h ^ 3 * h * (t - s)) with (C * (h ^ 4 * (t - s))) by ring.
    apply Rmult_le_compat_l; auto. replace ((t - s) ^ 5) with ((t - s) ^ 4 * (t - s)) by ring. apply Rmult_le_compat_r; [lra|]. apply pow_incr. lra. }
  destruct (odeint_error sh df sol t0 T L L0 rk4 (C * h ^ 3) h e0 y ts GS) as (ys & E & V); auto; [apply Rmult_le_pos; auto; apply pow_le; lra|lra|].
  exists ys. split; auto. intros n t Ht. apply nth_error_nth' in Ht as [<- Hn].
  replace (C * h ^ 4) with (C * h ^ 3 * h) by ring. apply V. simpl in Hn. lia.
Qed.
