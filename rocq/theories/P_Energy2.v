(** Proofs about the losses of the micromagnetic notebooks: bounds and gradients. *)
From Coq Require Import Lra Lia.
From Coquelicot Require Import Coquelicot.
From Verif Require Import Base BaseFacts S_RFun P_Vec M_Quat M_RFun M_Domain M_Tensor M_Calc M_Integrate M_Surface M_Mumag M_Energy
  S_Calc S_Integrate S_Surface S_Mumag S_Energy P_Calc P_Energy.
Import ListNotations.
Open Scope R_scope.

Section Bounds.
Variables (X : list sample) (f : nat -> list R -> R).
Hypotheses (PX : points X) (Hf : unit_field f).
Lemma pts p : In p X -> length (tlist (fst p)) = 3%nat.
Proof. intros H. apply tlist_length. now apply PX. Qed.
Lemma ex_bound A : 0 <= A -> 0 <= A * avg (fun p => gradient_sq f (tlist (fst p))) X.
Proof.
  intros HA. apply Rmult_le_pos; [exact HA|]. destruct PX as (N & _). unfold avg.
  apply Rmult_le_pos.
  - clear. induction X as [|p l IH]; [cbn; lra|]. cbn [map sumR fold_right]. pose proof (gradient_sq_nonneg f (tlist (fst p))). unfold sumR in IH. lra.
  - apply Rlt_le, Rinv_0_lt_compat, lt_0_INR. destruct X; [congruence|cbn; lia].
Qed.
Lemma ex_zero A : 0 < A -> (A * avg (fun p => gradient_sq f (tlist (fst p))) X = 0 <->
  forall p i j, In p X -> (i < 3)%nat -> (j < 3)%nat -> pd j (f i) (tlist (fst p)) = 0).
Proof.
  intros HA. destruct PX as (N & _).
  pose proof (avg_nonneg_0 (fun p : sample => gradient_sq f (tlist (fst p))) X N (fun p _ => gradient_sq_nonneg f _)) as Z.
  split.
  - intros E p i j Hp Hi Hj. apply Rmult_integral in E. destruct E as [E|E]; [lra|].
    apply (proj1 (gradient_sq_zero f (tlist (fst p)))); trivial. now apply (proj1 Z).
  - intros E. rewrite (proj2 Z); [ring|]. intros p Hp. apply gradient_sq_zero. intros; now apply E.
Qed.
Lemma ani_bound Ka u : 0 <= Ka -> unit3 u -> 0 <= Ka * avg (fun p => 1 - along f u (tlist (fst p)) ^ 2) X <= Ka.
Proof.
  intros HK Hu. assert (B : 0 <= avg (fun p : sample => 1 - along f u (tlist (fst p)) ^ 2) X <= 1).
  { apply avg_bound; [apply PX|]. intros p Hp. pose proof (along_bound f u (tlist (fst p)) Hf (pts p Hp) Hu). nra. }
  split; nra.
Qed.
Lemma ani_zero Ka u : 0 < Ka -> unit3 u -> (Ka * avg (fun p => 1 - along f u (tlist (fst p)) ^ 2) X = 0 <->
  forall p, In p X -> (forall i, (i < 3)%nat -> f i (tlist (fst p)) = nth i u 0) \/ (forall i, (i < 3)%nat -> f i (tlist (fst p)) = - nth i u 0)).
Proof.
  intros HK Hu. destruct PX as (N & _).
  assert (NN : forall p : sample, In p X -> 0 <= 1 - along f u (tlist (fst p)) ^ 2).
  { intros p Hp. pose proof (along_bound f u (tlist (fst p)) Hf (pts p Hp) Hu). nra. }
  pose proof (avg_nonneg_0 _ X N NN) as Z. split.
  - intros E p Hp. apply Rmult_integral in E. destruct E as [E|E]; [lra|]. pose proof (proj1 Z E p Hp) as E1.
    assert (E2 : (along f u (tlist (fst p)) - 1) * (along f u (tlist (fst p)) + 1) = 0) by lra.
    apply Rmult_integral in E2. destruct E2 as [E2|E2].
    + left. apply along_one; auto using pts. lra.
    + right. apply along_minus_one; auto using pts. lra.
  - intros E. rewrite (proj2 Z); [ring|]. intros p Hp. destruct (E p Hp) as [H|H].
    + apply along_one in H; auto using pts. rewrite H. ring.
    + apply along_minus_one in H; auto using pts. rewrite H. ring.
Qed.
Lemma ext_bound h u : unit3 u -> Rabs (- h * avg (fun p => along f u (tlist (fst p))) X) <= Rabs h.
Proof.
  intros Hu. assert (B : -1 <= avg (fun p : sample => along f u (tlist (fst p))) X <= 1).
  { apply avg_bound; [apply PX|]. intros p Hp. exact (along_bound f u (tlist (fst p)) Hf (pts p Hp) Hu). }
  rewrite Rabs_mult, Rabs_Ropp. rewrite <- (Rmult_1_r (Rabs h)) at 2. apply Rmult_le_compat_l; [apply Rabs_pos|].
  apply Rabs_le. exact B.
Qed.
(** the energy in the field is least exactly if the body is saturated *)
Lemma ext_least h u : 0 < h -> unit3 u -> (- h * avg (fun p => along f u (tlist (fst p))) X = - h <->
  forall p i, In p X -> (i < 3)%nat -> f i (tlist (fst p)) = nth i u 0).
Proof.
  intros HH Hu. destruct PX as (N & _).
  assert (NN : forall p : sample, In p X -> 0 <= 1 - along f u (tlist (fst p))).
  { intros p Hp. pose proof (along_bound f u (tlist (fst p)) Hf (pts p Hp) Hu). lra. }
  pose proof (avg_nonneg_0 _ X N NN) as Z.
  assert (E1 : avg (fun p : sample => 1 - along f u (tlist (fst p))) X = 1 - avg (fun p => along f u (tlist (fst p))) X).
  { unfold avg. assert (P : INR (length X) <> 0) by (apply not_0_INR; destruct X; [congruence|discriminate]).
    assert (E : sumR (map (fun p : sample => 1 - along f u (tlist (fst p))) X) = INR (length X) - sumR (map (fun p => along f u (tlist (fst p))) X)).
    { clear. unfold sumR. induction X as [|p l IH]; [cbn; ring|]. cbn [map fold_right length]. rewrite S_INR, IH. ring. }
    rewrite E. field. exact P. }
  split.
  - intros E p i Hp Hi. assert (E2 : avg (fun p : sample => along f u (tlist (fst p))) X = 1) by nra.
    apply (proj1 (along_one f u (tlist (fst p)) Hf (pts p Hp) Hu)); trivial.
    assert (E3 : 1 - along f u (tlist (fst p)) = 0) by (apply (proj1 Z); trivial; lra). lra.
  - intros E. assert (E3 : avg (fun p : sample => 1 - along f u (tlist (fst p))) X = 0).
    { apply (proj2 Z). intros p Hp. assert (E4 : along f u (tlist (fst p)) = 1) by (apply along_one; auto using pts). rewrite E4. ring. }
    rewrite E1 in E3. replace (avg (fun p : sample => along f u (tlist (fst p))) X) with 1 by lra. ring.
Qed.
End Bounds.

(** gradients *)
Lemma diag_derive B t l1 l2 : differentiable_pt_lim B t t l1 l2 -> is_derive (fun s => B s s) t (l1 + l2).
Proof.
  intros D. apply is_derive_Reals. intros e He.
  assert (He4 : 0 < e / 2) by lra. destruct (D (mkposreal _ He4)) as (d & Hd). exists d. intros h Hh Hd'.
  assert (A : Rabs (t + h - t) < d) by (replace (t + h - t) with h by ring; exact Hd').
  pose proof (Hd (t + h) (t + h) A A) as K. replace (t + h - t) with h in K by ring.
  rewrite Rmax_left in K by lra. cbn [pos] in K.
  replace ((B (t + h) (t + h) - B t t) / h - (l1 + l2)) with ((B (t + h) (t + h) - B t t - (l1 * h + l2 * h)) / h) by (field; exact Hh).
  unfold Rdiv. rewrite Rabs_mult, Rabs_inv. apply Rmult_lt_reg_r with (Rabs h); [now apply Rabs_pos_lt|].
  rewrite Rmult_assoc, Rinv_l, Rmult_1_r by (apply Rabs_no_R0; exact Hh).
  pose proof (Rabs_pos_lt h Hh). apply Rle_lt_trans with (1 := K). nra.
Qed.
Lemma first_derive B t l1 l2 : differentiable_pt_lim B t t l1 l2 -> is_derive (fun s => B s t) t l1 /\ is_derive (fun s => B t s) t l2.
Proof.
  intros D. split; apply is_derive_Reals; intros e He; assert (He2 : 0 < e / 2) by lra;
    destruct (D (mkposreal _ He2)) as (d & Hd); exists d; intros h Hh Hd'; pose proof (Rabs_pos_lt h Hh) as HP;
    assert (A : Rabs (t + h - t) < d) by (replace (t + h - t) with h by ring; exact Hd');
    assert (A0 : Rabs (t - t) < d) by (rewrite Rminus_diag_eq, Rabs_R0 by reflexivity; apply cond_pos).
  - pose proof (Hd (t + h) t A A0) as K. replace (t + h - t) with h in K by ring. replace (t - t) with 0 in K by ring. rewrite Rabs_R0 in K.
    rewrite Rmax_left in K by lra. cbn [pos] in K.
    replace ((B (t + h) t - B t t) / h - l1) with ((B (t + h) t - B t t - (l1 * h + l2 * 0)) / h) by (field; exact Hh).
    unfold Rdiv. rewrite Rabs_mult, Rabs_inv. apply Rmult_lt_reg_r with (Rabs h); [exact HP|].
    rewrite Rmult_assoc, Rinv_l, Rmult_1_r by lra. apply Rle_lt_trans with (1 := K). nra.
  - pose proof (Hd t (t + h) A0 A) as K. replace (t + h - t) with h in K by ring. replace (t - t) with 0 in K by ring. rewrite Rabs_R0 in K.
    rewrite Rmax_right in K by lra. cbn [pos] in K.
    replace ((B t (t + h) - B t t) / h - l2) with ((B t (t + h) - B t t - (l1 * 0 + l2 * h)) / h) by (field; exact Hh).
    unfold Rdiv. rewrite Rabs_mult, Rabs_inv. apply Rmult_lt_reg_r with (Rabs h); [exact HP|].
    rewrite Rmult_assoc, Rinv_l, Rmult_1_r by lra. apply Rle_lt_trans with (1 := K). nra.
Qed.
Lemma symmetric_gradient (rest : R -> R) B t k : ex_derive rest t -> (forall s u, B s u = B u s) -> differentiable_pt B t t ->
  Derive (fun s => rest s + k * B s t) t = Derive (fun s => rest s + k / 2 * B s s) t /\
  Derive (fun s => rest s + k * B s s) t = Derive (fun s => rest s + k * B s t) t + Derive (fun s => k / 2 * B s s) t.
Proof.
  intros (r & Hr) HB (l1 & l2 & D). destruct (first_derive B t l1 l2 D) as (D1 & D2). pose proof (diag_derive B t l1 l2 D) as D3.
  assert (E : l1 = l2).
  { rewrite <- (is_derive_unique _ _ _ D1), <- (is_derive_unique _ _ _ D2). apply Derive_ext. intros s. apply HB. }
  subst l2.
  assert (P1 : is_derive (fun s => rest s + k * B s t) t (r + k * l1)) by (apply (is_derive_plus rest (fun s => k * B s t) t r (k * l1) Hr); apply (is_derive_scal (fun s => B s t)); exact D1).
  assert (P2 : is_derive (fun s => k / 2 * B s s) t (k / 2 * (l1 + l1))) by (apply (is_derive_scal (fun s => B s s)); exact D3).
  assert (P3 : is_derive (fun s => rest s + k / 2 * B s s) t (r + k / 2 * (l1 + l1))) by (apply (is_derive_plus rest (fun s => k / 2 * B s s) t r _ Hr); exact P2).
  assert (P4 : is_derive (fun s => rest s + k * B s s) t (r + k * (l1 + l1))) by (apply (is_derive_plus rest (fun s => k * B s s) t r _ Hr); apply (is_derive_scal (fun s => B s s)); exact D3).
  split.
  - etransitivity; [exact (is_derive_unique _ _ _ P1)|]. symmetry. etransitivity; [exact (is_derive_unique _ _ _ P3)|]. cbn. field.
  - etransitivity; [exact (is_derive_unique _ _ _ P4)|]. symmetry.
    etransitivity; [exact (f_equal2 Rplus (is_derive_unique _ _ _ P1) (is_derive_unique _ _ _ P2))|]. cbn. field.
Qed.
Lemma hyst_gradient_lemma solver A Ka axis ha X hext (m : R -> field) (f : R -> nat -> list R -> R) (h : R -> sample -> list R) t :
  let loss s u := hyst_loss solver A Ka axis ha X (m s) (m u) hext in
  points X -> (forall s, rep1 3 3 (m s) (f s)) -> (forall s, gives (solver (m s)) X (h s)) -> shape axis = [3%nat] -> shape ha = [3%nat] ->
  ex_derive (fun s => out_of (fun o => e_ex o + e_ani o + e_ext o) (loss s t)) t ->
  (forall s u, interaction X (f s) (h u) = interaction X (f u) (h s)) -> differentiable_pt (fun s u => interaction X (f s) (h u)) t t ->
  Derive (fun s => out_of l_value (loss s t)) t = Derive (fun s => out_of e_tot (loss s s)) t /\
  Derive (fun s => out_of l_value (loss s s)) t = Derive (fun s => out_of l_value (loss s t)) t + Derive (fun s => out_of e_mag (loss s s)) t.
Proof.
  intros loss PX Hf Hh Ha Hha HR HB HD.
  set (rest := fun s => A * avg (fun p => gradient_sq (f s) (tlist (fst p))) X +
    Ka * avg (fun p => 1 - along (f s) (tlist axis) (tlist (fst p)) ^ 2) X + - hext * avg (fun p => along (f s) (tlist ha) (tlist (fst p))) X).
  assert (V : forall s u, out_of l_value (loss s u) = rest s + - 1 * interaction X (f s) (h u) /\
    out_of e_tot (loss s u) = rest s + - 1 / 2 * interaction X (f s) (h u) /\ out_of e_mag (loss s u) = - 1 / 2 * interaction X (f s) (h u) /\
    out_of (fun o => e_ex o + e_ani o + e_ext o) (loss s u) = rest s).
  { intros s u. destruct (hyst_ok solver A Ka axis ha X (m s) (m u) hext (f s) (h u) PX (Hf s) (Hh u) Ha Hha) as (o & E & E1 & E2 & E3 & E4 & E5 & E6).
    unfold loss. rewrite E. cbn [out_of]. unfold rest. rewrite E6, E5, E1, E2, E3, E4. split; [field|]. split; [field|]. split; [field|ring]. }
  assert (HR' : ex_derive rest t).
  { apply ex_derive_ext with (2 := HR). intros s. apply V. }
  destruct (symmetric_gradient rest (fun s u => interaction X (f s) (h u)) t (-1) HR' HB HD) as (G1 & G2).
  rewrite (Derive_ext (fun s => out_of l_value (loss s t)) (fun s => rest s + - 1 * interaction X (f s) (h t))) by (intros s; apply V).
  rewrite (Derive_ext (fun s => out_of e_tot (loss s s)) (fun s => rest s + - 1 / 2 * interaction X (f s) (h s))) by (intros s; apply V).
  rewrite (Derive_ext (fun s => out_of l_value (loss s s)) (fun s => rest s + - 1 * interaction X (f s) (h s))) by (intros s; apply V).
  rewrite (Derive_ext (fun s => out_of e_mag (loss s s)) (fun s => - 1 / 2 * interaction X (f s) (h s))) by (intros s; apply V).
  now split.
Qed.
