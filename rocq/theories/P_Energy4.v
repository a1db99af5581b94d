(** Proofs about the loss of mumag3.ipynb. *)
From Coq Require Import Lra Lia.
From Coquelicot Require Import Coquelicot.
From Verif Require Import Base BaseFacts S_RFun P_Vec M_Quat M_RFun M_Domain M_Tensor M_Calc M_Integrate M_Surface M_Mumag M_Energy
  S_Calc S_Integrate S_Surface S_Mumag S_Energy P_Calc P_Energy P_Energy2.
Import ListNotations.
Open Scope R_scope.

Lemma mumag1_ok solver X m m' lam f h : points X -> rep1 3 3 m f -> gives (solver m') X h -> lam <> 0 ->
  exists o, mumag_loss1 solver X m m' lam = Ok o /\
    e_ex o = / lam ^ 2 * avg (fun p => gradient_sq f (tlist (fst p))) X /\
    e_ani o = / 10 * avg (fun p => 1 - f 2%nat (tlist (fst p)) ^ 2) X /\
    e_mag o = - interaction X f h /\ e_ext o = 0 /\
    e_tot o = e_ex o + e_ani o + e_mag o /\ l_value o = e_tot o + e_mag o.
Proof.
  intros (NX & PX) Hf Hh HL. unfold mumag_loss1.
  assert (NX' : map fst X <> []) by (destruct X; [congruence|discriminate]).
  assert (PX' : forall t, In t (map fst X) -> shape t = [3%nat]).
  { intros t T. apply in_map_iff in T. destruct T as (p & <- & P). now apply PX. }
  unfold fdiv. destruct (Req_EM_T (lam ^ 2) 0) as [E0|_]; [apply sq0 in E0; contradiction|]. cbn [bind].
  unfold exchange_energy. rewrite (mean_of_ok (e_exchange m) (fun t => gradient_sq f (tlist t))) by
    (try exact NX'; intros t T; apply exchange_ok; auto). cbn [bind].
  unfold ani_energy. rewrite (mean_of_ok _ (fun t => 1 - f 2%nat (tlist t) ^ 2)); [|exact NX'|].
  2:{ intros t T. destruct (tdot1_ok f m (tvec [0; 0; 1]) t Hf (PX' t T) eq_refl) as (y & -> & E). cbn [bind]. rewrite E. cbn [bind].
      f_equal. unfold along. cbn [tlist tvec shape entry hd length seq map nth]. ring. }
  cbn [bind].
  unfold mag_energy. rewrite (mean_of_ok _ (fun p => along f (h p) (tlist (fst p)))); [|exact NX|].
  2:{ intros p P. destruct (Hf (fst p) (PX p P)) as (y & -> & Sy & Vy). cbn [bind]. destruct (Hh p P) as (w & -> & Sw & Vw). cbn [bind].
      unfold tdot1. rewrite Sy, Sw. cbn [Nat.eqb]. f_equal. unfold along. cbn [seq map sumR fold_right]. rewrite !Vy, !Vw by lia. ring. }
  cbn [bind]. eexists. split; [reflexivity|]. cbn [e_ex e_ani e_mag e_ext e_tot l_value]. rewrite !avg_map.
  split; [field; exact HL|]. split; [field; trivial|]. split; [unfold interaction; ring|]. split; [reflexivity|]. split; ring.
Qed.

Lemma Forall2_impl {A B} (P Q : A -> B -> Prop) : (forall a b, P a b -> Q a b) -> forall l l', Forall2 P l l' -> Forall2 Q l l'.
Proof. intros H l l' F. induction F; constructor; auto. Qed.
Lemma seq_outs {A B} (f : A -> res B) (P : A -> B -> Prop) : forall l, (forall a, In a l -> exists b, f a = Ok b /\ P a b) ->
  exists bs, sequence (map f l) = Ok bs /\ Forall2 P l bs.
Proof.
  induction l as [|a l IH]; intros H; [exists []; split; [reflexivity|constructor]|].
  destruct (H a (or_introl eq_refl)) as (b & E & Pb). destruct IH as (bs & Es & Pbs); [intros x Hx; apply H; now right|].
  exists (b :: bs). split; [cbn [map sequence]; rewrite E; cbn [bind]; rewrite Es; reflexivity|now constructor].
Qed.
Lemma forall2_avg {A B} (g : B -> R) (k : A -> R) l bs : Forall2 (fun a b => g b = k a) l bs ->
  sumR (map g bs) / INR (length (map g bs)) = avg k l.
Proof.
  intros H. unfold avg. assert (L : length (map g bs) = length l).
  { rewrite map_length. clear -H. induction H; cbn; congruence. }
  rewrite L. f_equal. clear L. induction H as [|a b l bs E H IH]; [reflexivity|]. unfold sumR in *. cbn [map fold_right]. now rewrite E, IH.
Qed.
Lemma avg_plus {A} (f g : A -> R) X : avg (fun x => f x + g x) X = avg f X + avg g X.
Proof.
  unfold avg, Rdiv. rewrite <- Rmult_plus_distr_r. f_equal. unfold sumR. induction X as [|x X IH]; cbn [map fold_right]; [ring|]. rewrite IH. ring.
Qed.
Lemma mumag_ok solver X (m m' : R -> field) (f : R -> nat -> list R -> R) (h : R -> sample -> list R) lams :
  points X -> lams <> [] -> (forall lam, In lam lams -> lam <> 0 /\ rep1 3 3 (m lam) (f lam) /\ gives (solver (m' lam)) X (h lam)) ->
  exists o, mumag_loss solver X m m' lams = Ok o /\
    e_ex o = avg (fun lam => / lam ^ 2 * avg (fun p => gradient_sq (f lam) (tlist (fst p))) X) lams /\
    e_ani o = avg (fun lam => / 10 * avg (fun p => 1 - f lam 2%nat (tlist (fst p)) ^ 2) X) lams /\
    e_mag o = avg (fun lam => - interaction X (f lam) (h lam)) lams /\
    e_tot o = e_ex o + e_ani o + e_mag o /\ l_value o = e_tot o + e_mag o.
Proof.
  intros PX NL H. unfold mumag_loss.
  destruct (seq_outs (fun lam => mumag_loss1 solver X (m lam) (m' lam) lam)
    (fun lam o => e_ex o = / lam ^ 2 * avg (fun p => gradient_sq (f lam) (tlist (fst p))) X /\
      e_ani o = / 10 * avg (fun p => 1 - f lam 2%nat (tlist (fst p)) ^ 2) X /\ e_mag o = - interaction X (f lam) (h lam) /\
      e_tot o = e_ex o + e_ani o + e_mag o /\ l_value o = e_tot o + e_mag o) lams) as (os & E & F).
  { intros lam Hl. destruct (H lam Hl) as (H1 & H2 & H3). destruct (mumag1_ok solver X (m lam) (m' lam) lam (f lam) (h lam) PX H2 H3 H1)
      as (o & Eo & E1 & E2 & E3 & _ & E5 & E6). exists o. split; [exact Eo|]. auto. }
  rewrite E. cbn [bind]. assert (NO : os <> []) by (intros ->; inversion F; subst; congruence).
  assert (NM : forall g : outcome -> R, map g os <> []) by (intros g; destruct os; [congruence|discriminate]).
  rewrite !mean_ok by apply NM. cbn [bind]. eexists. split; [reflexivity|]. cbn [e_ex e_ani e_mag e_tot l_value].
  set (kx := fun lam => / lam ^ 2 * avg (fun p => gradient_sq (f lam) (tlist (fst p))) X).
  set (ka := fun lam => / 10 * avg (fun p => 1 - f lam 2%nat (tlist (fst p)) ^ 2) X).
  set (km := fun lam => - interaction X (f lam) (h lam)).
  rewrite (forall2_avg e_ex kx lams os) by (revert F; apply Forall2_impl; clear; intros a b (K & _); exact K).
  rewrite (forall2_avg e_ani ka lams os) by (revert F; apply Forall2_impl; clear; intros a b (_ & K & _); exact K).
  rewrite (forall2_avg e_mag km lams os) by (revert F; apply Forall2_impl; clear; intros a b (_ & _ & K & _); exact K).
  rewrite (forall2_avg e_tot (fun lam => kx lam + ka lam + km lam) lams os) by
    (revert F; apply Forall2_impl; clear; intros a b (K1 & K2 & K3 & K4 & _); rewrite K4, K1, K2, K3; reflexivity).
  rewrite (forall2_avg l_value (fun lam => kx lam + ka lam + km lam + km lam) lams os) by
    (revert F; apply Forall2_impl; clear; intros a b (K1 & K2 & K3 & K4 & K5); rewrite K5, K4, K1, K2, K3; reflexivity).
  rewrite !avg_plus. auto.
Qed.
Lemma mumag_bounds_lemma solver X (m m' : R -> field) (f : R -> nat -> list R -> R) (h : R -> sample -> list R) lams :
  points X -> lams <> [] -> (forall lam, In lam lams -> lam <> 0 /\ rep1 3 3 (m lam) (f lam) /\ unit_field (f lam) /\ gives (solver (m' lam)) X (h lam)) ->
  exists o, mumag_loss solver X m m' lams = Ok o /\ 0 <= e_ex o /\ 0 <= e_ani o <= / 10 /\
    e_tot o = e_ex o + e_ani o + e_mag o /\ l_value o = e_tot o + e_mag o.
Proof.
  intros PX NL H. destruct (mumag_ok solver X m m' f h lams PX NL) as (o & E & E1 & E2 & _ & E4 & E5).
  { intros lam Hl. destruct (H lam Hl) as (A & B & _ & D). auto. }
  exists o. split; [exact E|]. split; [|split; [|now split]].
  - rewrite E1. unfold avg at 1. apply Rmult_le_pos.
    + clear E E1 E2 NL. assert (G : forall lam, In lam lams -> 0 <= / lam ^ 2 * avg (fun p => gradient_sq (f lam) (tlist (fst p))) X).
      { intros lam Hl. apply ex_bound; [exact PX|]. destruct (H lam Hl) as (L0 & _). apply Rlt_le, Rinv_0_lt_compat, pow2_gt_0, L0. }
      clear H. induction lams as [|a l IH]; [cbn; lra|]. cbn [map sumR fold_right]. pose proof (G a (or_introl eq_refl)).
      assert (0 <= sumR (map (fun lam => / lam ^ 2 * avg (fun p => gradient_sq (f lam) (tlist (fst p))) X) l)) by (apply IH; intros x Hx; apply G; now right).
      unfold sumR in *. lra.
    + apply Rlt_le, Rinv_0_lt_compat, lt_0_INR. destruct lams; [congruence|cbn; lia].
  - rewrite E2. apply avg_bound; [exact NL|]. intros lam Hl. destruct (H lam Hl) as (_ & _ & U & _).
    pose proof (ani_bound X (f lam) PX U (/ 10) [0; 0; 1]) as K.
    replace (avg (fun p : sample => 1 - f lam 2%nat (tlist (fst p)) ^ 2) X) with (avg (fun p : sample => 1 - along (f lam) [0; 0; 1] (tlist (fst p)) ^ 2) X).
    + apply K; [lra|unfold unit3; cbn; ring].
    + unfold avg. do 2 f_equal. apply map_ext. intros p. unfold along. cbn [nth]. ring.
Qed.
