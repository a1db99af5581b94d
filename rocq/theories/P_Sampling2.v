(** Distribution and number of rounds of rejection sampling for any proposal distribution. *)
From Coquelicot Require Import Coquelicot.
From Verif Require Import Base BaseFacts M_Key M_XR M_Sampling S_Opt S_Sampling S_Sampling2 P_Sampling.

Section Any.
Context {A : Type} (P : proposal A) (d : A) (pdf : A -> R) (m : R).
Hypothesis HP : mean_laws P.
Hypothesis Hm : 0 < m.
Hypothesis Hpdf : forall x, support P x -> 0 <= pdf x <= m.
Hypothesis Hint : integrable P pdf.

Notation accepted := (acc pdf m).

Lemma draw_with_find l j : (j <= length l)%nat -> draw_with d pdf m l j = option_map fst (find accepted (firstn j l)).
Proof.
  intros L. rewrite <- (draw_is_find d pdf m). rewrite firstn_length_le by auto. unfold draw_with.
  assert (N : forall i, (i < j)%nat -> nth i (firstn j l) (d, 0) = nth i l (d, 0)).
  { clear. revert l. induction j as [|j IH]; intros l i H; [lia|]. destruct l as [|a l]; [reflexivity|]. destruct i; [reflexivity|].
    cbn [firstn nth]. apply IH. lia. }
  set (D := draw_sample (sample_from d (firstn j l)) _ _ _ _ _).
  assert (RJ : forall i, (i < j)%nat -> rejected (sample_from d l) (uniform_from d l) (fun x => Fin (pdf x)) m (Nat.iter i (fun k => KChild k 3 0) (KSeed 0))
    = rejected (sample_from d (firstn j l)) (uniform_from d (firstn j l)) (fun x => Fin (pdf x)) m (Nat.iter i (fun k => KChild k 3 0) (KSeed 0))).
  { intros i Hi. rewrite !(rejected_from d pdf m) by (rewrite ?firstn_length_le; lia). rewrite N by auto. reflexivity. }
  assert (SF : forall i, (i < j)%nat -> sample_from d l (KChild (Nat.iter i (fun k => KChild k 3 0) (KSeed 0)) 3 1)
    = sample_from d (firstn j l) (KChild (Nat.iter i (fun k => KChild k 3 0) (KSeed 0)) 3 1)).
  { intros i Hi. unfold sample_from, round_of. cbn [path]. rewrite app_length, path_iter0. cbn [length path].
    replace (i + 0 + 1 - 1)%nat with i by lia. rewrite N by auto. reflexivity. }
  assert (G : forall x, draw_sample (sample_from d l) (uniform_from d l) (fun x => Fin (pdf x)) m j (KSeed 0) = Some x <-> D = Some x).
  { intros x. unfold D. rewrite !draw_sample_some. split; intros (i & Hi & Hx & Hr & Hb); exists i; (split; [auto|]).
    - rewrite <- RJ by auto. split; [rewrite Hx; apply SF; auto|]. split; auto. intros i' Hi'. rewrite <- RJ by lia. auto.
    - rewrite RJ by auto. split; [rewrite Hx; symmetry; apply SF; auto|]. split; auto. intros i' Hi'. rewrite RJ by lia. auto. }
  destruct (draw_sample (sample_from d l) _ _ _ _ _) as [x|] eqn:E1.
  - symmetry. apply G. reflexivity.
  - destruct D as [x|]; auto. destruct (G x) as [_ G2]. specialize (G2 eq_refl). discriminate.
Qed.

Lemma expectation_ext r F G : (forall l, length l = r -> F l = G l) -> expectation P r F = expectation P r G.
Proof.
  revert F G; induction r as [|r IH]; intros F G H; cbn [expectation]; [apply H; reflexivity|].
  f_equal. apply FunctionalExtensionality.functional_extensionality. intros x. apply RInt_ext. intros u _.
  apply IH. intros l Hl. apply H. cbn. lia.
Qed.
Lemma expectation_const r c : expectation P r (fun _ => c) = c.
Proof.
  induction r as [|r IH]; cbn [expectation]; [reflexivity|].
  replace (fun x : A => RInt (fun _ : R => expectation P r (fun _ => c)) 0 1) with (fun _ : A => c); [apply HP|].
  apply FunctionalExtensionality.functional_extensionality. intros x. rewrite RInt_const, IH.
  change (scal (1 - 0) c) with ((1 - 0) * c). ring.
Qed.

Lemma mean_ext f g : integrable P f -> (forall x, support P x -> f x = g x) -> integrable P g /\ mean P g = mean P f.
Proof. intros If H. apply (mean_support P HP f g H If). Qed.

(** One round: with probability pdf x / m the value is g x, otherwise K. *)
Lemma one_round (F : A -> R -> R) (g : A -> R) K :
  (forall x u, F x u = if accepted (x, u) then g x else K) -> integrable P (fun x => pdf x * g x) ->
  mean P (fun x => RInt (F x) 0 1) = mean P (fun x => pdf x * g x) / m + (1 - mean P pdf / m) * K.
Proof.
  intros HF Hg.
  destruct (mean_linear P HP pdf (fun _ => 1) (- (K / m)) K Hint (proj1 (mean_const P HP 1))) as [I1 E1].
  destruct (mean_linear P HP (fun x => pdf x * g x) (fun x => - (K / m) * pdf x + K * 1) (/ m) 1 Hg I1) as [I2 E2].
  destruct (mean_ext _ (fun x => RInt (F x) 0 1) I2) as [_ E3].
  - intros x Hx. destruct (Hpdf x Hx) as [H0 H1]. set (c := pdf x / m).
    assert (Hc : 0 <= c <= 1).
    { unfold c. split; [apply Rdiv_le_0_compat; lra|]. apply (Rdiv_le_1 (pdf x) m); lra. }
    rewrite (RInt_ext _ (fun u => if Rle_dec u c then g x else K)).
    + rewrite RInt_step by exact Hc. unfold c. field. lra.
    + intros u _. rewrite HF.
      assert (EA : accepted (x, u) = if Rle_dec u c then true else false).
      { unfold acc. cbn [fst snd]. destruct (xgtb _ _) eqn:E.
        - apply reject_real in E; auto. destruct (Rle_dec u c); auto. unfold c in *. lra.
        - apply accept_real in E; auto. destruct (Rle_dec u c); auto. contradiction. }
      rewrite EA. destruct (Rle_dec u c); reflexivity.
  - rewrite E3, E2, E1. rewrite (proj2 (mean_const P HP 1)). field. lra.
Qed.

Definition q := mean P pdf / m.
Hypothesis Hmass : 0 < mean P pdf.
Lemma q_pos : 0 < q. Proof. apply Rdiv_lt_0_compat; auto. Qed.
Lemma q_le : q <= 1.
Proof.
  destruct (mean_linear P HP (fun _ => 1) pdf m (-1) (proj1 (mean_const P HP 1)) Hint) as [I E].
  pose proof (mean_pos P HP _ I) as H. rewrite E, (proj2 (mean_const P HP 1)) in H.
  assert (0 <= m * 1 + -1 * mean P pdf) by (apply H; intros x Hx; specialize (Hpdf x Hx); lra).
  unfold q. apply Rle_div_l; lra.
Qed.

Section Hit.
Variable B : A -> bool.
Let ind (x : A) : R := if B x then 1 else 0.
Hypothesis HB : integrable P (fun x => pdf x * ind x).
Let hitB (l : list (A * R)) : R := match find accepted l with Some x => ind (fst x) | None => 0 end.
Lemma hitB_closed r : expectation P r hitB = mean P (fun x => pdf x * ind x) / mean P pdf * (1 - (1 - q) ^ r).
Proof.
  induction r as [|r IH]; [cbn; ring|]. cbn [expectation].
  rewrite (one_round _ ind (expectation P r hitB)); auto.
  - rewrite IH. unfold q. cbn [pow]. field. split; lra.
  - intros x u. unfold hitB at 1. cbn [find]. destruct (accepted (x, u)).
    + cbn [fst]. apply expectation_const.
    + reflexivity.
Qed.
Lemma prob_in_closed r : prob_in P d pdf m r B = mean P (fun x => pdf x * ind x) / mean P pdf * (1 - (1 - q) ^ r).
Proof.
  unfold prob_in. rewrite <- hitB_closed. apply expectation_ext. intros l Hl.
  rewrite draw_with_find by lia. rewrite <- Hl, firstn_all. unfold hitB. destruct (find accepted l); reflexivity.
Qed.
Lemma prob_in_limit : is_lim_seq (fun r => prob_in P d pdf m r B) (mean P (fun x => pdf x * ind x) / mean P pdf).
Proof.
  pose proof q_pos. pose proof q_le.
  apply (is_lim_seq_ext (fun r => mean P (fun x => pdf x * ind x) / mean P pdf * (1 - (1 - q) ^ r))).
  { intros r. symmetry. apply prob_in_closed. }
  evar_last.
  - apply is_lim_seq_mult'; [apply is_lim_seq_const|].
    apply is_lim_seq_minus'; [apply is_lim_seq_const|].
    apply is_lim_seq_geom. rewrite Rabs_pos_eq; lra.
  - f_equal. ring.
Qed.
End Hit.

(** *** rounds *)
Lemma rounds_used_cons x u l r : length l = r ->
  INR (rounds_used d pdf m ((x, u) :: l) (S r)) = 1 + if accepted (x, u) then 0 else INR (rounds_used d pdf m l r).
Proof.
  intros L. unfold rounds_used. cbn [seq filter].
  assert (E0 : draw_with d pdf m ((x, u) :: l) 0 = None) by (rewrite draw_with_find by lia; reflexivity).
  rewrite E0. cbn [length]. rewrite S_INR, Rplus_comm. f_equal.
  rewrite <- seq_shift.
  assert (G : forall js, (forall j, In j js -> (j <= r)%nat) ->
    length (filter (fun j => match draw_with d pdf m ((x, u) :: l) j with None => true | Some _ => false end) (map S js)) =
    if accepted (x, u) then 0%nat else
    length (filter (fun j => match draw_with d pdf m l j with None => true | Some _ => false end) js)).
  { induction js as [|j js IH]; intros Hj; [destruct (accepted (x, u)); reflexivity|]. cbn [map filter].
    specialize (IH ltac:(intros; apply Hj; right; auto)).
    rewrite !draw_with_find by (cbn [length]; specialize (Hj j (or_introl eq_refl)); lia). cbn [firstn find].
    destruct (accepted (x, u)); cbn [option_map]; [exact IH|].
    destruct (option_map fst (find accepted (firstn j l))); cbn [length]; rewrite IH; reflexivity. }
  rewrite G by (intros j Hj; apply in_seq in Hj; lia). destruct (accepted (x, u)); reflexivity.
Qed.
Lemma mean_rounds_closed r : mean_rounds P d pdf m r = (1 - (1 - q) ^ r) / q.
Proof.
  pose proof q_pos as Hq. unfold mean_rounds.
  assert (G : forall r s, expectation P r (fun l => s + INR (rounds_used d pdf m l r)) = s + (1 - (1 - q) ^ r) / q).
  { clear r. induction r as [|r IH]; intros s.
    - cbn. unfold rounds_used. cbn. field. lra.
    - cbn [expectation].
      rewrite (one_round _ (fun _ => s + 1) (s + 1 + (1 - (1 - q) ^ r) / q)).
      + destruct (mean_linear P HP pdf (fun _ => 1) (s + 1) 0 Hint (proj1 (mean_const P HP 1))) as [I E].
        destruct (mean_ext _ (fun x => pdf x * (s + 1)) I) as [_ E3]; [intros; ring|].
        rewrite E3, E. unfold q in *. cbn [pow]. field. split; lra.
      + intros x u. destruct (accepted (x, u)) eqn:EA.
        * rewrite (expectation_ext r _ (fun _ => s + 1)); [apply expectation_const|].
          intros l Hl. rewrite rounds_used_cons by auto. rewrite EA. ring.
        * rewrite (expectation_ext r _ (fun l => (s + 1) + INR (rounds_used d pdf m l r))); [rewrite IH; ring|].
          intros l Hl. rewrite rounds_used_cons by auto. rewrite EA. ring.
      + destruct (mean_linear P HP pdf (fun _ => 1) (s + 1) 0 Hint (proj1 (mean_const P HP 1))) as [I E].
        destruct (mean_ext _ (fun x => pdf x * (s + 1)) I) as [I3 _]; [intros; ring|]. exact I3. }
  specialize (G r 0). rewrite Rplus_0_l in G. rewrite <- G. apply expectation_ext. intros; ring.
Qed.
Lemma mean_rounds_limit : is_lim_seq (mean_rounds P d pdf m) (m / mean P pdf).
Proof.
  pose proof q_pos. pose proof q_le.
  apply (is_lim_seq_ext (fun r => (1 - (1 - q) ^ r) * / q)).
  { intros r. symmetry. apply mean_rounds_closed. }
  evar_last.
  - apply is_lim_seq_mult'; [|apply is_lim_seq_const].
    apply is_lim_seq_minus'; [apply is_lim_seq_const|].
    apply is_lim_seq_geom. rewrite Rabs_pos_eq; lra.
  - f_equal. unfold q. field. split; lra.
Qed.
End Any.

(** *** instances *)
Lemma uniform_list_laws {A} (V : list A) : V <> [] -> mean_laws (uniform_list V).
Proof.
  intros HV. assert (HI : 0 < INR (length V)) by (apply lt_0_INR; destruct V; [congruence|cbn; lia]).
  split; cbn.
  - intros c. split; auto. rewrite sumR_const. field. lra.
  - intros f g a b _ _. split; auto.
    replace (sumR (map (fun x => a * f x + b * g x) V)) with (a * sumR (map f V) + b * sumR (map g V)); [ring|].
    clear. unfold sumR. induction V as [|x W IH]; cbn; [ring|]. rewrite <- IH. ring.
  - intros f g H _. split; auto. f_equal. f_equal. apply map_ext_in. intros x Hx. symmetry; auto.
  - intros f _ H. apply Rmult_le_pos; [apply Rlt_le, Rinv_0_lt_compat; auto|].
    clear HV HI. unfold sumR. induction V as [|x W IH]; cbn; [lra|]. specialize (IH ltac:(intros; apply H; right; auto)).
    specialize (H x (or_introl eq_refl)). lra.
Qed.
Lemma uniform_interval_laws a b : a < b -> mean_laws (uniform_interval a b).
Proof.
  intros Hab. split; cbn [support integrable mean uniform_interval].
  - intros c. split; [apply ex_RInt_const|]. rewrite RInt_const. change (scal (b - a) c) with ((b - a) * c). field. lra.
  - intros f g s t If Ig.
    assert (I1 := ex_RInt_scal (V := R_NormedModule) f a b s If). assert (I2 := ex_RInt_scal (V := R_NormedModule) g a b t Ig).
    split; [apply (ex_RInt_plus (V := R_NormedModule) _ _ _ _ I1 I2)|].
    assert (E : RInt (fun x => s * f x + t * g x) a b = s * RInt f a b + t * RInt g a b).
    { pose proof (RInt_plus (V := R_CompleteNormedModule) (fun x => s * f x) (fun x => t * g x) a b I1 I2) as E1.
      pose proof (RInt_scal (V := R_CompleteNormedModule) f a b s If) as E2. pose proof (RInt_scal (V := R_CompleteNormedModule) g a b t Ig) as E3.
      unfold plus, scal in *. simpl in *. unfold mult in *. simpl in *. rewrite E1, E2, E3. reflexivity. }
    rewrite E. field. lra.
  - intros f g H If. assert (H' : forall x, Rmin a b < x < Rmax a b -> f x = g x).
    { intros x Hx. rewrite Rmin_left, Rmax_right in Hx by lra. auto. }
    split; [apply (ex_RInt_ext f); auto|]. f_equal. symmetry. apply RInt_ext. auto.
  - intros f If H. apply Rdiv_le_0_compat; [|lra]. apply RInt_ge_0; auto; lra.
Qed.

(** *** densities beyond m are cut off *)
Section Clip.
Context {A : Type} (P : proposal A) (d : A) (pdf : A -> R) (m : R).
Hypothesis HP : mean_laws P.
Hypothesis Hm : 0 < m.
Definition clip (x : A) : R := Rmax 0 (Rmin (pdf x) m).
Lemma clip_between x : 0 <= clip x <= m.
Proof. unfold clip. split; [apply Rmax_l|]. apply Rmax_lub; [lra|apply Rmin_r]. Qed.
Lemma acc_clip x u : 0 < u < 1 -> acc pdf m (x, u) = acc clip m (x, u).
Proof.
  intros Hu. unfold acc. cbn [fst snd]. f_equal.
  assert (D : pdf x / m < u <-> clip x / m < u).
  { rewrite (Rlt_div_l (pdf x) u m), (Rlt_div_l (clip x) u m) by lra. unfold clip. unfold Rmax, Rmin. repeat destruct (Rle_dec _ _); split; intros; nra. }
  pose proof (reject_real u (pdf x) m Hm) as E1. pose proof (reject_real u (clip x) m Hm) as E2.
  destruct (xgtb (Fin u) (xdiv (Fin (pdf x)) (Fin m))); destruct (xgtb (Fin u) (xdiv (Fin (clip x)) (Fin m))); auto.
  - symmetry. apply E2, D, E1. reflexivity.
  - apply E1, D, E2. reflexivity.
Qed.
Lemma expectation_ext_open r F G :
  (forall l, length l = r -> Forall (fun xu => 0 < snd xu < 1) l -> F l = G l) -> expectation P r F = expectation P r G.
Proof.
  revert F G; induction r as [|r IH]; intros F G H; cbn [expectation]; [apply H; [reflexivity|constructor]|].
  f_equal. apply FunctionalExtensionality.functional_extensionality. intros x. apply RInt_ext. intros u Hu.
  rewrite Rmin_left, Rmax_right in Hu by lra.
  apply IH. intros l Hl Hf. apply H; [cbn; lia|]. constructor; auto.
Qed.
Lemma find_clip l : Forall (fun xu => 0 < snd xu < 1) l -> find (acc pdf m) l = find (acc clip m) l.
Proof. induction 1 as [|[x u] l Hu Hl IH]; [reflexivity|]. cbn [find]. rewrite (acc_clip x u Hu), IH. reflexivity. Qed.
Lemma Forall_firstn' {B} (Q : B -> Prop) j l : Forall Q l -> Forall Q (firstn j l).
Proof. intros H. revert j. induction H; intros [|j]; cbn; constructor; auto. Qed.
Lemma draw_with_clip l j : (j <= length l)%nat -> Forall (fun xu => 0 < snd xu < 1) l -> draw_with d pdf m l j = draw_with d clip m l j.
Proof. intros L H. rewrite !draw_with_find by auto. rewrite find_clip; auto. apply Forall_firstn'; auto. Qed.
Lemma prob_in_clip r B : prob_in P d pdf m r B = prob_in P d clip m r B.
Proof. apply expectation_ext_open. intros l Hl Hf. rewrite draw_with_clip by (auto; lia). reflexivity. Qed.
Lemma mean_rounds_clip r : mean_rounds P d pdf m r = mean_rounds P d clip m r.
Proof.
  apply expectation_ext_open. intros l Hl Hf. unfold rounds_used. f_equal. f_equal. apply filter_ext_in. intros j Hj.
  apply in_seq in Hj. rewrite draw_with_clip by (auto; lia). reflexivity.
Qed.
End Clip.

Lemma cut_off {A} (P : proposal A) d (pdf : A -> R) m : mean_laws P -> 0 < m ->
  integrable P (fun x => Rmax 0 (Rmin (pdf x) m)) -> 0 < mean P (fun x => Rmax 0 (Rmin (pdf x) m)) ->
  (forall B : A -> bool, integrable P (fun x => Rmax 0 (Rmin (pdf x) m) * if B x then 1 else 0) ->
    is_lim_seq (fun r => prob_in P d pdf m r B)
      (mean P (fun x => Rmax 0 (Rmin (pdf x) m) * if B x then 1 else 0) / mean P (fun x => Rmax 0 (Rmin (pdf x) m)))) /\
  is_lim_seq (mean_rounds P d pdf m) (m / mean P (fun x => Rmax 0 (Rmin (pdf x) m))).
Proof.
  intros HP Hm HI Hpos. split.
  - intros B HB. apply (is_lim_seq_ext (fun r => prob_in P d (clip pdf m) m r B)).
    { intros r. symmetry. apply prob_in_clip; auto. }
    apply (prob_in_limit P d (clip pdf m) m HP Hm); auto. intros x _. apply clip_between; auto.
  - apply (is_lim_seq_ext (mean_rounds P d (clip pdf m) m)).
    { intros r. symmetry. apply mean_rounds_clip; auto. }
    apply (mean_rounds_limit P d (clip pdf m) m HP Hm); auto. intros x _. apply clip_between; auto.
Qed.

(** *** proposals uniform on an interval *)
Lemma interval_part a b t (f : R -> R) : a < b -> a <= t <= b -> ex_RInt f a b ->
  ex_RInt (fun x => f x * if Rle_dec x t then 1 else 0) a b /\
  RInt (fun x => f x * if Rle_dec x t then 1 else 0) a b = RInt f a t.
Proof.
  intros Hab Ht Hf.
  assert (I1 : ex_RInt f a t) by (apply (ex_RInt_Chasles_1 f a t b); auto; lra).
  assert (E1 : forall x, Rmin a t < x < Rmax a t -> f x = f x * (if Rle_dec x t then 1 else 0)).
  { intros x Hx. rewrite Rmin_left, Rmax_right in Hx by lra. destruct (Rle_dec x t); lra. }
  assert (E2 : forall x, Rmin t b < x < Rmax t b -> 0 = f x * (if Rle_dec x t then 1 else 0)).
  { intros x Hx. rewrite Rmin_left, Rmax_right in Hx by lra. destruct (Rle_dec x t); lra. }
  assert (J1 := ex_RInt_ext _ _ _ _ E1 I1). assert (J2 := ex_RInt_ext _ _ _ _ E2 (ex_RInt_const t b 0)).
  split; [apply (ex_RInt_Chasles _ a t b); auto|].
  rewrite <- (RInt_Chasles (V := R_CompleteNormedModule) _ a t b J1 J2).
  rewrite <- (RInt_ext _ _ _ _ E1), <- (RInt_ext _ _ _ _ E2), RInt_const.
  unfold plus, scal. simpl. unfold mult. simpl. ring.
Qed.
Lemma interval_cdf a b d pdf m : a < b -> 0 < m -> (forall x, a < x < b -> 0 <= pdf x <= m) ->
  ex_RInt pdf a b -> 0 < RInt pdf a b -> forall t, a <= t <= b ->
  (forall r, prob_in (uniform_interval a b) d pdf m r (fun x => if Rle_dec x t then true else false)
    = RInt pdf a t / RInt pdf a b * (1 - (1 - RInt pdf a b / ((b - a) * m)) ^ r)) /\
  is_lim_seq (fun r => prob_in (uniform_interval a b) d pdf m r (fun x => if Rle_dec x t then true else false))
    (RInt pdf a t / RInt pdf a b).
Proof.
  intros Hab Hm Hp HI Hpos t Ht. pose proof (uniform_interval_laws a b Hab) as HP.
  set (P := uniform_interval a b) in *. set (B := fun x => if Rle_dec x t then true else false).
  assert (Hpos' : 0 < mean P pdf) by (apply Rdiv_lt_0_compat; lra).
  destruct (interval_part a b t pdf Hab Ht HI) as [J EJ].
  assert (EB : (fun x => pdf x * (if B x then 1 else 0)) = (fun x => pdf x * if Rle_dec x t then 1 else 0)).
  { apply FunctionalExtensionality.functional_extensionality. intros x. unfold B. destruct (Rle_dec x t); reflexivity. }
  assert (HB : integrable P (fun x => pdf x * (if B x then 1 else 0))) by (rewrite EB; exact J).
  assert (EM : mean P (fun x => pdf x * (if B x then 1 else 0)) / mean P pdf = RInt pdf a t / RInt pdf a b).
  { rewrite EB. unfold P, uniform_interval, mean. rewrite EJ. field. lra. }
  split.
  - intros r. rewrite (prob_in_closed P d pdf m HP Hm Hp HI Hpos' B HB), EM.
    f_equal. f_equal. f_equal. unfold q. unfold P, uniform_interval, mean. f_equal. field. lra.
  - rewrite <- EM. apply (prob_in_limit P d pdf m HP Hm Hp HI Hpos' B HB).
Qed.
Lemma interval_rounds a b d pdf m : a < b -> 0 < m -> (forall x, a < x < b -> 0 <= pdf x <= m) ->
  ex_RInt pdf a b -> 0 < RInt pdf a b -> is_lim_seq (mean_rounds (uniform_interval a b) d pdf m) (m * (b - a) / RInt pdf a b).
Proof.
  intros Hab Hm Hp HI Hpos. pose proof (uniform_interval_laws a b Hab) as HP.
  replace (m * (b - a) / RInt pdf a b) with (m / mean (uniform_interval a b) pdf).
  - apply (mean_rounds_limit _ d pdf m HP Hm Hp HI). apply Rdiv_lt_0_compat; lra.
  - unfold uniform_interval, mean. field. lra.
Qed.
(** a density on [0, 2] bounded by m = 1: two rounds on average *)
Lemma rounds_two : is_lim_seq (mean_rounds (uniform_interval 0 2) 0 (fun _ => 1 / 2) 1) 2.
Proof.
  assert (E : RInt (fun _ : R => 1 / 2) 0 2 = 1).
  { rewrite RInt_const. change ((2 - 0) * (1 / 2) = 1). field. }
  evar_last; [apply interval_rounds; try lra|].
  - intros; lra.
  - apply ex_RInt_const.
  - rewrite E. f_equal. field.
Qed.
Lemma rounds_refuted : exists a b pdf m, a < b /\ 0 < m /\ (forall x, 0 <= pdf x <= m) /\ is_RInt pdf a b 1 /\
  exists k : R, is_lim_seq (mean_rounds (uniform_interval a b) 0 pdf m) k /\ k <> m.
Proof.
  exists 0, 2, (fun _ => 1 / 2), 1. split; [lra|]. split; [lra|]. split; [intros; lra|]. split.
  - assert (E : (2 - 0) * (1 / 2) = 1) by field.
    pose proof (is_RInt_const (V := R_NormedModule) 0 2 (1 / 2)) as H.
    change (scal (2 - 0) (1 / 2)) with ((2 - 0) * (1 / 2)) in H. rewrite E in H. exact H.
  - exists 2. split; [apply rounds_two|lra].
Qed.
