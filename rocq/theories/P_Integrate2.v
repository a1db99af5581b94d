(** Exactness, additivity and error bound of the one-dimensional rules. *)
From Coquelicot Require Import Coquelicot.
From Verif Require Import Base BaseFacts P_Vec M_Integrate S_Integrate P_Integrate1.

(** midpoint, trap and simpson are composite rules of a reference rule on [-1,1] *)
Lemma ps_mid_ref f a b : ps_mid f a b = ps_gauss [0] [2] f a b.
Proof. unfold ps_mid, ps_gauss, sumR. simpl. replace ((a + b) / 2 + 0 * (b - a) / 2) with ((b + a) / 2) by field. field. Qed.
Lemma ps_trap_ref f a b : ps_trap f a b = ps_gauss [-1; 1] [1; 1] f a b.
Proof.
  unfold ps_trap, ps_gauss, sumR. simpl. replace ((a + b) / 2 + -1 * (b - a) / 2) with a by field.
  replace ((a + b) / 2 + 1 * (b - a) / 2) with b by field. field.
Qed.
Lemma ps_simp_ref f a b : ps_simp f a b = ps_gauss [-1; 0; 1] [1 / 3; 4 / 3; 1 / 3] f a b.
Proof.
  unfold ps_simp, ps_gauss, sumR. simpl. replace ((a + b) / 2 + -1 * (b - a) / 2) with a by field.
  replace ((a + b) / 2 + 0 * (b - a) / 2) with ((a + b) / 2) by field.
  replace ((a + b) / 2 + 1 * (b - a) / 2) with b by field. field.
Qed.
Lemma ref_mid : reference_exact 1 [0] [2].
Proof. split; [reflexivity|]. intros [|[|k]] H; [| |lia]; unfold sumR; simpl; field. Qed.
Lemma ref_trap : reference_exact 1 [-1; 1] [1; 1].
Proof. split; [reflexivity|]. intros [|[|k]] H; [| |lia]; unfold sumR; simpl; field. Qed.
Lemma ref_simp : reference_exact 3 [-1; 0; 1] [1 / 3; 4 / 3; 1 / 3].
Proof. split; [reflexivity|]. intros [|[|[|[|k]]]] H; [| | | |lia]; unfold sumR; simpl; field. Qed.

(** *** polynomials *)
Fixpoint pevk (k : nat) (c : list R) (x : R) : R :=
  match c with [] => 0 | a :: t => a * x ^ k + pevk (S k) t x end.
Lemma pevk_peval c : forall k x, pevk k c x = x ^ k * peval c x.
Proof. induction c as [|a t IH]; intros k x; simpl; [ring|]. rewrite IH. simpl. ring. Qed.
Fixpoint pint (k : nat) (c : list R) (x : R) : R :=
  match c with [] => 0 | a :: t => a * (x ^ S k / INR (S k)) + pint (S k) t x end.
Lemma is_derive_mono a c n x : is_derive (fun x => a * (x ^ n / c)) x (a * (INR n * x ^ pred n / c)).
Proof. auto_derive; auto. unfold Rdiv. ring. Qed.
Lemma is_derive_pint c : forall k x, is_derive (pint k c) x (pevk k c x).
Proof.
  induction c as [|a t IH]; intros k x; simpl.
  - apply @is_derive_const.
  - apply @is_derive_plus; [|apply IH]. assert (INR (S k) <> 0) by (apply not_0_INR; lia).
    change (is_derive (fun x => a * (x ^ S k / INR (S k))) x (a * x ^ k)).
    replace (a * x ^ k) with (a * (INR (S k) * x ^ pred (S k) / INR (S k))) by (cbn [pred]; field; auto).
    generalize (S k) as n. intros n. generalize (INR n) at 1 3 as c. intros c. apply is_derive_mono.
Qed.
Lemma ex_derive_pevk c : forall k x, ex_derive (pevk k c) x.
Proof.
  induction c as [|a t IH]; intros k x; simpl; [apply ex_derive_const|].
  apply @ex_derive_plus; [|apply IH]. auto_derive. auto.
Qed.
Lemma is_RInt_pevk c k a b : is_RInt (pevk k c) a b (pint k c b - pint k c a).
Proof.
  apply (is_RInt_derive (pint k c) (pevk k c)).
  - intros; apply is_derive_pint.
  - intros x _. apply (ex_derive_continuous (pevk k c)), ex_derive_pevk.
Qed.
Lemma is_RInt_peval c a b : is_RInt (peval c) a b (pint 0 c b - pint 0 c a).
Proof.
  apply (is_RInt_ext (pevk 0 c)); [|apply is_RInt_pevk]. intros x _. rewrite pevk_peval. simpl. apply Rmult_1_l.
Qed.
Lemma ex_RInt_peval c a b : ex_RInt (peval c) a b.
Proof. eexists. apply is_RInt_peval. Qed.

(** composition with an affine map is a polynomial of the same degree *)
Fixpoint padd (c e : list R) : list R :=
  match c, e with [], _ => e | _, [] => c | a :: c', b :: e' => (a + b) :: padd c' e' end.
Lemma padd_eval c : forall e x, peval (padd c e) x = peval c x + peval e x.
Proof. induction c as [|a c IH]; intros [|b e] x; simpl; try ring. rewrite IH. ring. Qed.
Lemma padd_length c : forall e, length (padd c e) = Nat.max (length c) (length e).
Proof. induction c as [|a c IH]; intros [|b e]; simpl; auto. Qed.
Lemma pscal_eval s c x : peval (map (Rmult s) c) x = s * peval c x.
Proof. induction c as [|a c IH]; simpl; [ring|]. rewrite IH. ring. Qed.
Fixpoint pcomp (m h : R) (c : list R) : list R :=
  match c with
  | [] => []
  | a :: t => let p := pcomp m h t in padd (a :: map (Rmult h) p) (map (Rmult m) p)
  end.
Lemma pcomp_eval m h c x : peval (pcomp m h c) x = peval c (m + h * x).
Proof.
  induction c as [|a t IH]; [reflexivity|]. cbn [pcomp]. cbv zeta. rewrite padd_eval. cbn [peval].
  rewrite !pscal_eval, IH. ring.
Qed.
Lemma pcomp_length m h c : length (pcomp m h c) = length c.
Proof.
  induction c as [|a t IH]; [reflexivity|]. cbn [pcomp]. cbv zeta. rewrite padd_length. cbn [length].
  rewrite !map_length, IH. lia.
Qed.

Lemma sum_map2_add (F G : R -> R -> R) : forall w x,
  sumR (map2 (fun a b => F a b + G a b) w x) = sumR (map2 F w x) + sumR (map2 G w x).
Proof. induction w as [|a w IH]; intros [|b x]; unfold sumR in *; simpl; try ring. rewrite IH. ring. Qed.
Lemma sum_map2_scal c (F : R -> R -> R) : forall w x,
  sumR (map2 (fun a b => c * F a b) w x) = c * sumR (map2 F w x).
Proof. induction w as [|a w IH]; intros [|b x]; unfold sumR in *; simpl; try ring. rewrite IH. ring. Qed.
Lemma sum_map2_ext (F G : R -> R -> R) w x : (forall a b, F a b = G a b) -> sumR (map2 F w x) = sumR (map2 G w x).
Proof. intros H. f_equal. apply map2_ext. auto. Qed.

Lemma ref_pevk K nodes weights : reference_exact K nodes weights -> forall c k, (k + length c <= S K)%nat ->
  sumR (map2 (fun w x => w * pevk k c x) weights nodes) = pint k c 1 - pint k c (-1).
Proof.
  intros [L H]. induction c as [|a t IH]; intros k Hk.
  - simpl. rewrite (sum_map2_ext _ (fun w x => 0 * 0)) by (intros; ring). rewrite sum_map2_scal. ring.
  - cbn [pevk pint]. rewrite (sum_map2_ext _ (fun w x => a * (w * x ^ k) + w * pevk (S k) t x)) by (intros; ring).
    rewrite sum_map2_add, sum_map2_scal, H, IH by (cbn [length] in Hk; lia).
    assert (INR (S k) <> 0) by (apply not_0_INR; lia). field. auto.
Qed.

Lemma gauss_panel_exact K nodes weights c a b : reference_exact K nodes weights -> (length c <= S K)%nat ->
  ps_gauss nodes weights (peval c) a b = RInt (peval c) a b.
Proof.
  intros HK Hc. set (m := (a + b) / 2). set (h := (b - a) / 2).
  assert (E1 : ps_gauss nodes weights (peval c) a b = h * RInt (peval (pcomp m h c)) (-1) 1).
  { unfold ps_gauss. f_equal. rewrite (is_RInt_unique _ _ _ _ (is_RInt_peval _ _ _)).
    rewrite <- (ref_pevk K nodes weights HK) by (rewrite pcomp_length; lia).
    apply sum_map2_ext. intros w x. rewrite pevk_peval, pcomp_eval. unfold m, h.
    replace ((a + b) / 2 + (b - a) / 2 * x) with ((a + b) / 2 + x * (b - a) / 2) by field. simpl. ring. }
  rewrite E1.
  pose proof (RInt_comp_lin (V := R_CompleteNormedModule) (peval c) h m (-1) 1) as E2.
  replace (h * -1 + m) with a in E2 by (unfold h, m; field). replace (h * 1 + m) with b in E2 by (unfold h, m; field).
  rewrite <- E2 by apply ex_RInt_peval.
  transitivity (RInt (fun y => scal h (peval (pcomp m h c) y)) (-1) 1).
  - symmetry. apply (RInt_scal (V := R_CompleteNormedModule)). apply ex_RInt_peval.
  - apply RInt_ext. intros x _. rewrite pcomp_eval. do 2 f_equal. ring.
Qed.

Lemma over_panels_RInt (f : R -> R) d : (1 <= length d)%nat -> (forall a b, ex_RInt f a b) ->
  over_panels (RInt f) d = RInt f (first d) (final d).
Proof.
  intros H Hf. destruct d as [|a d]; [simpl in H; lia|]. clear H. revert a. induction d as [|b t IH]; intros a.
  - unfold first, final. simpl. symmetry. apply (RInt_point (V := R_CompleteNormedModule)).
  - change (over_panels (RInt f) (a :: b :: t)) with (RInt f a b + over_panels (RInt f) (b :: t)).
    rewrite IH. unfold first. cbn [hd]. change (final (a :: b :: t)) with (final (b :: t)).
    apply (RInt_Chasles (V := R_CompleteNormedModule) f a b); auto.
Qed.
Lemma over_panels_ext (q q' : R -> R -> R) d : (forall a b, q a b = q' a b) -> over_panels q d = over_panels q' d.
Proof.
  intros H. induction d as [|a d IH]; [reflexivity|]. destruct d as [|b t]; [reflexivity|].
  change (over_panels q (a :: b :: t)) with (q a b + over_panels q (b :: t)).
  change (over_panels q' (a :: b :: t)) with (q' a b + over_panels q' (b :: t)). rewrite IH, H. auto.
Qed.

(** a rule composed of a reference rule *)
Definition composite (rule : quadrule) (nodes weights : list R) : Prop :=
  forall d, (2 <= length d)%nat -> panel_rule rule (ps_gauss nodes weights) d.
Lemma panel_rule_ext rule ps ps' d : (forall f a b, ps f a b = ps' f a b) -> panel_rule rule ps d -> panel_rule rule ps' d.
Proof.
  intros H (W & X & E & L & S). exists W, X. repeat split; auto. intros f. rewrite S.
  apply over_panels_ext. auto.
Qed.
Lemma midpoint_composite : composite midpoint [0] [2].
Proof. intros d _. eapply panel_rule_ext; [|apply midpoint_panels]. apply ps_mid_ref. Qed.
Lemma trap_composite : composite trap [-1; 1] [1; 1].
Proof. intros d _. eapply panel_rule_ext; [|apply trap_panels]. apply ps_trap_ref. Qed.
Lemma simpson_composite : composite simpson [-1; 0; 1] [1 / 3; 4 / 3; 1 / 3].
Proof. intros d H. eapply panel_rule_ext; [|apply simpson_panels; auto]. apply ps_simp_ref. Qed.
Lemma gauss_composite nodes weights : length nodes = length weights -> composite (gauss nodes weights) nodes weights.
Proof. intros L d _. apply gauss_panels; auto. Qed.

Lemma composite_exact rule nodes weights K d c : composite rule nodes weights -> reference_exact K nodes weights ->
  (2 <= length d)%nat -> (length c <= S K)%nat ->
  integrate (pointwise (peval c)) [d] rule = Ok (A0 (RInt (peval c) (first d) (final d))).
Proof.
  intros HC HK Hd Hc. rewrite (integrate_1d _ _ _ _ (HC d Hd)).
  rewrite (over_panels_ext _ (RInt (peval c))) by (intros; eapply gauss_panel_exact; eauto).
  rewrite over_panels_RInt; auto; [lia|]. intros; apply ex_RInt_peval.
Qed.

(** *** additivity *)
Lemma over_panels_split q : forall l m r, over_panels q (l ++ m :: r) = over_panels q (l ++ [m]) + over_panels q (m :: r).
Proof.
  induction l as [|a l IH]; intros m r.
  - cbn [app]. change (over_panels q [m]) with 0. ring.
  - cbn [app]. destruct l as [|b l]; cbn [app] in *.
    + change (over_panels q (a :: m :: r)) with (q a m + over_panels q (m :: r)).
      change (over_panels q [a; m]) with (q a m + 0). ring.
    + change (over_panels q (a :: b :: l ++ m :: r)) with (q a b + over_panels q (b :: l ++ m :: r)).
      change (over_panels q (a :: b :: l ++ [m])) with (q a b + over_panels q (b :: l ++ [m])). rewrite IH. ring.
Qed.
Lemma composite_additive rule nodes weights f l m r : composite rule nodes weights ->
  l <> [] -> r <> [] ->
  exists u v, integrate (pointwise f) [l ++ [m]] rule = Ok (A0 u) /\ integrate (pointwise f) [m :: r] rule = Ok (A0 v) /\
    integrate (pointwise f) [l ++ m :: r] rule = Ok (A0 (u + v)).
Proof.
  intros HC Hl Hr.
  assert ((1 <= length l)%nat) by (destruct l; simpl; [congruence|lia]).
  assert ((1 <= length r)%nat) by (destruct r; simpl; [congruence|lia]).
  do 2 eexists. split; [eapply integrate_1d, HC; rewrite app_length; simpl; lia|].
  split; [eapply integrate_1d, HC; simpl; lia|].
  rewrite (integrate_1d rule (ps_gauss nodes weights)) by (apply HC; rewrite app_length; simpl; lia).
  rewrite over_panels_split. reflexivity.
Qed.

(** *** error bound *)
Definition clampf (a b : R) (f : R -> R) x := f (Rmax a (Rmin x b)).
Lemma clamp_lipschitz a b L f : a <= b -> 0 <= L -> lipschitz_on a b L f ->
  forall x y, Rabs (clampf a b f x - clampf a b f y) <= L * Rabs (x - y).
Proof.
  intros Hab HL H x y. unfold clampf.
  apply Rle_trans with (L * Rabs (Rmax a (Rmin x b) - Rmax a (Rmin y b))).
  - apply H; (split; [apply Rmax_l|apply Rmax_lub; auto; apply Rmin_r]).
  - apply Rmult_le_compat_l; auto. unfold Rmax, Rmin, Rabs.
    repeat (destruct (Rle_dec _ _) || destruct (Rcase_abs _)); lra.
Qed.
Lemma lipschitz_continuous (f : R -> R) L x : 0 <= L -> (forall x y, Rabs (f x - f y) <= L * Rabs (x - y)) -> continuous f x.
Proof.
  intros HL H. apply continuity_pt_filterlim. intros eps He. exists (eps / (L + 1)).
  assert (0 < L + 1) by lra. split; [apply Rdiv_lt_0_compat; lra|].
  intros y [_ Hy]. unfold dist in *. simpl in *. unfold R_dist in *.
  apply Rle_lt_trans with (L * Rabs (y - x)); auto.
  apply Rle_lt_trans with ((L + 1) * Rabs (y - x)); [apply Rmult_le_compat_r; [apply Rabs_pos|lra]|].
  replace eps with ((L + 1) * (eps / (L + 1))) by (field; lra). apply Rmult_lt_compat_l; auto.
Qed.
Lemma lipschitz_ex_RInt a b L f : a <= b -> 0 <= L -> lipschitz_on a b L f ->
  forall u v, a <= u <= b -> a <= v <= b -> ex_RInt f u v.
Proof.
  intros Hab HL H u v Hu Hv. apply (ex_RInt_ext (clampf a b f)).
  - intros x [Hx1 Hx2]. unfold clampf. f_equal.
    assert (a <= x) by (apply Rlt_le, Rle_lt_trans with (Rmin u v); auto; apply Rmin_glb; lra).
    assert (x <= b) by (apply Rlt_le, Rlt_le_trans with (Rmax u v); auto; apply Rmax_lub; lra).
    rewrite Rmin_left by lra. apply Rmax_right; lra.
  - apply (ex_RInt_continuous (V := R_CompleteNormedModule)). intros x _.
    eapply lipschitz_continuous; [exact HL|]. apply clamp_lipschitz; auto.
Qed.

(** one panel *)
Lemma panel_error nodes weights f a b L : a <= b -> 0 <= L -> lipschitz_on a b L f ->
  length nodes = length weights -> Forall (fun w => 0 <= w) weights -> sumR weights = 2 ->
  Forall (fun x => -1 <= x <= 1) nodes ->
  Rabs (RInt f a b - ps_gauss nodes weights f a b) <= L * (b - a) * (b - a).
Proof.
  intros Hab HL Hf Len Hw Hs Hn.
  assert (Ex : ex_RInt f a b) by (apply (lipschitz_ex_RInt a b L); auto; lra).
  (* distance of the integral from (b-a) f x0 *)
  assert (P : forall x0, a <= x0 <= b -> Rabs (RInt f a b - (b - a) * f x0) <= (b - a) * (L * (b - a))).
  { intros x0 Hx0. replace ((b - a) * f x0) with (RInt (fun _ => f x0) a b).
    2:{ rewrite (RInt_const (V := R_CompleteNormedModule)). reflexivity. }
    replace (RInt f a b - RInt (fun _ => f x0) a b) with (RInt (fun x => minus (f x) (f x0)) a b).
    2:{ apply (RInt_minus (V := R_CompleteNormedModule) f (fun _ => f x0)); auto. apply ex_RInt_const. }
    apply Rle_trans with (RInt (fun x => Rabs (minus (f x) (f x0))) a b).
    - apply (abs_RInt_le (fun x => minus (f x) (f x0))); auto.
      apply @ex_RInt_minus; auto. apply ex_RInt_const.
    - replace ((b - a) * (L * (b - a))) with (RInt (fun _ => L * (b - a)) a b)
        by (rewrite (RInt_const (V := R_CompleteNormedModule)); reflexivity).
      apply RInt_le; auto.
      + apply (ex_RInt_norm (fun x => minus (f x) (f x0))). apply @ex_RInt_minus; auto. apply ex_RInt_const.
      + apply ex_RInt_const.
      + intros x Hx. change (minus (f x) (f x0)) with (f x - f x0).
        apply Rle_trans with (L * Rabs (x - x0)); [apply Hf; lra|]. apply Rmult_le_compat_l; auto.
        apply Rabs_le. lra. }
  assert (G : forall ws xs, length xs = length ws -> Forall (fun w => 0 <= w) ws -> Forall (fun x => -1 <= x <= 1) xs ->
     Rabs (sumR ws / 2 * RInt f a b - ps_gauss xs ws f a b) <= sumR ws / 2 * ((b - a) * (L * (b - a)))).
  { clear Len Hw Hs Hn nodes weights. induction ws as [|w ws IH]; intros [|x xs] Len Hw Hn; simpl in Len; try lia.
    - unfold ps_gauss, sumR. simpl. rewrite Rmult_0_r, Rminus_0_r. unfold Rdiv. rewrite !Rmult_0_l, Rabs_R0. lra.
    - inversion Hw; inversion Hn; subst. specialize (IH xs ltac:(lia) ltac:(auto) ltac:(auto)).
      set (x0 := (a + b) / 2 + x * (b - a) / 2).
      assert (Hx0 : a <= x0 <= b) by (unfold x0; split; nra). specialize (P x0 Hx0).
      replace (sumR (w :: ws) / 2 * RInt f a b - ps_gauss (x :: xs) (w :: ws) f a b) with
        (w / 2 * (RInt f a b - (b - a) * f x0) + (sumR ws / 2 * RInt f a b - ps_gauss xs ws f a b)).
      2:{ unfold ps_gauss. cbn [map2]. unfold sumR. cbn [fold_right]. fold x0. field. }
      replace (sumR (w :: ws) / 2 * ((b - a) * (L * (b - a)))) with
        (w / 2 * ((b - a) * (L * (b - a))) + sumR ws / 2 * ((b - a) * (L * (b - a)))) by (unfold sumR; simpl; field).
      eapply Rle_trans; [apply Rabs_triang|]. apply Rplus_le_compat; auto.
      rewrite Rabs_mult, (Rabs_right (w / 2)) by lra. apply Rmult_le_compat_l; auto. lra. }
  specialize (G weights nodes Len Hw Hn). rewrite Hs in G. replace (2 / 2) with 1 in G by field.
  rewrite !Rmult_1_l in G. lra.
Qed.

Lemma nondecreasing_first_final d : nondecreasing d -> (1 <= length d)%nat -> all_between (first d) (final d) d.
Proof.
  intros H L. destruct d as [|a d]; [simpl in L; lia|]. clear L. unfold all_between, first. cbn [hd].
  revert a H. induction d as [|b t IH]; intros a H.
  - constructor; auto. unfold final. simpl. lra.
  - destruct H as [H1 H2]. specialize (IH b H2). change (final (a :: b :: t)) with (final (b :: t)).
    inversion IH; subst. constructor; [lra|]. eapply Forall_impl; [|exact IH]. simpl. intros; lra.
Qed.
Lemma increasing_nondecreasing d : increasing d -> nondecreasing d.
Proof.
  induction d as [|a d IH]; [auto|]. destruct d as [|b t]; [auto|]. intros [H1 H2]. split; [lra|]. apply IH; auto.
Qed.

Lemma composite_error rule nodes weights f d h L : composite rule nodes weights ->
  length nodes = length weights -> Forall (fun w => 0 <= w) weights -> sumR weights = 2 ->
  Forall (fun x => -1 <= x <= 1) nodes ->
  (2 <= length d)%nat -> nondecreasing d -> steps_at_most h d -> 0 <= L -> lipschitz_on (first d) (final d) L f ->
  exists v, integrate (pointwise f) [d] rule = Ok (A0 v) /\
    Rabs (v - RInt f (first d) (final d)) <= L * h * (final d - first d).
Proof.
  intros HC Len Hw Hs Hn Hd Hm Hh HL Hf. eexists. split; [apply (integrate_1d _ _ _ _ (HC d Hd))|].
  clear HC. destruct d as [|a d]; [simpl in Hd; lia|]. clear Hd. revert a Hm Hh Hf.
  induction d as [|b t IH]; intros a Hm Hh Hf.
  - unfold first, final. simpl. rewrite (RInt_point (V := R_CompleteNormedModule)). change (zero : R) with 0.
    rewrite !Rminus_diag_eq, Rabs_R0 by auto. lra.
  - destruct Hm as [Hm1 Hm2]. destruct Hh as [Hh1 Hh2].
    change (final (a :: b :: t)) with (final (b :: t)) in *. unfold first in *. cbn [hd] in *.
    assert (Hab : b <= final (b :: t)).
    { pose proof (nondecreasing_first_final (b :: t) Hm2) as A. specialize (A ltac:(simpl; lia)). inversion A. unfold first in *; simpl in *. lra. }
    assert (Hf2 : lipschitz_on b (final (b :: t)) L f) by (intros x y Hx Hy; apply Hf; lra).
    assert (Hf1 : lipschitz_on a b L f) by (intros x y Hx Hy; apply Hf; lra).
    specialize (IH b Hm2 Hh2 Hf2).
    assert (EX : forall u v, a <= u <= final (b :: t) -> a <= v <= final (b :: t) -> ex_RInt f u v).
    { apply (lipschitz_ex_RInt a (final (b :: t)) L f); auto. lra. }
    rewrite <- (RInt_Chasles (V := R_CompleteNormedModule) f a b) by (apply EX; lra).
    pose proof (panel_error nodes weights f a b L Hm1 HL Hf1 Len Hw Hs Hn) as P.
    change (over_panels (ps_gauss nodes weights f) (a :: b :: t)) with
      (ps_gauss nodes weights f a b + over_panels (ps_gauss nodes weights f) (b :: t)).
    change (plus (RInt f a b) (RInt f b (final (b :: t)))) with (RInt f a b + RInt f b (final (b :: t))).
    assert (Q : L * (b - a) * (b - a) <= L * h * (b - a)) by (apply Rmult_le_compat_r; [lra|]; apply Rmult_le_compat_l; lra).
    apply Rabs_le_between in IH. apply Rabs_le_between in P. apply Rabs_le_between. lra.
Qed.

(** *** weights and nodes *)
Lemma midpoint_positive d : increasing d -> forall W X, midpoint d = Ok (W, X) ->
  Forall (fun w => 0 < w) W.
Proof.
  intros H W X E. injection E as <- <-. induction d as [|a d IH]; [constructor|]. destruct d as [|b t]; [constructor|].
  destruct H as [H1 H2]. rewrite adjacent_cons. constructor; [lra|]. apply IH; auto.
Qed.
Lemma trap_positive d : (2 <= length d)%nat -> increasing d -> forall W X, trap d = Ok (W, X) -> Forall (fun w => 0 < w) W.
Proof.
  intros L H W X E. injection E as <- <-. destruct d as [|a [|b t]]; simpl in L; try lia. clear L.
  assert (G : forall t a c, 0 < c -> increasing (a :: t) ->
    Forall (fun w => 0 < w) (map2 (fun x y => (x + y) / 2) (adjacent (fun a b => b - a) (a :: t) ++ [0]) (c :: adjacent (fun a b => b - a) (a :: t)))).
  { clear. induction t as [|b t IH]; intros a c Hc H.
    - cbn. constructor; [lra|constructor].
    - destruct H as [H1 H2]. rewrite adjacent_cons. cbn [app map2]. constructor; [lra|]. apply IH; auto. lra. }
  destruct H as [H1 H2]. rewrite adjacent_cons. cbn [app map2]. constructor; [lra|]. apply G; auto. lra.
Qed.
Lemma simpson_positive d : (2 <= length d)%nat -> increasing d -> forall W X, simpson d = Ok (W, X) -> Forall (fun w => 0 < w) W.
Proof.
  intros L H W X E. destruct d as [|a [|b t]]; simpl in L; try lia. rewrite simpson_eq in E. injection E as <- <-.
  assert (G : forall t a c, 0 < c -> increasing (a :: t) -> Forall (fun w => 0 < w) (simp_w c a t)).
  { clear. induction t as [|b t IH]; intros a c Hc H; [repeat constructor; auto|].
    destruct H as [H1 H2]. cbn [simp_w]. constructor; [lra|]. constructor; [lra|]. apply IH; auto. lra. }
  destruct H as [H1 H2]. cbn [simp_w]. constructor; [lra|]. constructor; [lra|]. apply G; auto. lra.
Qed.
Lemma gauss_positive nodes weights d : Forall (fun w => 0 < w) weights -> increasing d -> forall W X,
  gauss nodes weights d = Ok (W, X) -> Forall (fun w => 0 < w) W.
Proof.
  intros Hw H W X E. injection E as <- <-. induction d as [|a d IH]; [constructor|]. destruct d as [|b t]; [constructor|].
  destruct H as [H1 H2]. rewrite adjacent_cons. cbn [concat]. apply Forall_app. split; [|apply IH; auto].
  apply Forall_map. eapply Forall_impl; [|exact Hw]. simpl. intros. apply Rmult_lt_0_compat; lra.
Qed.

Lemma between_adjacent q d : (forall a b, a <= b -> a <= q a b <= b) -> nondecreasing d -> (1 <= length d)%nat ->
  all_between (first d) (final d) (adjacent q d).
Proof.
  intros Hq H L. destruct d as [|a d]; [simpl in L; lia|]. clear L. revert a H. induction d as [|b t IH]; intros a H; [constructor|].
  pose proof (nondecreasing_first_final _ H ltac:(simpl; lia)) as B. unfold first in *. cbn [hd] in *.
  destruct H as [H1 H2]. specialize (IH b H2). change (final (a :: b :: t)) with (final (b :: t)) in *.
  inversion B as [|? ? B1 B2]; subst. inversion B2 as [|? ? B3 B4]; subst.
  rewrite adjacent_cons. constructor; [specialize (Hq a b H1); lra|]. eapply Forall_impl; [|exact IH]. simpl. intros; lra.
Qed.
Lemma midpoint_nodes d W X : nondecreasing d -> (1 <= length d)%nat -> midpoint d = Ok (W, X) -> all_between (first d) (final d) X.
Proof. intros H L E. injection E as <- <-. apply between_adjacent; auto. intros; lra. Qed.
Lemma trap_nodes d W X : nondecreasing d -> (1 <= length d)%nat -> trap d = Ok (W, X) -> all_between (first d) (final d) X.
Proof. intros H L E. injection E as <- <-. apply nondecreasing_first_final; auto. Qed.
Lemma simpson_nodes_between d W X : nondecreasing d -> (2 <= length d)%nat -> simpson d = Ok (W, X) -> all_between (first d) (final d) X.
Proof.
  intros H L E. destruct d as [|a [|b t]]; simpl in L; try lia. rewrite simpson_eq in E.
  assert (EX : X = simp_x a (b :: t)) by congruence. rewrite EX. clear L E EX W X.
  revert a H. generalize (b :: t) as r. clear b t. induction r as [|b t IH]; intros a H.
  - apply nondecreasing_first_final; auto.
  - pose proof (nondecreasing_first_final _ H ltac:(simpl; lia)) as B. destruct H as [H1 H2].
    inversion B as [|? ? B1 B2]; subst. inversion B2 as [|? ? B3 B4]; subst.
    specialize (IH b H2). unfold first in *; cbn [hd] in *. change (final (a :: b :: t)) with (final (b :: t)) in *.
    cbn [simp_x]. constructor; [lra|]. constructor; [lra|].
    eapply Forall_impl; [|exact IH]. simpl. intros; lra.
Qed.
Lemma gauss_nodes nodes weights d W X : Forall (fun x => -1 <= x <= 1) nodes -> nondecreasing d -> (1 <= length d)%nat ->
  gauss nodes weights d = Ok (W, X) -> all_between (first d) (final d) X.
Proof.
  intros Hn H L E. injection E as <- <-. destruct d as [|a d]; [simpl in L; lia|]. clear L.
  revert a H. induction d as [|b t IH]; intros a H; [constructor|].
  pose proof (nondecreasing_first_final _ H ltac:(simpl; lia)) as B. unfold first in *. cbn [hd] in *.
  destruct H as [H1 H2]. specialize (IH b H2). change (final (a :: b :: t)) with (final (b :: t)) in *.
  inversion B as [|? ? B1 B2]; subst. inversion B2 as [|? ? B3 B4]; subst.
  rewrite adjacent_cons. cbn [concat]. apply Forall_app. split.
  - apply Forall_map. eapply Forall_impl; [|exact Hn]. simpl. intros x Hx. split; nra.
  - eapply Forall_impl; [|exact IH]. simpl. intros; lra.
Qed.
Lemma composite_weights_sum rule nodes weights d W X : composite rule nodes weights -> sumR weights = 2 ->
  length nodes = length weights -> (2 <= length d)%nat ->
  rule d = Ok (W, X) -> length W = length X /\ sumR W = final d - first d.
Proof.
  intros HC Hs Len Hd E. destruct (HC d Hd) as (W' & X' & E' & L & H). rewrite E in E'. injection E' as <- <-.
  split; auto. specialize (H (fun _ => 1)).
  replace (dotR W (map (fun _ => 1) X)) with (sumR W) in H.
  2:{ clear -L. revert X L. induction W as [|w W IH]; intros [|x X] L; simpl in *; try lia; auto.
      rewrite dotR_cons, <- IH by lia. unfold sumR. simpl. ring. }
  rewrite H. clear -Hs Len Hd.
  assert (P : forall a b, ps_gauss nodes weights (fun _ => 1) a b = b - a).
  { intros. unfold ps_gauss. replace (sumR (map2 (fun w x : R => w * 1) weights nodes)) with (sumR weights).
    - rewrite Hs. field.
    - f_equal. rewrite (map2_ext _ (fun w _ => w)) by (intros; ring). symmetry. apply map2_fst. auto. }
  rewrite (over_panels_ext _ _ d P). destruct d as [|a d]; [simpl in Hd; lia|]. clear.
  revert a. induction d as [|b t IH]; intros a; [unfold first, final; simpl; ring|].
  change (over_panels (fun a b => b - a) (a :: b :: t)) with (b - a + over_panels (fun a b => b - a) (b :: t)).
  rewrite IH. unfold first. cbn [hd]. change (final (a :: b :: t)) with (final (b :: t)). ring.
Qed.
