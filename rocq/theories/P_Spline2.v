(** Continuity and derivative of the B-spline basis. *)
From Coquelicot Require Import Coquelicot.
From Verif Require Import Base BaseFacts P_Vec M_Spline S_Spline P_Spline1.

Lemma strict_sorted t : strictly_sorted t -> sorted t.
Proof. intros H i j Hij. destruct (Nat.eq_dec i j) as [->|N]; [lra|]. left. apply H. lia. Qed.
Lemma node_lt t i j : strictly_sorted t -> (i < j < length t)%nat -> node t i < node t j.
Proof. intros H Hij. rewrite !node_nth by lia. apply H. auto. Qed.

(** width of the support of the weight *)
Definition wd (t : list R) (k i : nat) : R := node t (i + k) - node t i.
Lemma wd_pos t k i : strictly_sorted t -> (1 <= k)%nat -> (i + k < length t)%nat -> 0 < wd t k i.
Proof. intros H Hk Hi. unfold wd. pose proof (node_lt t i (i + k) H ltac:(lia)). lra. Qed.
Lemma wt_strict t x k i : strictly_sorted t -> (1 <= k)%nat -> (i + k < length t)%nat -> wt x k i t = (x - node t i) / wd t k i.
Proof.
  intros H Hk Hi. pose proof (wd_pos t k i H Hk Hi) as P. unfold wt. destruct (Reqb _ _) eqn:E; auto.
  apply Reqb_true in E. unfold wd in P. lra.
Qed.
Lemma base_fun_strict t x k i : strictly_sorted t -> (i + k + 2 < length t)%nat ->
  base_fun x (S k) i t = (x - node t i) / wd t (S k) i * base_fun x k i t + (1 - (x - node t (i + 1)) / wd t (S k) (i + 1)) * base_fun x k (i + 1) t.
Proof. intros H Hi. rewrite base_fun_rec by (apply strict_sorted; auto). rewrite !wt_strict by (auto; lia). reflexivity. Qed.

Lemma Rmax_abs a b : Rmax a b = (a + b + Rabs (a - b)) / 2.
Proof. unfold Rmax, Rabs. destruct (Rle_dec a b), (Rcase_abs (a - b)); lra. Qed.
Lemma Rmin_abs a b : Rmin a b = (a + b - Rabs (a - b)) / 2.
Proof. unfold Rmin, Rabs. destruct (Rle_dec a b), (Rcase_abs (a - b)); lra. Qed.
Lemma hat_formula t x i : strictly_sorted t -> (i + 2 < length t)%nat ->
  base_fun x 1 i t = Rmax 0 (Rmin ((x - node t i) / (node t (i + 1) - node t i)) ((node t (i + 2) - x) / (node t (i + 2) - node t (i + 1)))).
Proof.
  intros H Hi. rewrite base_fun_strict by (auto; lia). unfold wd. cbn [base_fun]. fold (cell x i t). fold (cell x (i + 1) t).
  replace (i + 1 + 1)%nat with (i + 2)%nat by lia.
  assert (E2 : cell x (i + 1) t = if andb (Rleb (node t (i + 1)) x) (Rltb x (node t (i + 2))) then 1 else 0).
  { unfold cell. replace (i + 1 + 1)%nat with (i + 2)%nat by lia. reflexivity. }
  rewrite E2. unfold cell. clear E2.
  pose proof (node_lt t i (i + 1) H ltac:(lia)) as L1. pose proof (node_lt t (i + 1) (i + 2) H ltac:(lia)) as L2.
  set (a := node t i) in *. set (b := node t (i + 1)) in *. set (c := node t (i + 2)) in *. clearbody a b c. clear -L1 L2.
  replace (1 - (x - b) / (c - b)) with ((c - x) / (c - b)) by (field; lra).
  assert (P1 : 0 < / (b - a)) by (apply Rinv_0_lt_compat; lra). assert (P2 : 0 < / (c - b)) by (apply Rinv_0_lt_compat; lra).
  assert (E1 : (x - a) / (b - a) = 1 + (x - b) * / (b - a)) by (field; lra).
  assert (E2 : (c - x) / (c - b) = 1 - (x - b) * / (c - b)) by (field; lra).
  assert (F1 : (x - a) / (b - a) = (x - a) * / (b - a)) by reflexivity.
  assert (F2 : (c - x) / (c - b) = (c - x) * / (c - b)) by reflexivity.
  unfold Rleb, Rltb. destruct (Rle_dec a x), (Rlt_dec x b), (Rle_dec b x), (Rlt_dec x c); cbn [andb]; try lra.
  - rewrite Rmin_left by (rewrite E1, E2; nra). rewrite Rmax_right by (rewrite F1; nra). ring.
  - rewrite Rmin_right by (rewrite E1, E2; nra). rewrite Rmax_right by (rewrite F2; nra). ring.
  - rewrite Rmax_left; [ring|]. eapply Rle_trans; [apply Rmin_r|]. rewrite F2; nra.
  - rewrite Rmax_left; [ring|]. eapply Rle_trans; [apply Rmin_l|]. rewrite F1; nra.
Qed.
Ltac eqR := match goal with |- @eq _ ?a ?b => change (@eq R a b) end.
Lemma continuous_linear a b x : continuous (fun y => a * y + b) x.
Proof. apply (ex_derive_continuous (fun y : R => a * y + b)). auto_derive. auto. Qed.
Lemma base_fun_continuous t : strictly_sorted t -> forall k i x, (1 <= k)%nat -> (i + k + 1 < length t)%nat ->
  continuous (fun x => base_fun x k i t) x.
Proof.
  intros H. induction k as [|k IH]; intros i x Hk Hi; [lia|]. destruct k as [|k].
  - apply (continuous_ext (fun x => Rmax 0 (Rmin ((x - node t i) / (node t (i + 1) - node t i)) ((node t (i + 2) - x) / (node t (i + 2) - node t (i + 1)))))).
    { intros y. symmetry. apply hat_formula; auto. lia. }
    assert (CM : forall f g : R -> R, continuous f x -> continuous g x -> continuous (fun y => Rmax (f y) (g y)) x).
    { intros f g Hf Hg. apply (continuous_ext (fun y => scal (/ 2) (plus (plus (f y) (g y)) (Rabs (minus (f y) (g y)))))).
      - intros y. change (/ 2 * (f y + g y + Rabs (f y - g y)) = Rmax (f y) (g y)). rewrite Rmax_abs. field.
      - apply @continuous_scal_r. apply @continuous_plus; [apply @continuous_plus; auto|].
        apply (continuous_comp (fun y => minus (f y) (g y)) Rabs); [apply @continuous_minus; auto|apply continuous_Rabs]. }
    assert (Cm : forall f g : R -> R, continuous f x -> continuous g x -> continuous (fun y => Rmin (f y) (g y)) x).
    { intros f g Hf Hg. apply (continuous_ext (fun y => opp (Rmax (opp (f y)) (opp (g y))))).
      - intros y. change (- Rmax (- f y) (- g y) = Rmin (f y) (g y)). rewrite Rmax_abs, Rmin_abs. rewrite <- (Rabs_Ropp (f y - g y)).
        replace (- (f y - g y)) with (- f y - - g y) by ring. field.
      - apply @continuous_opp. apply CM; apply @continuous_opp; auto. }
    apply CM; [apply continuous_const|]. apply Cm.
    + apply (continuous_ext (fun y => / (node t (i + 1) - node t i) * y + (- node t i / (node t (i + 1) - node t i)))); [|apply continuous_linear].
      intros y. unfold Rdiv. eqR. ring.
    + apply (continuous_ext (fun y => - / (node t (i + 2) - node t (i + 1)) * y + node t (i + 2) / (node t (i + 2) - node t (i + 1)))); [|apply continuous_linear].
      intros y. unfold Rdiv. eqR. ring.
  - apply (continuous_ext (fun x => plus (mult ((x - node t i) / wd t (S (S k)) i) (base_fun x (S k) i t))
      (mult (1 - (x - node t (i + 1)) / wd t (S (S k)) (i + 1)) (base_fun x (S k) (i + 1) t)))).
    { intros y. symmetry. apply base_fun_strict; auto. lia. }
    apply @continuous_plus.
    + apply (continuous_mult (K := R_AbsRing)); [|apply (IH i x); lia].
      apply (continuous_ext (fun y => / wd t (S (S k)) i * y + (- node t i / wd t (S (S k)) i))); [|apply continuous_linear].
      intros y. unfold Rdiv. eqR. ring.
    + apply (continuous_mult (K := R_AbsRing)); [|apply (IH (i + 1)%nat x); lia].
      apply (continuous_ext (fun y => - / wd t (S (S k)) (i + 1) * y + (1 + node t (i + 1) / wd t (S (S k)) (i + 1)))); [|apply continuous_linear].
      intros y. unfold Rdiv. eqR. ring.
Qed.

(** derivative between the nodes *)
Definition dbase (t : list R) (x : R) (k i : nat) : R :=
  INR (S k) * (base_fun x k i t / wd t (S k) i - base_fun x k (i + 1) t / wd t (S k) (i + 1)).
Definition off_nodes (t : list R) (x : R) : Prop := forall j, node t j <> x.

Lemma cell_derive t x i : off_nodes t x -> is_derive (fun x => cell x i t) x 0.
Proof.
  intros Hx. pose proof (Hx i) as N1. pose proof (Hx (i + 1)%nat) as N2.
  apply (is_derive_ext_loc (fun _ => cell x i t)); [|apply @is_derive_const].
  assert (D : 0 < Rmin (Rabs (node t i - x)) (Rabs (node t (i + 1) - x))).
  { apply Rmin_glb_lt; apply Rabs_pos_lt; lra. }
  exists (mkposreal _ D). intros y Hy. unfold ball in Hy; simpl in Hy. unfold AbsRing_ball, abs, minus, plus, opp in Hy; simpl in Hy.
  assert (A : forall a, Rabs (y - x) < Rabs (a - x) -> (a <= y <-> a <= x) /\ (y < a <-> x < a)).
  { intros a. unfold Rabs. destruct (Rcase_abs (y - x)), (Rcase_abs (a - x)); lra. }
  destruct (A (node t i)) as [A1 _]; [eapply Rlt_le_trans; [apply Hy|apply Rmin_l]|].
  destruct (A (node t (i + 1)%nat)) as [_ A2]; [eapply Rlt_le_trans; [apply Hy|apply Rmin_r]|].
  unfold cell, Rleb, Rltb. destruct (Rle_dec (node t i) x), (Rle_dec (node t i) y), (Rlt_dec x (node t (i + 1))), (Rlt_dec y (node t (i + 1))); simpl; tauto || reflexivity.
Qed.
Lemma deriv_identity A B C P Q S x b0 b1 b2 : P - A <> 0 -> Q - B <> 0 -> S - C <> 0 -> Q - A <> 0 -> S - B <> 0 ->
  (x - A) / (Q - A) * (b0 / (P - A) - b1 / (Q - B)) + (1 - (x - B) / (S - B)) * (b1 / (Q - B) - b2 / (S - C)) =
  ((x - A) / (P - A) * b0 + (1 - (x - B) / (Q - B)) * b1) / (Q - A) - ((x - B) / (Q - B) * b1 + (1 - (x - C) / (S - C)) * b2) / (S - B).
Proof. intros. field. auto. Qed.
Lemma base_fun_derive_off t : strictly_sorted t -> forall k i x, off_nodes t x -> (i + k + 2 < length t)%nat ->
  is_derive (fun x => base_fun x (S k) i t) x (dbase t x k i).
Proof.
  intros H. induction k as [|k IH]; intros i x Hx Hi.
  - apply (is_derive_ext (fun x => plus (mult ((x - node t i) / wd t 1 i) (cell x i t))
      (mult (1 - (x - node t (i + 1)) / wd t 1 (i + 1)) (cell x (i + 1) t)))).
    { intros y. rewrite base_fun_strict by (auto; lia). reflexivity. }
    pose proof (wd_pos t 1 i H ltac:(lia) ltac:(lia)). pose proof (wd_pos t 1 (i + 1) H ltac:(lia) ltac:(lia)).
    evar_last.
    { apply @is_derive_plus.
      - apply (is_derive_mult (fun x => (x - node t i) / wd t 1 i) (fun x => cell x i t) x (/ wd t 1 i) 0); [|apply cell_derive; auto|intros; apply Rmult_comm].
        auto_derive; auto. field. lra.
      - apply (is_derive_mult (fun x => 1 - (x - node t (i + 1)) / wd t 1 (i + 1)) (fun x => cell x (i + 1) t) x (- / wd t 1 (i + 1)) 0); [|apply cell_derive; auto|intros; apply Rmult_comm].
        auto_derive; auto. field. lra. }
    unfold dbase. cbn [base_fun INR]. fold (cell x i t). fold (cell x (i + 1) t).
    unfold plus, mult; simpl. field. lra.
  - apply (is_derive_ext (fun x => plus (mult ((x - node t i) / wd t (S (S k)) i) (base_fun x (S k) i t))
      (mult (1 - (x - node t (i + 1)) / wd t (S (S k)) (i + 1)) (base_fun x (S k) (i + 1) t)))).
    { intros y. symmetry. apply base_fun_strict; auto. }
    pose proof (wd_pos t (S (S k)) i H ltac:(lia) ltac:(lia)) as W1. pose proof (wd_pos t (S (S k)) (i + 1) H ltac:(lia) ltac:(lia)) as W2.
    evar_last.
    { apply @is_derive_plus.
      - apply (is_derive_mult (fun x => (x - node t i) / wd t (S (S k)) i) (fun x => base_fun x (S k) i t) x (/ wd t (S (S k)) i) (dbase t x k i));
          [|apply (IH i x); auto; lia|intros; apply Rmult_comm].
        auto_derive; auto. field. lra.
      - apply (is_derive_mult (fun x => 1 - (x - node t (i + 1)) / wd t (S (S k)) (i + 1)) (fun x => base_fun x (S k) (i + 1) t) x (- / wd t (S (S k)) (i + 1)) (dbase t x k (i + 1)));
          [|apply (IH (i + 1)%nat x); auto; lia|intros; apply Rmult_comm].
        auto_derive; auto. field. lra. }
    unfold dbase.
    pose proof (wd_pos t (S k) i H ltac:(lia) ltac:(lia)) as W3. pose proof (wd_pos t (S k) (i + 1) H ltac:(lia) ltac:(lia)) as W4.
    pose proof (wd_pos t (S k) (i + 1 + 1) H ltac:(lia) ltac:(lia)) as W5.
    unfold plus, mult; simpl (AbsRing.sort _); cbn -[INR base_fun wd].
    rewrite (S_INR (S k)). set (c := INR (S k)).
    pose proof (deriv_identity (node t i) (node t (i + 1)) (node t (i + 1 + 1)) (node t (i + S k)) (node t (i + S (S k))) (node t (i + 1 + S (S k))) x
      (base_fun x k i t) (base_fun x k (i + 1) t) (base_fun x k (i + 1 + 1) t)) as E.
    pose proof (base_fun_strict t x k i H ltac:(lia)) as R1. pose proof (base_fun_strict t x k (i + 1) H ltac:(lia)) as R2.
    unfold wd in *.
    replace (i + 1 + S k)%nat with (i + S (S k))%nat in * by lia. replace (i + 1 + 1 + S k)%nat with (i + 1 + S (S k))%nat in * by lia.
    specialize (E ltac:(lra) ltac:(lra) ltac:(lra) ltac:(lra) ltac:(lra)). rewrite <- R1, <- R2 in E.
    set (B1 := base_fun x (S k) i t) in *. set (B2 := base_fun x (S k) (i + 1) t) in *.
    match type of E with ?L = ?U => transitivity (U + c * L); [unfold Rdiv; ring|rewrite E; ring] end.
Qed.

(** a derivative that extends continuously through an isolated point *)
Lemma derive_extend (f g : R -> R) (x : R) (eps : posreal) : (forall y, Rabs (y - x) < eps -> continuous f y) -> continuous g x ->
  (forall y, y <> x -> Rabs (y - x) < eps -> is_derive f y (g y)) -> is_derive f x (g x).
Proof.
  intros Hf Hg Hd. apply is_derive_Reals. intros e He.
  destruct (Hg (fun z => Rabs (z - g x) < e)) as [d Hd2].
  { exists (mkposreal e He). intros z Hz. exact Hz. }
  assert (Dp : 0 < Rmin eps d) by (apply Rmin_glb_lt; [apply eps|apply d]).
  exists (mkposreal _ Dp). intros h Hh Hb. simpl in Hb.
  assert (Hb1 : Rabs h < eps) by (eapply Rlt_le_trans; [apply Hb|apply Rmin_l]).
  assert (Hb2 : Rabs h < d) by (eapply Rlt_le_trans; [apply Hb|apply Rmin_r]).
  assert (G : forall y, Rmin x (x + h) <= y <= Rmax x (x + h) -> Rabs (y - x) <= Rabs h).
  { intros y. unfold Rmin, Rmax, Rabs. destruct (Rle_dec x (x + h)), (Rcase_abs (y - x)), (Rcase_abs h); lra. }
  destruct (MVT_gen f x (x + h) g) as (c & Hc & E).
  - intros y Hy. apply Hd.
    + intros ->. revert Hy. unfold Rmin, Rmax. destruct (Rle_dec x (x + h)); lra.
    + eapply Rle_lt_trans; [apply G; lra|auto].
  - intros y Hy. apply continuity_pt_filterlim. apply Hf. eapply Rle_lt_trans; [apply G; lra|auto].
  - rewrite E. replace (g c * (x + h - x) / h - g x) with (g c - g x) by (field; auto).
    apply Hd2. unfold ball; simpl. unfold AbsRing_ball, abs, minus, plus, opp; simpl. eapply Rle_lt_trans; [apply (G c Hc)|auto].
Qed.
Lemma isolated (l : list R) (x : R) : exists eps : posreal, forall a, In a l -> a <> x -> eps <= Rabs (a - x).
Proof.
  induction l as [|a l [eps IH]]; [exists (mkposreal 1 Rlt_0_1); simpl; tauto|].
  destruct (Req_dec a x) as [E|N].
  - exists eps. intros b [<-|Hb] Nb; [congruence|auto].
  - assert (D : 0 < Rmin eps (Rabs (a - x))) by (apply Rmin_glb_lt; [apply eps|apply Rabs_pos_lt; lra]).
    exists (mkposreal _ D). simpl. intros b [<-|Hb] Nb; [apply Rmin_r|]. eapply Rle_trans; [apply Rmin_l|]. auto.
Qed.
Lemma node_in t j : t <> [] -> In (node t j) t.
Proof. intros H. unfold node. apply nth_In. destruct t; [congruence|]. cbn [length]. lia. Qed.
Lemma base_fun_derive t : strictly_sorted t -> forall k i x, (i + k + 3 < length t)%nat ->
  is_derive (fun x => base_fun x (S (S k)) i t) x (dbase t x (S k) i).
Proof.
  intros H k i x Hi. destruct (isolated t x) as [eps Heps].
  apply (derive_extend (fun x => base_fun x (S (S k)) i t) (fun x => dbase t x (S k) i) x eps).
  - intros y _. apply base_fun_continuous; auto; lia.
  - unfold dbase. pose proof (wd_pos t (S (S k)) i H ltac:(lia) ltac:(lia)). pose proof (wd_pos t (S (S k)) (i + 1) H ltac:(lia) ltac:(lia)).
    apply (continuous_ext (fun x => scal (INR (S (S k))) (minus (scal (/ wd t (S (S k)) i) (base_fun x (S k) i t)) (scal (/ wd t (S (S k)) (i + 1)) (base_fun x (S k) (i + 1) t))))).
    { intros y. set (c := INR (S (S k))). set (B1 := base_fun y (S k) i t). set (B2 := base_fun y (S k) (i + 1) t).
      change (c * (/ wd t (S (S k)) i * B1 - / wd t (S (S k)) (i + 1) * B2) = c * (B1 / wd t (S (S k)) i - B2 / wd t (S (S k)) (i + 1))). unfold Rdiv. ring. }
    apply @continuous_scal_r. apply @continuous_minus; apply @continuous_scal_r; apply base_fun_continuous; auto; lia.
  - intros y Ny Hy. apply base_fun_derive_off; auto; try lia. intros j E.
    assert (N : node t j <> x) by congruence. pose proof (Heps (node t j) (node_in t j ltac:(intros ->; simpl in Hi; lia)) N). rewrite E in H0. lra.
Qed.
Lemma basis_entry x t k i : (i + k + 1 < length t)%nat -> match spline_basis x t k with Ok b => nth i b 0 | Err _ => 0 end = base_fun x k i t.
Proof.
  intros H. unfold spline_basis. destruct t as [|a t]; [simpl in H; lia|]. rewrite nth_map_seq; [reflexivity|]. lia.
Qed.
Lemma basis_continuous t k i : strictly_sorted t -> (1 <= k)%nat -> (i + k + 1 < length t)%nat ->
  forall x, continuous (fun x => match spline_basis x t k with Ok b => nth i b 0 | Err _ => 0 end) x.
Proof.
  intros H Hk Hi x. apply (continuous_ext (fun x => base_fun x k i t)); [|apply base_fun_continuous; auto].
  intros y. symmetry. apply basis_entry. auto.
Qed.
Lemma basis_derivative t k i : strictly_sorted t -> (2 <= k)%nat -> (i + k + 1 < length t)%nat ->
  forall x b, spline_basis x t (k - 1) = Ok b ->
  is_derive (fun x => match spline_basis x t k with Ok b => nth i b 0 | Err _ => 0 end) x
    (INR k * (nth i b 0 / (nth (i + k) t 0 - nth i t 0) - nth (i + 1) b 0 / (nth (i + k + 1) t 0 - nth (i + 1) t 0))).
Proof.
  intros H Hk Hi x b Hb. destruct k as [|[|k]]; try lia. replace (S (S k) - 1)%nat with (S k) in Hb by lia.
  apply (is_derive_ext (fun x => base_fun x (S (S k)) i t)); [intros y; symmetry; apply basis_entry; auto|].
  evar_last; [apply base_fun_derive; auto; lia|]. unfold dbase, wd. apply basis_ok in Hb as (_ & ->).
  rewrite !nth_map_seq by lia. rewrite !node_nth by lia. replace (i + 1 + S (S k))%nat with (i + S (S k) + 1)%nat by lia. reflexivity.
Qed.
