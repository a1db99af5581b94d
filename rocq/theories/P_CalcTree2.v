(** Proofs for Jacobians and derivatives of functions with pytree results. *)
From Coq Require Import String FunctionalExtensionality.
From Coquelicot Require Import Coquelicot.
From Verif Require Import Base BaseFacts P_Vec M_Tensor M_Calc M_Jac M_CalcTree M_CalcTree2 S_Calc S_Model S_Surface S_Jac S_CalcTree S_CalcTree2.
From Verif Require Import P_AD P_Calc P_Calc2 P_Jac P_Surface1 P_CalcTree.
Import ListNotations.
Open Scope R_scope.

(** ** reverse mode *)
Lemma sumR_map_one n i (g : nat -> R) : (i < n)%nat -> (forall j, (j < n)%nat -> j <> i -> g j = 0) ->
  sumR (map g (seq 0 n)) = g i.
Proof.
  intros Hi H. rewrite <- (lsum_pick n i g Hi). apply lsum_ext. intros j Hj.
  destruct (Nat.eqb_spec j i) as [->|N]; [ring|]. rewrite (H j Hj N). ring.
Qed.
Lemma nth_basis ss i p j : (j < List.length ss)%nat ->
  nth j (basisP ss i p) (tsc 0) = if Nat.eqb j i then tunit (nth j ss []) p else mkT (nth j ss []) (fun _ => 0).
Proof.
  intros Hj. apply nth_error_nth. unfold basisP.
  rewrite (nth_error_map2 _ _ _ j j (nth j ss [])); [reflexivity|apply nth_error_seq_0; exact Hj|apply nth_error_nth'; exact Hj].
Qed.
Lemma vjpP_basis F x ss i p q : (i < List.length ss)%nat -> inside (nth i ss []) p ->
  entry (vjpP F x ss (basisP ss i p)) q = Derive (fun t => entry_of (leaf_of F i (taxpy t x (tunit (shape x) q))) p) 0.
Proof.
  intros Hi Hp. cbn [entry vjpP]. apply Derive_ext. intros t. rewrite (sumR_map_one _ i); [|exact Hi|].
  - cbv zeta. rewrite (nth_basis ss i p i Hi), Nat.eqb_refl.
    apply (sum_unit (nth i ss []) p (fun q' => entry_of (leaf_of F i (taxpy t x (tunit (shape x) q))) q')). exact Hp.
  - intros j Hj N. cbv zeta. rewrite (nth_basis ss i p j Hj). destruct (Nat.eqb_spec j i); [contradiction|].
    apply sumR_map_0. intros k _. cbn [entry]. ring.
Qed.
Definition same_tree (y z : ptree) : Prop := tdef y = tdef z /\ Forall2 same_array (leaves y) (leaves z).
Definition same_treeR (r r' : res ptree) : Prop :=
  match r, r' with Ok y, Ok z => same_tree y z | Err e, Err e' => e = e' | _, _ => False end.
Lemma seq_two {A} (g h : nat -> res A) (P : A -> A -> Prop) m :
  (forall i, (i < m)%nat -> exists a b, g i = Ok a /\ h i = Ok b /\ P a b) ->
  exists ls ks, sequence (map g (seq 0 m)) = Ok ls /\ sequence (map h (seq 0 m)) = Ok ks /\ Forall2 P ls ks.
Proof.
  intros H.
  assert (G : forall l, (forall i, In i l -> (i < m)%nat) ->
     exists ls ks, sequence (map g l) = Ok ls /\ sequence (map h l) = Ok ks /\ Forall2 P ls ks).
  { induction l as [|i l IH]; intros Hl; [exists [], []; repeat split; constructor|].
    destruct (H i (Hl i (or_introl eq_refl))) as (a & b & Ea & Eb & Pab).
    destruct IH as (ls & ks & E1 & E2 & F); [intros; apply Hl; right; auto|].
    exists (a :: ls), (b :: ks). cbn [map sequence]. rewrite Ea, Eb. cbn [bind]. rewrite E1, E2. cbn [bind]. repeat split; auto. }
  apply G. intros i Hi. apply in_seq in Hi. lia.
Qed.
Lemma leaf_ok {A} (F : A -> res ptree) x y i a : F x = Ok y -> nth_error (leaves y) i = Some a -> leaf_of F i x = Ok a.
Proof. intros E H. unfold leaf_of. rewrite E. cbn [bind]. rewrite H. reflexivity. Qed.
Lemma jacrevP_jacfwdP F x : same_treeR (jacrevP F x) (jacfwdP F x).
Proof.
  unfold jacrevP, jacfwdP. destruct (F x) as [y|e] eqn:Ey; cbn [bind same_treeR]; [|reflexivity].
  unfold by_leaf.
  destruct (seq_two (fun i => let s := nth i (map shape (leaves y)) [] in
    Ok (mkT (s ++ shape x)
            (fun pq => entry (vjpP F x (map shape (leaves y)) (basisP (map shape (leaves y)) i (firstn (List.length s) pq))) (skipn (List.length s) pq))))
    (fun i => jacfwd (leaf_of F i) x) same_array (List.length (leaves y))) as (ls & ks & E1 & E2 & H).
  - intros i Hi. destruct (nth_error_lt _ _ Hi) as (a & Ea). cbv zeta.
    assert (Es : nth i (map shape (leaves y)) [] = shape a).
    { apply nth_error_nth. rewrite nth_error_map, Ea. reflexivity. }
    rewrite Es. unfold jacfwd. rewrite (leaf_ok F x y i a Ey Ea). cbn [bind].
    eexists. eexists. split; [reflexivity|]. split; [reflexivity|]. split; [reflexivity|]. cbn [shape]. intros pq Hpq.
    destruct (inside_split _ _ _ Hpq) as (p & q & -> & Hp & Hq). cbn [entry].
    rewrite <- (inside_length _ _ Hp), firstn_app, firstn_all, skipn_app, skipn_all, Nat.sub_diag. cbn [firstn skipn app].
    rewrite app_nil_r. apply (vjpP_basis F x (map shape (leaves y)) i p q); [rewrite map_length; exact Hi|rewrite Es; exact Hp].
  - cbv zeta in E1 |- *. rewrite E1, E2. cbn [bind]. split; [reflexivity|exact H].
Qed.

(** ** arguments of any shape *)
Lemma leaf_computes sx D F td us i u : computes_fields sx D F td us -> nth_error us i = Some u ->
  computes sx (fst u) D (leaf_of F i) (snd u).
Proof.
  intros H E t St Dt. destruct (H t St Dt) as (y & Ey & _ & FA).
  destruct (Forall2_nth_error_r _ _ _ _ _ FA E) as (a & Ea & Sa & Va).
  exists a. split; [exact (leaf_ok F t y i a Ey Ea)|]. auto.
Qed.
Lemma jacfwdP_fields sx D F td us x : openset (List.length (indices sx)) D -> computes_fields sx D F td us ->
  shape x = sx -> D (flatten x) -> exists J, jacfwdP F x = Ok J /\ tdef J = td /\ jacobians_at x us (leaves J).
Proof.
  intros HO H Sx Dx. destruct (H x Sx Dx) as (y & Ey & Ty & FA). unfold jacfwdP, by_leaf. rewrite Ey. cbn [bind].
  rewrite (Forall2_len _ _ _ FA).
  destruct (seq_leaves (fun i => jacfwd (leaf_of F i) x) us (fun J u => is_jacobian (fst u) (snd u) x J)) as (ls & E & F2).
  - intros i u Eu. apply (jacfwd_computes sx (fst u) D); auto.
    + rewrite <- indices_length. exact HO.
    + exact (leaf_computes sx D F td us i u H Eu).
  - rewrite E. cbn [bind]. eexists. split; [reflexivity|]. split; [exact Ty|exact F2].
Qed.
Lemma jacrevP_fields sx D F td us x : openset (List.length (indices sx)) D -> computes_fields sx D F td us ->
  shape x = sx -> D (flatten x) -> exists J, jacrevP F x = Ok J /\ tdef J = td /\ jacobians_at x us (leaves J).
Proof.
  intros HO H Sx Dx. destruct (jacfwdP_fields sx D F td us x HO H Sx Dx) as (J & E & T & HJ).
  pose proof (jacrevP_jacfwdP F x) as S. rewrite E in S. destruct (jacrevP F x) as [J'|]; [|contradiction].
  destruct S as (S1 & S2). exists J'. split; [reflexivity|]. split; [congruence|]. unfold jacobians_at in *.
  clear - S2 HJ. revert us HJ. induction S2 as [|a b l m Pa S2 IH]; intros us HJ; inversion HJ; subst; constructor; auto.
  eapply same_jacobian; eauto.
Qed.
Lemma jacfwd_argsP_one F args j x k : pyidx (List.length args) k j -> nth_error args k = Some x ->
  forall y, F args = Ok y -> jacfwd_argsP F (JOne j) args = jacfwdP (fun t => F (upd args k t)) x.
Proof.
  intros Hj Hx y Ey. unfold jacfwd_argsP, jacfwdP. rewrite (nth_error_upd_self _ _ _ Hx), Ey. cbn [bind].
  f_equal. extensionality i. unfold jac_arg. rewrite (pyget_idx args k j x Hj Hx). f_equal.
  extensionality t. rewrite (pyset_pos args k j t Hj). reflexivity.
Qed.
Lemma jacrev_argP_one F args j x k : pyidx (List.length args) k j -> nth_error args k = Some x ->
  jacrev_argP F args j = jacrevP (fun t => F (upd args k t)) x.
Proof.
  intros Hj Hx. unfold jacrev_argP. rewrite (pyget_idx args k j x Hj Hx). f_equal. extensionality t.
  rewrite (pyset_pos args k j t Hj). reflexivity.
Qed.
Lemma fields_at args k x F (D : list R -> Prop) td us : nth_error args k = Some x -> D (flatten x) ->
  computes_fields (shape x) D (fun t => F (upd args k t)) td us -> exists y, F args = Ok y /\ tree_of td us (flatten x) y.
Proof. intros Hx Dx H. destruct (H x eq_refl Dx) as (y & Ey & T). rewrite (nth_error_upd_self _ _ _ Hx) in Ey. eauto. Qed.
Lemma value_and_jac_tree F args k j x (D : list R -> Prop) td us : pyidx (List.length args) k j -> nth_error args k = Some x ->
  openset (List.length (indices (shape x))) D -> D (flatten x) -> computes_fields (shape x) D (fun t => F (upd args k t)) td us ->
  exists y, F args = Ok y /\
    (exists J, value_and_jacfwdP F (JOne j) args = Ok (y, J) /\ tdef J = td /\ jacobians_at x us (leaves J)) /\
    (exists J, value_and_jacrevP F (JOne j) args = Ok (y, J) /\ tdef J = td /\ jacobians_at x us (leaves J)).
Proof.
  intros Hj Hx HO Dx H. destruct (fields_at args k x F D td us Hx Dx H) as (y & Ey & _). exists y. split; [exact Ey|]. split.
  - destruct (jacfwdP_fields _ D _ td us x HO H eq_refl Dx) as (J & EJ & TJ & HJ). exists J. split; [|auto].
    unfold value_and_jacfwdP. rewrite (jacfwd_argsP_one F args j x k Hj Hx y Ey), EJ. cbn [bind]. rewrite Ey. reflexivity.
  - destruct (jacrevP_fields _ D _ td us x HO H eq_refl Dx) as (J & EJ & TJ & HJ). exists J. split; [|auto].
    unfold value_and_jacrevP, jacrev_argsP. rewrite (jacrev_argP_one F args j x k Hj Hx), EJ. cbn [bind]. rewrite Ey. reflexivity.
Qed.

(** ** several arguments *)
Section Many.
Variables (F : list tensor -> res ptree) (args : list tensor) (td : treedef) (js : list Z) (ks : list nat).
Variables (D : nat -> list R -> Prop) (X : nat -> tensor) (us : nat -> list field) (y : ptree).
Hypothesis Hjs : Forall2 (fun j k => pyidx (List.length args) k j) js ks.
Hypothesis Ey : F args = Ok y.
Hypothesis HK : forall k, In k ks -> nth_error args k = Some (X k) /\ openset (List.length (indices (shape (X k)))) (D k) /\
  D k (flatten (X k)) /\ computes_fields (shape (X k)) (D k) (fun t => F (upd args k t)) td (us k).
Lemma leaf_value k i u : In k ks -> nth_error (us k) i = Some u ->
  exists a, nth_error (leaves y) i = Some a /\ shape a = fst u.
Proof.
  intros Hk Eu. destruct (HK k Hk) as (Ex & _ & Dx & HC).
  destruct (fields_at args k (X k) F (D k) td (us k) Ex Dx HC) as (z & Ez & _ & FA).
  replace z with y in FA by congruence. destruct (Forall2_nth_error_r _ _ _ _ _ FA Eu) as (a & Ea & Sa & _). eauto.
Qed.
Lemma us_len k : In k ks -> List.length (us k) = List.length (leaves y).
Proof.
  intros Hk. destruct (HK k Hk) as (Ex & _ & Dx & HC).
  destruct (fields_at args k (X k) F (D k) td (us k) Ex Dx HC) as (z & Ez & _ & FA).
  replace z with y in FA by congruence. symmetry. exact (Forall2_len _ _ _ FA).
Qed.
Lemma us_td k : In k ks -> tdef y = td.
Proof.
  intros Hk. destruct (HK k Hk) as (Ex & _ & Dx & HC).
  destruct (fields_at args k (X k) F (D k) td (us k) Ex Dx HC) as (z & Ez & T & FA). congruence.
Qed.
Lemma jacfwd_many : exists J, value_and_jacfwdP F (JMany js) args = Ok (y, J) /\ tdef J = TTuples (tdef y) (List.length ks) /\
  List.length (leaves J) = (List.length (leaves y) * List.length ks)%nat /\
  forall i c k u, nth_error ks c = Some k -> nth_error (us k) i = Some u ->
    exists a, nth_error (leaves J) (i * List.length ks + c) = Some a /\ is_jacobian (fst u) (snd u) (X k) a.
Proof.
  pose proof (Forall2_len _ _ _ Hjs) as Lj.
  destruct (sequence_map_ok (fun i => sequence (map (jac_arg jacfwd (leaf_of F i) args) js)) (seq 0 (List.length (leaves y)))
    (fun i row => List.length row = List.length ks /\ forall a, nth_error (leaves y) i = Some a ->
       Forall2 (fun k J => arg_jacobian (shape a) (leaf_of F i) args k J) ks row)) as (Js & EJs & FJ).
  { intros i Hi. apply in_seq in Hi. destruct (nth_error_lt (leaves y) i ltac:(lia)) as (a & Ea).
    destruct (jac_all_many jacfwd (leaf_of F i) args ks js a (or_introl eq_refl) Hjs (leaf_ok F args y i a Ey Ea)) as (row & E & HR).
    cbn [jac_all] in E. destruct (sequence (map (jac_arg jacfwd (leaf_of F i) args) js)) as [row'|] eqn:E'; [|discriminate E].
    cbn [bind] in E. injection E as ->. exists row. split; [reflexivity|]. split; [symmetry; exact (Forall2_len _ _ _ HR)|].
    intros a' Ea'. replace a' with a by congruence. exact HR. }
  destruct (Forall2_nth_seq _ _ Js FJ) as (LJ & HJ).
  assert (HL : Forall (fun r => List.length r = List.length ks) Js).
  { apply Forall_forall. intros r Hr. destruct (In_nth_error _ _ Hr) as (i & Ei).
    destruct (HJ i) as (r' & Er & Lr & _); [rewrite <- LJ; apply nth_error_Some; congruence|]. congruence. }
  exists (mkP (TTuples (tdef y) (List.length ks)) (List.concat Js)).
  split; [|split; [reflexivity|split]].
  - unfold value_and_jacfwdP, jacfwd_argsP. rewrite Ey. cbn [bind]. rewrite EJs. cbn [bind]. rewrite Lj. reflexivity.
  - cbn [leaves]. rewrite (concat_len _ _ HL), LJ. reflexivity.
  - intros i c k u Ek Eu. assert (Hk : In k ks) by (eapply nth_error_In; eauto).
    destruct (leaf_value k i u Hk Eu) as (a & Ea & Sa).
    destruct (HJ i) as (row & Er & Lr & Hr); [apply nth_error_Some; congruence|].
    destruct (Forall2_nth_error_l _ _ _ _ _ (Hr a Ea) Ek) as (J & EJ & PJ). exists J. cbn [leaves].
    rewrite (concat_nth Js (List.length ks) i c row HL Er) by (apply nth_error_Some; congruence). split; [exact EJ|].
    destruct (HK k Hk) as (Ex & HO & Dx & HC). rewrite <- Sa.
    apply (PJ (X k) (D k) (snd u) Ex HO Dx). rewrite Sa. exact (leaf_computes _ _ _ td (us k) i u HC Eu).
Qed.
Lemma jacrev_many : exists J, value_and_jacrevP F (JMany js) args = Ok (y, J) /\ tdef J = TTuples (tdef y) (List.length ks) /\
  List.length (leaves J) = (List.length (leaves y) * List.length ks)%nat /\
  forall i c k u, nth_error ks c = Some k -> nth_error (us k) i = Some u ->
    exists a, nth_error (leaves J) (i * List.length ks + c) = Some a /\ is_jacobian (fst u) (snd u) (X k) a.
Proof.
  pose proof (Forall2_len _ _ _ Hjs) as Lj.
  assert (G : exists Js, sequence (map (jacrev_argP F args) js) = Ok Js /\
    Forall2 (fun k J => jacobians_at (X k) (us k) (leaves J)) ks Js).
  { assert (HK' := HK). revert HK'. clear HK Lj. induction Hjs as [|j k js' ks' Hj H2 IH]; intros HK.
    - exists []. split; [reflexivity|constructor].
    - destruct IH as (Js & E & F2); [exact H2|intros; apply HK; right; auto|].
      destruct (HK k (or_introl eq_refl)) as (Ex & HO & Dx & HC).
      destruct (jacrevP_fields _ (D k) _ td (us k) (X k) HO HC eq_refl Dx) as (J & EJ & _ & HJ).
      exists (J :: Js). cbn [map sequence]. rewrite (jacrev_argP_one F args j (X k) k Hj Ex), EJ. cbn [bind]. rewrite E.
      split; [reflexivity|constructor; auto]. }
  destruct G as (Js & E & F2). pose proof (Forall2_len _ _ _ F2) as LJ.
  exists (transposeP (tdef y) (List.length (leaves y)) Js). unfold transposeP. cbn [tdef leaves]. rewrite <- LJ.
  set (rows := map (fun i => map (fun J => nth i (leaves J) (tsc 0)) Js) (seq 0 (List.length (leaves y)))).
  assert (HL : Forall (fun r => List.length r = List.length ks) rows).
  { apply Forall_forall. intros r Hr. apply in_map_iff in Hr. destruct Hr as (i & <- & _). rewrite map_length. auto. }
  split; [|split; [reflexivity|split]].
  - unfold value_and_jacrevP, jacrev_argsP. rewrite Ey. cbn [bind]. rewrite E. cbn [bind]. unfold transposeP. rewrite ?LJ. reflexivity.
  - rewrite (concat_len _ _ HL). unfold rows. rewrite map_length, seq_length. reflexivity.
  - intros i c k u Ek Eu. assert (Hk : In k ks) by (eapply nth_error_In; eauto).
    destruct (Forall2_nth_error_l _ _ _ _ _ F2 Ek) as (J & EJ & HJ).
    destruct (Forall2_nth_error_r _ _ _ _ _ HJ Eu) as (a & Ea & Pa). exists a. split; [|exact Pa].
    rewrite (concat_nth rows (List.length ks) i c (map (fun J => nth i (leaves J) (tsc 0)) Js) HL).
    + rewrite nth_error_map, EJ. cbn [option_map]. f_equal. apply nth_error_nth. exact Ea.
    + unfold rows. rewrite nth_error_map, nth_error_seq_0; [reflexivity|]. rewrite <- (us_len k Hk). apply nth_error_Some. congruence.
    + apply nth_error_Some. congruence.
Qed.
End Many.

Lemma value_and_jac_tree_out F args j : (j < - Z.of_nat (List.length args) \/ Z.of_nat (List.length args) <= j)%Z ->
  value_and_jacrevP F (JOne j) args = Err ValueError.
Proof. intros H. unfold value_and_jacrevP, jacrev_argsP, jacrev_argP. rewrite pyget_out by exact H. reflexivity. Qed.

(** ** derivative *)
(** entry [p] of leaf [i], and whether there is a result at all *)
Definition viewF (i : nat) (p : list nat) (f : pyfunP) : pyfun :=
  mkF (paramsP f) (fun args kw => a <- leaf_of (fun l => callP f l kw) i args ;; Ok (tsc (entry a p))).
Definition statusF (f : pyfunP) : pyfun :=
  mkF (paramsP f) (fun args kw => _ <- callP f args kw ;; Ok (tsc 0)).
Lemma taxpy0 xs vs : same_shapes xs vs = true -> map2 (taxpy 0) xs vs = xs.
Proof.
  unfold same_shapes. intros H. apply andb_prop in H. destruct H as (L & _). apply Nat.eqb_eq in L.
  revert vs L. induction xs as [|x xs IH]; intros [|v vs] L; try discriminate L; [reflexivity|].
  cbn [map2]. f_equal; [|apply IH; cbn in L; lia]. destruct x as [s e]. unfold taxpy. cbn [shape entry]. f_equal.
  extensionality p. ring.
Qed.
Lemma entry_of_view r p : entry_of (a <- r ;; Ok (tsc (entry a p))) [] = entry_of r p.
Proof. destruct r; reflexivity. Qed.
Lemma jvp_argsP_inv F xs vs : jvp_argsP F xs vs =
  if same_shapes xs vs then
    match F xs with
    | Ok y => Ok (y, mkP (tdef y) (map2 (fun i a => mkT (shape a) (fun p => Derive (fun t => entry_of (leaf_of F i (map2 (taxpy t) xs vs)) p) 0))
                                        (seq 0 (List.length (leaves y))) (leaves y)))
    | Err e => Err e
    end
  else Err TypeError.
Proof.
  unfold jvp_argsP. destruct (same_shapes xs vs) eqn:SS; [|reflexivity]. destruct (F xs) as [y|e] eqn:Ey; cbn [bind]; [|reflexivity].
  unfold by_leaf.
  set (h := fun i a => mkT (shape a) (fun p => Derive (fun t => entry_of (leaf_of F i (map2 (taxpy t) xs vs)) p) 0)).
  assert (G : sequence (map (fun i => tderive (fun t => leaf_of F i (map2 (taxpy t) xs vs))) (seq 0 (List.length (leaves y)))) =
    Ok (map2 h (seq 0 (List.length (leaves y))) (leaves y))).
  { assert (G : forall l k, (forall i a, nth_error l i = Some a -> nth_error (leaves y) (k + i) = Some a) ->
      sequence (map (fun i => tderive (fun t => leaf_of F i (map2 (taxpy t) xs vs))) (seq k (List.length l))) = Ok (map2 h (seq k (List.length l)) l)).
    { induction l as [|a l IH]; intros k Hl; [reflexivity|]. cbn [List.length seq map sequence map2].
      assert (E : tderive (fun t => leaf_of F k (map2 (taxpy t) xs vs)) = Ok (h k a)).
      { unfold tderive. rewrite (taxpy0 xs vs SS). rewrite (leaf_ok F xs y k a Ey); [reflexivity|].
        rewrite <- (Hl 0%nat a eq_refl), Nat.add_0_r. reflexivity. }
      rewrite E. cbn [bind]. rewrite (IH (S k)); [reflexivity|]. intros i b Hb. rewrite <- (Hl (S i) b Hb). f_equal. lia. }
    apply (G (leaves y) 0%nat). intros i a H. exact H. }
  rewrite G. reflexivity.
Qed.
Lemma view_jvp F xs vs i p :
  (yd <- jvp (fun l => a <- leaf_of F i l ;; Ok (tsc (entry a p))) xs vs ;; Ok (snd yd)) =
  (d <- (yd <- jvp_argsP F xs vs ;; Ok (snd yd)) ;;
   a <- match nth_error (leaves d) i with Some a => Ok a | None => Err TypeError end ;; Ok (tsc (entry a p))).
Proof.
  rewrite jvp_argsP_inv. unfold jvp, tderive. destruct (same_shapes xs vs) eqn:SS; [|reflexivity].
  rewrite (taxpy0 xs vs SS). unfold leaf_of at 1 2. destruct (F xs) as [y|e] eqn:Ey; cbn [bind snd leaves]; [|reflexivity].
  destruct (nth_error (leaves y) i) as [a|] eqn:Ea; cbn [bind].
  - rewrite (nth_error_map2 _ _ _ i i a); [|apply nth_error_seq_0; apply nth_error_Some; congruence|exact Ea].
    cbn [bind snd shape tsc entry]. f_equal. unfold tsc. f_equal. extensionality q.
    apply Derive_ext. intros t. destruct q; rewrite <- entry_of_view; destruct (leaf_of F i (map2 (taxpy t) xs vs)); reflexivity.
  - replace (nth_error (map2 _ _ _) i) with (@None tensor); [reflexivity|]. symmetry. apply nth_error_None.
    apply nth_error_None in Ea. rewrite map2_length, seq_length. lia.
Qed.
Lemma status_jvp F xs vs :
  (yd <- jvp (fun l => _ <- F l ;; Ok (tsc 0)) xs vs ;; Ok (snd yd)) =
  (_ <- (yd <- jvp_argsP F xs vs ;; Ok (snd yd)) ;; Ok (tsc 0)).
Proof.
  rewrite jvp_argsP_inv. unfold jvp, tderive. destruct (same_shapes xs vs) eqn:SS; [|reflexivity].
  rewrite (taxpy0 xs vs SS). destruct (F xs) as [y|e] eqn:Ey; cbn [bind snd]; [|reflexivity].
  f_equal. unfold tsc at 1 3. f_equal. extensionality q.
  transitivity (Derive (fun _ => 0) 0); [|apply Derive_const]. apply Derive_ext. intros t. destruct (F (map2 (taxpy t) xs vs)); reflexivity.
Qed.
Definition res_map {A B} (h : A -> B) (r : res A) : res B := match r with Ok a => Ok (h a) | Err e => Err e end.
Lemma df_of_view i p f w a : df_of (viewF i p f) w a = res_map (viewF i p) (df_ofP f w a).
Proof.
  unfold df_of, df_ofP, value_and_derivative, value_and_derivativeP.
  change (resolve (viewF i p f) w) with (resolveP f w).
  destruct (match a with Some _ => match w with SInt _ => Ok tt | _ => Err AssertionError end | None => Ok tt end); cbn [bind res_map]; [|reflexivity].
  destruct (resolveP f w) as [w'|]; cbn [bind res_map]; [|reflexivity]. f_equal. unfold viewF. cbn [paramsP]. f_equal.
  extensionality args. extensionality kw. unfold leaf_of at 2. cbn [callP call].
  destruct (tangents w' a args) as [ei|]; cbn [bind]; [|reflexivity].
  rewrite (view_jvp (fun l => callP f l kw) args ei i p).
  destruct (jvp_argsP (fun a0 => callP f a0 kw) args ei) as [[z d]|]; cbn [bind snd]; reflexivity.
Qed.
Lemma df_of_status f w a : df_of (statusF f) w a = res_map statusF (df_ofP f w a).
Proof.
  unfold df_of, df_ofP, value_and_derivative, value_and_derivativeP.
  change (resolve (statusF f) w) with (resolveP f w).
  destruct (match a with Some _ => match w with SInt _ => Ok tt | _ => Err AssertionError end | None => Ok tt end); cbn [bind res_map]; [|reflexivity].
  destruct (resolveP f w) as [w'|]; cbn [bind res_map]; [|reflexivity]. f_equal. unfold statusF. cbn [paramsP]. f_equal.
  extensionality args. extensionality kw. cbn [callP call].
  destruct (tangents w' a args) as [ei|]; cbn [bind]; [|reflexivity]. apply (status_jvp (fun l => callP f l kw) args ei).
Qed.
Lemma derivative_view i p w a f : derivative w a (viewF i p f) = res_map (viewF i p) (derivativeP w a f).
Proof.
  unfold derivative, derivativeP. destruct (assert_ _); cbn [bind res_map]; [|reflexivity].
  generalize (combine (match w with WInt i => [SInt i] | WStr s => chars s | WSeq l => l end)
     match a with ANone => map (fun _ => None) (match w with WInt i => [SInt i] | WStr s => chars s | WSeq l => l end)
      | AInt i => map (fun _ => Some i) (match w with WInt i => [SInt i] | WStr s => chars s | WSeq l => l end) | ASeq l => l end).
  intros l. revert f. induction l as [|[w' a'] l IH]; intros f; [reflexivity|]. cbn [derive_all derive_allP].
  rewrite df_of_view. destruct (df_ofP f w' a'); cbn [res_map bind]; [apply IH|reflexivity].
Qed.
Lemma derivative_status w a f : derivative w a (statusF f) = res_map statusF (derivativeP w a f).
Proof.
  unfold derivative, derivativeP. destruct (assert_ _); cbn [bind res_map]; [|reflexivity].
  generalize (combine (match w with WInt i => [SInt i] | WStr s => chars s | WSeq l => l end)
     match a with ANone => map (fun _ => None) (match w with WInt i => [SInt i] | WStr s => chars s | WSeq l => l end)
      | AInt i => map (fun _ => Some i) (match w with WInt i => [SInt i] | WStr s => chars s | WSeq l => l end) | ASeq l => l end).
  intros l. revert f. induction l as [|[w' a'] l IH]; intros f; [reflexivity|]. cbn [derive_all derive_allP].
  rewrite df_of_status. destruct (df_ofP f w' a'); cbn [res_map bind]; [apply IH|reflexivity].
Qed.
(** structure and shapes are kept *)
Lemma map2_shape g l k : map shape (map2 (fun i a => mkT (shape a) (g i a)) (seq k (List.length l)) l) = map shape l.
Proof. revert k. induction l as [|a l IH]; intros k; [reflexivity|]. cbn [List.length seq map2 map shape]. f_equal. apply IH. Qed.
Lemma derive_allP_structure l f g : derive_allP f l = Ok g -> paramsP g = paramsP f /\
  forall args kw d, callP g args kw = Ok d -> exists y, callP f args kw = Ok y /\ tdef d = tdef y /\ map shape (leaves d) = map shape (leaves y).
Proof.
  revert f. induction l as [|[w a] l IH]; intros f E.
  - injection E as ->. split; [reflexivity|]. intros args kw d Ed. exists d. auto.
  - cbn [derive_allP] in E. destruct (df_ofP f w a) as [h|] eqn:Eh; [|discriminate E]. cbn [bind] in E.
    destruct (IH h E) as (P & H). unfold df_ofP, value_and_derivativeP in Eh.
    destruct (match a with Some _ => match w with SInt _ => Ok tt | _ => Err AssertionError end | None => Ok tt end); [|discriminate Eh]. cbn [bind] in Eh.
    destruct (resolveP f w) as [w'|]; [|discriminate Eh]. cbn [bind] in Eh. injection Eh as <-. cbn [paramsP callP] in *.
    split; [exact P|]. intros args kw d Ed. destruct (H args kw d Ed) as (z & Ez & T & S).
    destruct (tangents w' a args) as [ei|]; [|discriminate Ez]. cbn [bind] in Ez. rewrite jvp_argsP_inv in Ez.
    destruct (same_shapes args ei); [|discriminate Ez].
    destruct (callP f args kw) as [y|]; [|discriminate Ez]. cbn [bind snd] in Ez. injection Ez as <-. exists y.
    split; [reflexivity|]. cbn [tdef leaves] in *. split; [exact T|]. rewrite S. apply map2_shape.
Qed.
Lemma derivativeP_structure w a f g : derivativeP w a f = Ok g -> paramsP g = paramsP f /\
  forall args kw d, callP g args kw = Ok d -> exists y, callP f args kw = Ok y /\ tdef d = tdef y /\ map shape (leaves d) = map shape (leaves y).
Proof. unfold derivativeP. destruct (assert_ _); [|discriminate]. cbn [bind]. apply derive_allP_structure. Qed.

Lemma Forall2_shapes (P : tensor -> list nat -> Prop) (y d : list tensor) (ss : list (list nat)) :
  map shape d = map shape y -> map shape y = ss ->
  (forall i a s, nth_error d i = Some a -> nth_error ss i = Some s -> P a s) -> Forall2 P d ss.
Proof.
  intros E1 E2 H. apply Forall2_from_nth; [rewrite <- E2, <- E1, map_length; reflexivity|exact H].
Qed.
Lemma nth_error_shape l i s : nth_error (map shape l) i = Some s -> exists a, nth_error l i = Some a /\ shape a = s.
Proof. rewrite nth_error_map. destruct (nth_error l i) as [a|]; [|discriminate]. cbn. intros E. injection E as <-. eauto. Qed.

Lemma derivative_tree_positions n f kw td us l : computes_scalars n (fun a => callP f a kw) td us ->
  Forall (fun i => (i < n)%nat) l ->
  exists df, derivativeP (WSeq (map (fun i => SInt (Z.of_nat i)) l)) ANone f = Ok df /\ paramsP df = paramsP f /\
    computes_scalars n (fun a => callP df a kw) td (map (fun u : field => (fst u, fun p => pds l (snd u p))) us).
Proof.
  intros H Hl. set (W := WSeq (map (fun i => SInt (Z.of_nat i)) l)).
  assert (HS : repA n (fun a => call (statusF f) a kw) (fun _ => 0)).
  { intros args L F0. destruct (H args L F0) as (y & Ey & _). exists (tsc 0). cbn [statusF call]. rewrite Ey. auto. }
  destruct (derivative_list n (statusF f) kw _ l HS Hl) as (ds & Es & _ & RS). fold W in Es.
  rewrite derivative_status in Es. destruct (derivativeP W ANone f) as [df|] eqn:ED; [|discriminate Es].
  cbn [res_map] in Es. injection Es as <-. exists df. split; [reflexivity|].
  destruct (derivativeP_structure _ _ _ _ ED) as (P & ST). split; [exact P|]. intros args L F0.
  destruct (RS args L F0) as (s & Es & _). cbn [statusF call] in Es.
  destruct (callP df args kw) as [d|] eqn:Ed; [|discriminate Es]. exists d. split; [reflexivity|].
  destruct (ST args kw d Ed) as (y & Ey & T & S). destruct (H args L F0) as (y' & Ey' & T' & FA).
  replace y' with y in * by congruence. split; [congruence|]. apply Forall2_map_r.
  apply Forall2_from_nth.
  { transitivity (List.length (leaves y)); [|exact (Forall2_len _ _ _ FA)]. rewrite <- (map_length shape), S, map_length. reflexivity. }
  intros i a u Ea Eu. destruct (Forall2_nth_error_r _ _ _ _ _ FA Eu) as (b & Eb & Sb & Vb).
  assert (Sab : shape a = shape b).
  { assert (X : nth_error (map shape (leaves d)) i = nth_error (map shape (leaves y)) i) by congruence.
    rewrite !nth_error_map, Ea, Eb in X. cbn in X. congruence. }
  split; cbn [fst snd]; [congruence|]. intros p Hp.
  assert (HV : repA n (fun a => call (viewF i p f) a kw) (snd u p)).
  { intros args' L' F0'. destruct (H args' L' F0') as (z & Ez & _ & FZ).
    destruct (Forall2_nth_error_r _ _ _ _ _ FZ Eu) as (c & Ec & Sc & Vc). exists (tsc (entry c p)). cbn [viewF call].
    rewrite (leaf_ok _ args' z i c Ez Ec). cbn [bind]. split; [reflexivity|]. split; [reflexivity|]. cbn [entry tsc]. apply Vc. exact Hp. }
  destruct (derivative_list n (viewF i p f) kw _ l HV Hl) as (dv & Ev & _ & RV). fold W in Ev.
  rewrite derivative_view, ED in Ev. cbn [res_map] in Ev. injection Ev as <-.
  destruct (RV args L F0) as (v & Ev & _ & Vv). cbn [viewF call] in Ev. rewrite (leaf_ok _ args d i a Ed Ea) in Ev. cbn [bind] in Ev.
  injection Ev as <-. exact Vv.
Qed.
Lemma derivative_tree_components ns f kw td us ks js jis : computes_vectors ns (fun a => callP f a kw) td us ->
  Forall2 (fun k ji => pyidx (nth (fst ji) ns 0%nat) (snd ji) k) ks jis ->
  Forall2 (fun a ji => pyidx (List.length ns) (fst ji) a) js jis ->
  exists df, derivativeP (WSeq (map SInt ks)) (ASeq (map Some js)) f = Ok df /\ paramsP df = paramsP f /\
    computes_vectors ns (fun a => callP df a kw) td
      (map (fun u : fieldL => (fst u, fun p => fold_left (fun h ji => pdL ji h) jis (snd u p))) us).
Proof.
  intros H Hk Hj. set (W := WSeq (map SInt ks)). set (A := ASeq (map Some js)).
  assert (HS : repL ns (fun a => call (statusF f) a kw) (fun _ => 0)).
  { intros args L. destruct (H args L) as (y & Ey & _). exists (tsc 0). cbn [statusF call]. rewrite Ey. auto. }
  destruct (derivative_many ns (statusF f) kw _ ks js HS jis Hk Hj) as (ds & Es & _ & RS). fold W A in Es.
  rewrite derivative_status in Es. destruct (derivativeP W A f) as [df|] eqn:ED; [|discriminate Es].
  cbn [res_map] in Es. injection Es as <-. exists df. split; [reflexivity|].
  destruct (derivativeP_structure _ _ _ _ ED) as (P & ST). split; [exact P|]. intros args L.
  destruct (RS args L) as (s & Es & _). cbn [statusF call] in Es.
  destruct (callP df args kw) as [d|] eqn:Ed; [|discriminate Es]. exists d. split; [reflexivity|].
  destruct (ST args kw d Ed) as (y & Ey & T & S). destruct (H args L) as (y' & Ey' & T' & FA).
  replace y' with y in * by congruence. split; [congruence|]. apply Forall2_map_r.
  apply Forall2_from_nth.
  { transitivity (List.length (leaves y)); [|exact (Forall2_len _ _ _ FA)]. rewrite <- (map_length shape), S, map_length. reflexivity. }
  intros i a u Ea Eu. destruct (Forall2_nth_error_r _ _ _ _ _ FA Eu) as (b & Eb & Sb & Vb).
  assert (Sab : shape a = shape b).
  { assert (X : nth_error (map shape (leaves d)) i = nth_error (map shape (leaves y)) i) by congruence.
    rewrite !nth_error_map, Ea, Eb in X. cbn in X. congruence. }
  split; cbn [fst snd]; [congruence|]. intros p Hp.
  assert (HV : repL ns (fun a => call (viewF i p f) a kw) (snd u p)).
  { intros args' L'. destruct (H args' L') as (z & Ez & _ & FZ).
    destruct (Forall2_nth_error_r _ _ _ _ _ FZ Eu) as (c & Ec & Sc & Vc). exists (tsc (entry c p)). cbn [viewF call].
    rewrite (leaf_ok _ args' z i c Ez Ec). cbn [bind]. split; [reflexivity|]. split; [reflexivity|]. cbn [entry tsc]. apply Vc. exact Hp. }
  destruct (derivative_many ns (viewF i p f) kw _ ks js HV jis Hk Hj) as (dv & Ev & _ & RV). fold W A in Ev.
  rewrite derivative_view, ED in Ev. cbn [res_map] in Ev. injection Ev as <-.
  destruct (RV args L) as (v & Ev & _ & Vv). cbn [viewF call] in Ev. rewrite (leaf_ok _ args d i a Ed Ea) in Ev. cbn [bind] in Ev.
  injection Ev as <-. exact Vv.
Qed.
Lemma derivative_tree_names f ss is : NoDup (paramsP f) -> Forall2 (fun s i => nth_error (paramsP f) i = Some s) ss is ->
  derivativeP (WSeq (map SStr ss)) ANone f = derivativeP (WSeq (map (fun i => SInt (Z.of_nat i)) is)) ANone f.
Proof.
  intros ND H. unfold derivativeP. rewrite !map_length, !Nat.eqb_refl. cbn [assert_ bind].
  assert (HP : forall g, paramsP g = paramsP f ->
     derive_allP g (combine (map SStr ss) (map (fun _ => None) (map SStr ss))) =
     derive_allP g (combine (map (fun i => SInt (Z.of_nat i)) is) (map (fun _ => None) (map (fun i => SInt (Z.of_nat i)) is)))).
  { induction H as [|s i ss is Hs H IH]; intros g Hg; [reflexivity|]. cbn [map combine derive_allP].
    assert (E : df_ofP g (SStr s) None = df_ofP g (SInt (Z.of_nat i)) None).
    { unfold df_ofP, value_and_derivativeP, resolveP. rewrite Hg. cbn [bind].
      rewrite (index_of_nth _ _ _ ND Hs). cbn [bind]. reflexivity. }
    rewrite E. destruct (df_ofP g (SInt (Z.of_nat i)) None) as [g'|] eqn:Eg; cbn [bind]; [|reflexivity]. apply IH.
    destruct (derive_allP_structure [(SInt (Z.of_nat i), None)] g g') as (P & _); [cbn [derive_allP]; rewrite Eg; reflexivity|]. congruence. }
  apply HP. reflexivity.
Qed.

Lemma derivative_direct f i l :
  derivative_funP f ANone = derivativeP (WInt 0) ANone f /\
  derivative_funP f (AInt i) = derivativeP (WInt i) ANone f /\
  derivative_funP f (ASeq l) = Err AssertionError.
Proof.
  unfold derivative_funP, derivativeP. cbn.
  destruct (df_ofP f (SInt 0) None), (df_ofP f (SInt i) None); auto.
Qed.
