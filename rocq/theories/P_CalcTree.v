(** Proofs for the operators of calc.py on functions with pytree results. *)
From Coquelicot Require Import Coquelicot.
From Verif Require Import Base BaseFacts P_Vec M_Tensor M_Calc M_Jac M_CalcTree S_Calc S_Model S_Surface S_CalcTree.
From Verif Require Import P_AD P_Calc P_Calc2 P_Jac P_Surface1.

(** ** trees *)
Lemma Forall2_nth_error_r {A B} (P : A -> B -> Prop) l m i b : Forall2 P l m -> nth_error m i = Some b ->
  exists a, nth_error l i = Some a /\ P a b.
Proof.
  intros H. revert i. induction H as [|a c l m Pa H IH]; intros [|i] E; cbn in E; try discriminate E.
  - injection E as ->. exists a. auto.
  - apply IH in E. exact E.
Qed.
Lemma Forall2_from_nth {A B} (P : A -> B -> Prop) l m : length l = length m ->
  (forall i a b, nth_error l i = Some a -> nth_error m i = Some b -> P a b) -> Forall2 P l m.
Proof.
  revert m. induction l as [|a l IH]; intros [|b m] L H; try discriminate L; constructor.
  - apply (H 0%nat); reflexivity.
  - apply IH; [cbn in L; lia|]. intros i x y Hx Hy. apply (H (S i)); assumption.
Qed.
Lemma Forall2_len {A B} (P : A -> B -> Prop) l m : Forall2 P l m -> length l = length m.
Proof. induction 1; cbn; auto. Qed.
Lemma nth_error_map2 {A B C} (f : A -> B -> C) l m i a b : nth_error l i = Some a -> nth_error m i = Some b ->
  nth_error (map2 f l m) i = Some (f a b).
Proof.
  revert m i. induction l as [|x l IH]; intros [|y m] [|i] Ha Hb; cbn in *; try discriminate; [congruence|]. apply IH; auto.
Qed.
Lemma nth_error_seq_0 n i : (i < n)%nat -> nth_error (seq 0 n) i = Some i.
Proof. intros H. rewrite (nth_error_nth' _ 0%nat) by (rewrite seq_length; auto). rewrite seq_nth; auto. Qed.
Lemma nth_error_lt {A} (l : list A) i : (i < length l)%nat -> exists a, nth_error l i = Some a.
Proof. intros H. apply nth_error_Some in H. destruct (nth_error l i) as [a|]; [eauto|congruence]. Qed.
Lemma seq_leaves {A B} (g : nat -> res A) (us : list B) (P : A -> B -> Prop) :
  (forall i u, nth_error us i = Some u -> exists a, g i = Ok a /\ P a u) ->
  exists ls, sequence (map g (seq 0 (length us))) = Ok ls /\ Forall2 P ls us.
Proof.
  intros H. destruct (sequence_map_ok g (seq 0 (length us)) (fun i a => forall u, nth_error us i = Some u -> P a u)) as (ls & E & F).
  - intros i Hi. apply in_seq in Hi. destruct (nth_error_lt us i ltac:(lia)) as (u & Eu).
    destruct (H i u Eu) as (a & Ea & Pa). exists a. split; [exact Ea|]. intros u' E'. congruence.
  - exists ls. split; [exact E|]. apply Forall2_nth_seq in F. destruct F as (L & F).
    apply Forall2_from_nth; [exact L|]. intros i a u Ha Hu.
    destruct (F i) as (b & Eb & Pb); [apply nth_error_Some; congruence|]. replace a with b by congruence. apply Pb. exact Hu.
Qed.
Lemma Forall2_map_r {A B C} (P : A -> C -> Prop) (h : B -> C) l m :
  Forall2 (fun a b => P a (h b)) l m -> Forall2 P l (map h m).
Proof. induction 1; cbn; constructor; auto. Qed.

Lemma leaf_repD n D F td us i u : computes_tree n D F td us -> nth_error us i = Some u ->
  repD n D (fst u) (leaf_of F i) (snd u).
Proof.
  intros H E t St Dt. destruct (H t St Dt) as (y & Ey & _ & FA).
  destruct (Forall2_nth_error_r _ _ _ _ _ FA E) as (a & Ea & Sa & Va).
  exists a. unfold leaf_of. rewrite Ey. cbn [bind]. rewrite Ea. auto.
Qed.
Lemma by_leaf_ok td td' us us' X X' y g (h : field -> field) : tree_of td us X y ->
  (forall i u, nth_error us i = Some u -> exists a, g i = Ok a /\ value_of X' a (h u)) ->
  td' = td -> us' = map h us ->
  exists z, by_leaf y g = Ok z /\ tree_of td' us' X' z.
Proof.
  intros (T & FA) H -> ->. unfold by_leaf. rewrite (Forall2_len _ _ _ FA).
  destruct (seq_leaves g us (fun a u => value_of X' a (h u)) H) as (ls & E & F2). rewrite E. cbn [bind].
  eexists. split; [reflexivity|]. split; [exact T|]. apply Forall2_map_r. exact F2.
Qed.
Lemma tree_map_ok td us X y g (h : field -> field) : tree_of td us X y ->
  (forall a u, In u us -> value_of X a u -> exists b, g a = Ok b /\ value_of X b (h u)) ->
  exists z, tree_map g y = Ok z /\ tree_of td (map h us) X z.
Proof.
  intros (T & FA) H. unfold tree_map.
  assert (G : exists ls, sequence (map g (leaves y)) = Ok ls /\ Forall2 (fun b u => value_of X b (h u)) ls us).
  { clear T. revert H. induction FA as [|a u l m Pa FA IH]; intros H; [exists []; split; [reflexivity|constructor]|].
    destruct (H a u (or_introl eq_refl) Pa) as (b & Eb & Pb).
    destruct IH as (ls & El & F2); [intros; eapply H; eauto; right; auto|].
    exists (b :: ls). cbn [map sequence]. rewrite Eb. cbn [bind]. rewrite El. split; [reflexivity|constructor; auto]. }
  destruct G as (ls & E & F2). rewrite E. cbn [bind]. eexists. split; [reflexivity|]. split; [exact T|].
  apply Forall2_map_r. exact F2.
Qed.

(** ** derivatives *)
Lemma jacfwdP_ok n D F td us : openset n D -> computes_tree n D F td us ->
  computes_tree n D (jacfwdP F) td (map (jac_field n) us).
Proof.
  intros HO H t St Dt. destruct (H t St Dt) as (y & Ey & T). unfold jacfwdP. rewrite Ey. cbn [bind].
  apply (by_leaf_ok td td us _ _ _ y _ (jac_field n) T); auto.
  intros i u E. destruct (jacfwd_repD n D _ _ _ HO (leaf_repD _ _ _ _ _ _ _ H E) t St Dt) as (J & EJ & SJ & VJ).
  exists J. split; [exact EJ|]. split; [exact SJ|exact VJ].
Qed.
Definition dir_field (i : nat) (u : field) : field := (fst u, fun p => pd i (snd u p)).
Lemma tderive_unit n D s F f x i : openset n D -> repD n D s F f -> shape x = [n] -> D (tlist x) -> (i < n)%nat ->
  exists d, tderive (fun t => F (taxpy t x (tunit [n] [i]))) = Ok d /\ value_of (tlist x) d (dir_field i (s, f)).
Proof.
  intros HO H Sx Dx Hi. unfold tderive.
  assert (E0 : tlist (taxpy 0 x (tunit [n] [i])) = tlist x).
  { rewrite (tlist_unit _ _ n) by auto. rewrite Rplus_0_r. apply upd_self. }
  destruct (H (taxpy 0 x (tunit [n] [i])) Sx ltac:(rewrite E0; auto)) as (y & Ey & Sy & _). rewrite Ey. cbn [bind].
  eexists. split; [reflexivity|]. split; cbn [shape entry dir_field fst snd]; [exact Sy|].
  intros p Hp. rewrite <- (Derive_unit (f p)).
  destruct (HO _ Dx) as (L & d & Hd & Hn). apply Derive_ext_loc. exists (mkposreal d Hd).
  intros h Hh. unfold ball in Hh; cbn in Hh. unfold AbsRing_ball, abs, minus, plus, opp in Hh; cbn in Hh.
  rewrite Ropp_0, Rplus_0_r in Hh.
  rewrite (repD_entry_of n D s F f); auto.
  - rewrite (tlist_unit _ _ n) by auto. reflexivity.
  - rewrite (tlist_unit _ _ n) by auto. apply Hn. apply near_upd; [apply near_refl; auto|].
    assert (Eh : forall a b : R, a + b - a = b) by (intros; ring). rewrite Eh. auto.
Qed.
Lemma jvpP_unit n D F td us x i : openset n D -> computes_tree n D F td us -> shape x = [n] -> D (tlist x) -> (i < n)%nat ->
  exists y d, jvpP F x (tunit [n] [i]) = Ok (y, d) /\ tree_of td us (tlist x) y /\
    tree_of td (map (dir_field i) us) (tlist x) d.
Proof.
  intros HO H Sx Dx Hi. destruct (H x Sx Dx) as (y & Ey & T). unfold jvpP, same_shapes.
  cbn [length map2 map forallb Nat.eqb shape tunit]. rewrite Sx, list_eqb_refl. cbn [andb]. rewrite Ey. cbn [bind].
  destruct (by_leaf_ok td td us (map (dir_field i) us) _ (tlist x) y (fun j => tderive (fun t => leaf_of F j (taxpy t x (tunit [n] [i])))) (dir_field i) T)
    as (d & Ed & Td); [|reflexivity|reflexivity|].
  - intros j u E. destruct u as [s f]. exact (tderive_unit n D s _ f x i HO (leaf_repD _ _ _ _ _ _ _ H E) Sx Dx Hi).
  - rewrite Ed. cbn [bind]. eauto.
Qed.

(** ** the Laplacian *)
Lemma tmatvec_unit_nd a n s i : shape a = s ++ [n] -> (i < n)%nat ->
  exists y, tmatvec a (tunit [n] [i]) = Ok y /\ shape y = s /\ forall p, entry y p = entry a (p ++ [i]).
Proof.
  intros S Hi. unfold tmatvec. rewrite S, rev_unit. cbn [shape tunit]. rewrite Nat.eqb_refl.
  eexists. split; [reflexivity|]. cbn [shape entry]. rewrite rev_involutive. split; [reflexivity|]. intros p.
  pose proof (lsum_pick n i (fun k0 => entry a (p ++ [k0])) Hi) as L. unfold lsum in L. rewrite <- L.
  apply sumR_map_ext. intros j Hj. cbn [entry tunit list_eqb]. rewrite Bool.andb_true_r. reflexivity.
Qed.
Definition second_field (i : nat) (u : field) : field := (fst u, fun p => pd i (pd i (snd u p))).
Definition diag_field (n : nat) (u : field) : field := (n :: fst u, fun p => pd (hd 0%nat p) (pd (hd 0%nat p) (snd u (tl p)))).
Lemma row_ok n D F td us x i : openset n D -> computes_tree n D F td us -> shape x = [n] -> D (tlist x) -> (i < n)%nat ->
  exists r, (a <- hvpP F x (tunit [n] [i]) ;; tree_map (fun a => tmatvec a (tunit [n] [i])) a) = Ok r /\
    tree_of td (map (second_field i) us) (tlist x) r.
Proof.
  intros HO H Sx Dx Hi. unfold hvpP.
  destruct (jvpP_unit n D _ _ _ x i HO (jacfwdP_ok n D F td us HO H) Sx Dx Hi) as (y & d & E & _ & T).
  rewrite E. cbn [bind snd].
  destruct (tree_map_ok _ _ _ d (fun a => tmatvec a (tunit [n] [i]))
     (fun u => (removelast (fst u), fun p => snd u (p ++ [i]))) T) as (z & Ez & Tz).
  - intros a u Hu (Sa & Va). apply in_map_iff in Hu. destruct Hu as (w & <- & Hw).
    apply in_map_iff in Hw. destruct Hw as (v & <- & Hv). cbn [dir_field jac_field fst snd] in *.
    destruct (tmatvec_unit_nd a n (fst v) i Sa Hi) as (b & Eb & Sb & Vb).
    exists b. split; [exact Eb|]. split; cbn [fst snd]; rewrite removelast_last; [exact Sb|].
    intros p Hp. rewrite Vb, Va; [reflexivity|]. apply inside_app; auto. repeat constructor. exact Hi.
  - exists z. split; [exact Ez|]. destruct Tz as (Td & FA). split; [exact Td|].
    rewrite !map_map in FA. apply Forall2_map_r. clear -FA.
    remember (leaves z) as l. clear Heql.
    revert us FA. induction l as [|a l IH]; intros [|u us] FA; inversion FA as [|? ? ? ? Pa FA']; subst; constructor; auto.
    destruct Pa as (S & V). cbn [dir_field jac_field fst snd] in *. rewrite removelast_last in *.
    split; [exact S|]. cbn [second_field fst snd]. intros p Hp. rewrite V by exact Hp. rewrite last_last, removelast_last. reflexivity.
Qed.
Lemma hessian_diagP_ok n D F td us : openset n D -> computes_tree n D F td us ->
  computes_tree n D (hessian_diagP F) td (map (diag_field n) us).
Proof.
  intros HO H x0 Sx0 Dx0. destruct (travel_1d x0 n Sx0) as (Sx & Lx). unfold hessian_diagP. rewrite Sx0.
  rewrite <- Lx in *. set (x := travel x0) in *.
  replace (nprod (shape x)) with n by (rewrite Sx; cbn; lia).
  destruct (H x Sx Dx0) as (y & Ey & Ty). rewrite Ey. cbn [bind].
  destruct (sequence_map_ok (fun i => a <- hvpP F x (tunit [n] [i]) ;; tree_map (fun a => tmatvec a (tunit [n] [i])) a) (seq 0 n)
    (fun i r => tree_of td (map (second_field i) us) (tlist x) r)) as (rows & E & FA).
  { intros i Hi. apply in_seq in Hi. apply (row_ok n D F td us x i HO H Sx Dx0). lia. }
  rewrite E. cbn [bind]. destruct (Forall2_nth_seq _ n rows FA) as (L & Hr).
  eexists. split; [reflexivity|]. destruct Ty as (Td & FY). split; [exact Td|]. cbn [stackP leaves].
  apply Forall2_map_r. pose proof (Forall2_len _ _ _ FY) as LY.
  apply Forall2_from_nth.
  { rewrite map2_length, seq_length; lia. }
  intros j a u Ea Eu. destruct (Forall2_nth_error_r _ _ _ _ _ FY Eu) as (b & Eb & Sb & Vb).
  assert (Hj : (j < length (leaves y))%nat) by (apply nth_error_Some; congruence).
  rewrite (nth_error_map2 _ _ _ j j b) in Ea; [|rewrite nth_error_seq_0; auto|exact Eb].
  injection Ea as <-. split; cbn [shape entry diag_field fst snd]; [rewrite L, Sb; reflexivity|].
  intros p Hp. inversion Hp as [|i m q s Hi Hq]; subst. cbn [hd tl].
  destruct (Hr i Hi) as (r & -> & Tr & Fr).
  destruct (Forall2_nth_error_r _ _ _ j (second_field i u) Fr) as (c & -> & Sc & Vc).
  { rewrite nth_error_map, Eu. reflexivity. }
  exact (Vc q Hq).
Qed.
Lemma laplaceP_ok n D F td us : openset n D -> computes_tree n D F td us ->
  computes_tree n D (laplaceP F) td (map (lap_field n) us).
Proof.
  intros HO H x Sx Dx. destruct (hessian_diagP_ok n D F td us HO H x Sx Dx) as (d & Ed & T).
  unfold laplaceP. rewrite Ed. cbn [bind].
  edestruct (tree_map_ok td (map (diag_field n) us) (tlist x) d) with (h := fun u : field =>
     (tl (fst u), fun p X => sumR (map (fun i => snd u (i :: p) X) (seq 0 (hd 0%nat (fst u)))))) as (z & Ez & Tz); [exact T| |].
  2:{ exists z. split; [exact Ez|]. rewrite map_map in Tz. exact Tz. }
  intros a u Hu (Sa & Va). apply in_map_iff in Hu. destruct Hu as (w & <- & Hw). cbn [diag_field fst snd hd tl] in *.
  eexists. split; [reflexivity|]. split; cbn [shape entry fst snd hd tl]; rewrite Sa; [reflexivity|].
  intros p Hp. cbn [hd]. apply sumR_map_ext. intros i Hi. apply in_seq in Hi. rewrite Va; [reflexivity|].
  constructor; [lia|exact Hp].
Qed.

(** ** the divergence *)
Lemma compute_div_ok n u X J : (length (fst u) <= 2)%nat -> value_of X J (jac_field n u) ->
  exists d, compute_div J = Ok d /\ value_of X d (div_field n u).
Proof.
  destruct u as [s f]. cbn [fst]. intros Hs (SJ & VJ). cbn [jac_field fst snd] in SJ, VJ. unfold compute_div. rewrite SJ.
  destruct s as [|a [|b [|c s]]]; cbn [length] in Hs; [| | |lia]; cbn [app].
  - eexists. split; [reflexivity|]. split; [reflexivity|]. cbn [div_field fst snd]. intros p Hp. cbn [entry tsc].
    apply sumR_map_ext. intros i Hi. apply in_seq in Hi. rewrite VJ; [reflexivity|].
    apply (inside_app [] [n] [] [i]); [constructor|]. repeat constructor. lia.
  - eexists. split; [reflexivity|]. split; [reflexivity|]. cbn [div_field fst snd removelast last]. intros p Hp. cbn [entry tsc].
    inversion Hp; subst. apply sumR_map_ext. intros i Hi. apply in_seq in Hi. rewrite VJ; [reflexivity|].
    apply (inside_app [a] [n] [i] [i]); constructor; try constructor; lia.
  - eexists. split; [reflexivity|]. split; [reflexivity|]. cbn [div_field fst snd removelast last entry]. intros p Hp.
    apply sumR_map_ext. intros i Hi. apply in_seq in Hi. change [i; i] with ([i] ++ [i]). rewrite app_assoc, VJ.
    + rewrite last_last, removelast_last. reflexivity.
    + apply (inside_app [a; b] [n]); [apply (inside_app [a] [b]); [exact Hp|]|]; constructor; try constructor; lia.
Qed.
Lemma compute_div_bad n u X J : (2 < length (fst u))%nat -> value_of X J (jac_field n u) -> compute_div J = Err ValueError.
Proof.
  destruct u as [s f]. cbn [fst]. intros Hs (SJ & _). cbn [jac_field fst snd] in SJ. unfold compute_div. rewrite SJ.
  destruct s as [|a [|b [|c [|d s]]]]; cbn [length] in Hs; try lia; reflexivity.
Qed.

Lemma leaf_of_ext {A} (F G : A -> res ptree) i x : F x = G x -> leaf_of F i x = leaf_of G i x.
Proof. intros H. unfold leaf_of. rewrite H. reflexivity. Qed.
(** one argument *)
Lemma jacfwd_args_one n (D : list R -> Prop) F td us args k j x : pyidx (length args) k j -> nth_error args k = Some x ->
  shape x = [n] -> D (tlist x) -> openset n D -> computes_tree n D (fun t => F (upd args k t)) td us ->
  exists y J, value_and_jacfwdP F (JOne j) args = Ok (y, J) /\ tree_of td us (tlist x) y /\
    tree_of td (map (jac_field n) us) (tlist x) J.
Proof.
  intros Hj Hk Sx Dx HO H. destruct (H x Sx Dx) as (y & Ey & T). rewrite (nth_error_upd_self _ _ _ Hk) in Ey.
  unfold value_and_jacfwdP, jacfwd_argsP. rewrite Ey. cbn [bind].
  destruct (by_leaf_ok td td us (map (jac_field n) us) _ (tlist x) y (fun i => jac_arg jacfwd (leaf_of F i) args j) (jac_field n) T)
    as (J & EJ & TJ); [|reflexivity|reflexivity|].
  - intros i u E. unfold jac_arg. rewrite (pyget_idx args k j x Hj Hk).
    assert (HL : repD n D (fst u) (fun x => leaf_of F i (pyset args j x)) (snd u)).
    { intros t St Dt. rewrite (pyset_pos args k j t Hj).
      exact (leaf_repD n D (fun t => F (upd args k t)) td us i u H E t St Dt). }
    destruct (jacfwd_repD n D _ _ _ HO HL x Sx Dx) as (J & EJ & SJ & VJ). exists J. split; [exact EJ|]. split; [exact SJ|exact VJ].
  - rewrite EJ. cbn [bind]. eauto 6.
Qed.
Lemma map_leaves n (Q : field -> Prop) us X z g (h : field -> field) td : Forall Q us ->
  (forall u a, Q u -> value_of X a (jac_field n u) -> exists b, g a = Ok b /\ value_of X b (h u)) ->
  tree_of td (map (jac_field n) us) X z -> exists d, tree_map g z = Ok d /\ tree_of td (map h us) X d.
Proof.
  intros HF Hg (Td & FA). unfold tree_map.
  assert (G : exists ls, sequence (map g (leaves z)) = Ok ls /\ Forall2 (value_of X) ls (map h us)).
  { clear Td. revert FA. generalize (leaves z). induction HF as [|u us Hu HF IH]; intros l FA; inversion FA as [|a ? l' ? Pa FA']; subst.
    - exists []. split; [reflexivity|constructor].
    - destruct (Hg u a Hu Pa) as (b & Eb & Pb). destruct (IH _ FA') as (ls & El & F2).
      exists (b :: ls). cbn [map sequence]. rewrite Eb. cbn [bind]. rewrite El. split; [reflexivity|constructor; auto]. }
  destruct G as (ls & E & F2). rewrite E. cbn [bind]. eexists. split; [reflexivity|]. split; [exact Td|exact F2].
Qed.
Lemma divergence_tree_one n (D : list R -> Prop) F td us args k j x : pyidx (length args) k j -> nth_error args k = Some x ->
  shape x = [n] -> D (tlist x) -> openset n D -> computes_tree n D (fun t => F (upd args k t)) td us ->
  Forall (fun u : field => (length (fst u) <= 2)%nat) us ->
  exists y d, value_and_divergenceP F (JOne j) args = Ok (y, d) /\ divergenceP F (JOne j) args = Ok d /\
    F args = Ok y /\ tree_of td (map (div_field n) us) (tlist x) d.
Proof.
  intros Hj Hk Sx Dx HO H HF.
  destruct (jacfwd_args_one n D F td us args k j x Hj Hk Sx Dx HO H) as (y & J & E & T & TJ).
  destruct (map_leaves n _ us _ J compute_div (div_field n) td HF (fun u a => compute_div_ok n u _ a) TJ) as (d & Ed & Td).
  exists y, d. unfold divergenceP, value_and_divergenceP. rewrite E. cbn [bind snd fst]. rewrite Ed. cbn [bind snd].
  split; [reflexivity|]. split; [reflexivity|]. split; [|exact Td].
  destruct (H x Sx Dx) as (y' & Ey & _). rewrite (nth_error_upd_self _ _ _ Hk) in Ey.
  unfold value_and_jacfwdP in E. destruct (jacfwd_argsP F (JOne j) args); cbn [bind] in E; [|discriminate].
  rewrite Ey in E |- *. cbn [bind] in E. congruence.
Qed.
Lemma sequence_err {A B} (g : A -> res B) l a e : In a l -> (forall b, In b l -> g b = Err e \/ exists c, g b = Ok c) ->
  g a = Err e -> sequence (map g l) = Err e.
Proof.
  induction l as [|b l IH]; intros Hin Hall Ha; [destruct Hin|]. cbn [map sequence].
  destruct (Hall b (or_introl eq_refl)) as [Eb|(c & Eb)]; rewrite Eb; cbn [bind]; [reflexivity|].
  destruct Hin as [->|Hin]; [congruence|]. rewrite IH; auto. intros; apply Hall; right; auto.
Qed.
Lemma divergence_tree_bad n (D : list R -> Prop) F td us args k j x u : pyidx (length args) k j -> nth_error args k = Some x ->
  shape x = [n] -> D (tlist x) -> openset n D -> computes_tree n D (fun t => F (upd args k t)) td us ->
  In u us -> (2 < length (fst u))%nat -> divergenceP F (JOne j) args = Err ValueError.
Proof.
  intros Hj Hk Sx Dx HO H Hu Hl.
  destruct (jacfwd_args_one n D F td us args k j x Hj Hk Sx Dx HO H) as (y & J & E & T & TJ).
  unfold divergenceP, value_and_divergenceP. rewrite E. cbn [bind snd fst]. unfold tree_map. destruct TJ as (_ & FA).
  destruct (In_nth_error _ _ Hu) as (i & Ei).
  destruct (Forall2_nth_error_r _ _ _ i (jac_field n u) FA ltac:(rewrite nth_error_map, Ei; reflexivity)) as (a & Ea & Pa).
  rewrite (sequence_err compute_div (leaves J) a ValueError); [reflexivity|eapply nth_error_In; eauto| |eapply compute_div_bad; eauto].
  intros b Hb. destruct (In_nth_error _ _ Hb) as (m & Em).
  destruct (Forall2_nth_error _ _ _ _ _ FA Em) as (v & Ev & Pv).
  rewrite nth_error_map in Ev. destruct (nth_error us m) as [w|]; [|discriminate]. injection Ev as <-.
  destruct (le_gt_dec (length (fst w)) 2) as [Hw|Hw].
  - right. destruct (compute_div_ok n w _ b Hw Pv) as (c & Ec & _). eauto.
  - left. eapply compute_div_bad; eauto.
Qed.

(** several arguments *)
Lemma concat_nth {A} (ls : list (list A)) m i c row : Forall (fun r => length r = m) ls -> nth_error ls i = Some row -> (c < m)%nat ->
  nth_error (concat ls) (i * m + c) = nth_error row c.
Proof.
  intros H. revert i. induction H as [|r ls Hr H IH]; intros [|i] E Hc; try discriminate E.
  - cbn in E. injection E as ->. cbn [concat Nat.mul Nat.add]. rewrite nth_error_app1 by lia. reflexivity.
  - cbn [concat]. rewrite nth_error_app2 by nia. replace (S i * m + c - length r)%nat with (i * m + c)%nat by nia. apply IH; auto.
Qed.
Lemma concat_len {A} (ls : list (list A)) m : Forall (fun r => length r = m) ls -> length (concat ls) = (length ls * m)%nat.
Proof. induction 1 as [|r ls Hr H IH]; [reflexivity|]. cbn [concat length Nat.mul]. rewrite app_length. lia. Qed.
Lemma Forall2_nth_error_l {A B} (P : A -> B -> Prop) l m i a : Forall2 P l m -> nth_error l i = Some a ->
  exists b, nth_error m i = Some b /\ P a b.
Proof. apply Forall2_nth_error. Qed.
Lemma sequence_forall {A B} (g : A -> res B) l : Forall (fun a => exists b, g a = Ok b) l ->
  exists bs, sequence (map g l) = Ok bs /\ Forall2 (fun a b => g a = Ok b) l bs.
Proof.
  induction 1 as [|a l (b & Eb) H IH]; [exists []; split; [reflexivity|constructor]|].
  destruct IH as (bs & E & F2). exists (b :: bs). cbn [map sequence]. rewrite Eb. cbn [bind]. rewrite E. split; [reflexivity|constructor; auto].
Qed.
Section Many.
Variables (F : list tensor -> res ptree) (args : list tensor) (td : treedef) (js : list Z) (ks : list nat).
Variables (N : nat -> nat) (D : nat -> list R -> Prop) (X : nat -> tensor) (us : nat -> list field).
Hypotheses (Hjs : Forall2 (fun j k => pyidx (length args) k j) js ks) (Hne : ks <> []).
Hypothesis HK : forall k, In k ks -> nth_error args k = Some (X k) /\ shape (X k) = [N k] /\ D k (tlist (X k)) /\
  openset (N k) (D k) /\ computes_tree (N k) (D k) (fun t => F (upd args k t)) td (us k).
Lemma F_args : exists y, F args = Ok y /\ tdef y = td /\ forall k, In k ks -> Forall2 (value_of (tlist (X k))) (leaves y) (us k).
Proof.
  destruct ks as [|k ks'] eqn:EK; [congruence|]. destruct (HK k (or_introl eq_refl)) as (E & S & Dx & HO & HC).
  destruct (HC _ S Dx) as (y & Ey & Ty & FA). rewrite (nth_error_upd_self _ _ _ E) in Ey.
  exists y. split; [exact Ey|]. split; [exact Ty|]. intros k' Hk'.
  destruct (HK k' Hk') as (E' & S' & Dx' & HO' & HC'). destruct (HC' _ S' Dx') as (z & Ez & Tz & FZ).
  rewrite (nth_error_upd_self _ _ _ E') in Ez. replace y with z by congruence. exact FZ.
Qed.
Lemma jac_args_row i y : F args = Ok y -> (i < length (leaves y))%nat ->
  (forall k, In k ks -> Forall2 (value_of (tlist (X k))) (leaves y) (us k)) ->
  exists row, sequence (map (jac_arg jacfwd (leaf_of F i) args) js) = Ok row /\
    Forall2 (fun J k => forall u, nth_error (us k) i = Some u -> value_of (tlist (X k)) J (jac_field (N k) u)) row ks.
Proof.
  intros Ey Hi HV.
  assert (HK' : forall k, In k ks -> nth_error args k = Some (X k) /\ shape (X k) = [N k] /\ D k (tlist (X k)) /\
    openset (N k) (D k) /\ computes_tree (N k) (D k) (fun t => F (upd args k t)) td (us k)) by exact HK.
  revert HK' HV. clear HK Hne. induction Hjs as [|j k js' ks' Hj H2 IH]; intros HK HV.
  - exists []. split; [reflexivity|constructor].
  - destruct IH as (row & E & F2); [exact H2|intros; apply HK; right; auto|intros; apply HV; right; auto|].
    destruct (HK k (or_introl eq_refl)) as (Ek & S & Dx & HO & HC).
    pose proof (HV k (or_introl eq_refl)) as FV. pose proof (Forall2_len _ _ _ FV) as LV.
    destruct (nth_error_lt (us k) i ltac:(lia)) as (u & Eu).
    assert (HL : repD (N k) (D k) (fst u) (fun x => leaf_of F i (pyset args j x)) (snd u)).
    { intros t St Dt. rewrite (pyset_pos args k j t Hj).
      exact (leaf_repD (N k) (D k) (fun t => F (upd args k t)) td (us k) i u HC Eu t St Dt). }
    destruct (jacfwd_repD (N k) (D k) _ _ _ HO HL (X k) S Dx) as (J & EJ & SJ & VJ).
    exists (J :: row). cbn [map sequence]. unfold jac_arg at 1. rewrite (pyget_idx args k j (X k) Hj Ek), EJ. cbn [bind]. rewrite E.
    split; [reflexivity|]. constructor; [|exact F2]. intros u' Eu'. replace u' with u by congruence. split; [exact SJ|exact VJ].
Qed.
Lemma divergence_tree_many : (forall k, In k ks -> Forall (fun u : field => (length (fst u) <= 2)%nat) (us k)) ->
  exists y d, value_and_divergenceP F (JMany js) args = Ok (y, d) /\ divergenceP F (JMany js) args = Ok d /\ F args = Ok y /\
    tdef d = TTuples td (length ks) /\ length (leaves d) = (length (leaves y) * length ks)%nat /\
    forall i c k u, nth_error ks c = Some k -> nth_error (us k) i = Some u ->
      exists a, nth_error (leaves d) (i * length ks + c) = Some a /\ value_of (tlist (X k)) a (div_field (N k) u).
Proof.
  intros HR. destruct F_args as (y & Ey & Ty & HV).
  pose proof (Forall2_len _ _ _ Hjs) as Lj.
  destruct (sequence_map_ok (fun i => sequence (map (jac_arg jacfwd (leaf_of F i) args) js)) (seq 0 (length (leaves y)))
    (fun i row => Forall2 (fun J k => forall u, nth_error (us k) i = Some u -> value_of (tlist (X k)) J (jac_field (N k) u)) row ks))
    as (Js & EJs & FJ).
  { intros i Hi. apply in_seq in Hi. apply (jac_args_row i y); auto. lia. }
  destruct (Forall2_nth_seq _ _ _ FJ) as (LJ & HJ).
  assert (HL : Forall (fun r => length r = length ks) Js).
  { apply Forall_forall. intros r Hr. destruct (In_nth_error _ _ Hr) as (i & Ei).
    destruct (HJ i) as (r' & Er & F2); [rewrite <- LJ; apply nth_error_Some; congruence|].
    replace r with r' by congruence. exact (Forall2_len _ _ _ F2). }
  destruct (sequence_forall compute_div (concat Js)) as (ds & Eds & FD).
  { apply Forall_concat. apply Forall_forall. intros r Hr. destruct (In_nth_error _ _ Hr) as (i & Ei).
    assert (Hi : (i < length (leaves y))%nat) by (rewrite <- LJ; apply nth_error_Some; congruence).
    destruct (HJ i Hi) as (r' & Er & F2). replace r' with r in F2 by congruence.
    apply Forall_forall. intros J HinJ. destruct (In_nth_error _ _ HinJ) as (c & Ec).
    destruct (Forall2_nth_error_l _ _ _ _ _ F2 Ec) as (k & Ek & PJ). pose proof (nth_error_In _ _ Ek) as Hk.
    destruct (nth_error_lt (us k) i) as (u & Eu). { rewrite <- (Forall2_len _ _ _ (HV k Hk)). exact Hi. }
    pose proof (HR k Hk) as HRk. rewrite Forall_forall in HRk.
    destruct (compute_div_ok (N k) u _ J (HRk u (nth_error_In _ _ Eu)) (PJ u Eu)) as (d & Ed & _). eauto. }
  exists y, (mkP (TTuples (tdef y) (length js)) ds).
  assert (EV : value_and_divergenceP F (JMany js) args = Ok (y, mkP (TTuples (tdef y) (length js)) ds)).
  { unfold value_and_divergenceP, value_and_jacfwdP, jacfwd_argsP. rewrite Ey. cbn [bind]. rewrite EJs. cbn [bind fst snd].
    unfold tree_map. cbn [leaves tdef]. rewrite Eds. reflexivity. }
  split; [exact EV|]. split; [unfold divergenceP; rewrite EV; reflexivity|]. split; [exact Ey|]. cbn [tdef leaves].
  split; [rewrite Ty, Lj; reflexivity|]. split.
  { rewrite <- (Forall2_len _ _ _ FD), (concat_len _ _ HL), LJ. reflexivity. }
  intros i c k u Ec Eu. pose proof (nth_error_In _ _ Ec) as Hk.
  assert (Hi : (i < length (leaves y))%nat).
  { rewrite (Forall2_len _ _ _ (HV k Hk)). apply nth_error_Some. congruence. }
  destruct (HJ i Hi) as (row & Er & F2). destruct (Forall2_nth_error_r _ _ _ _ _ F2 Ec) as (J & EJ & PJ).
  rewrite <- (concat_nth Js (length ks) i c row HL Er) in EJ by (apply nth_error_Some; congruence).
  destruct (Forall2_nth_error_l _ _ _ _ _ FD EJ) as (d & Ed & Pd).
  pose proof (HR k Hk) as HRk. rewrite Forall_forall in HRk.
  destruct (compute_div_ok (N k) u _ J (HRk u (nth_error_In _ _ Eu)) (PJ u Eu)) as (d' & Ed' & V).
  exists d. split; [exact Ed|]. replace d with d' by congruence. exact V.
Qed.
End Many.

(** ** the curl *)
Lemma all_last_ok k td us X y : tree_of td us X y -> Forall (last_axis k) us -> all_last k y = Ok true.
Proof.
  intros (_ & FA) HF. unfold all_last.
  assert (G : sequence (map (fun a => last_dim (shape a)) (leaves y)) = Ok (repeat k (length us))).
  { revert HF. induction FA as [|a u l m (S & _) FA IH]; intros HF; inversion HF as [|? ? (s & Es) HF']; subst; [reflexivity|].
    cbn [map sequence length repeat]. rewrite S, Es. unfold last_dim at 1. rewrite rev_unit. cbn [bind]. rewrite IH by auto. reflexivity. }
  rewrite G. cbn [bind]. f_equal. clear. induction us; cbn; [reflexivity|]. rewrite Nat.eqb_refl. auto.
Qed.
Lemma all_last_false k td us X y u m s : tree_of td us X y -> Forall (fun v : field => fst v <> []) us -> In u us -> fst u = s ++ [m] -> m <> k ->
  all_last k y = Ok false.
Proof.
  intros (_ & FA) HF Hu Eu Hm. unfold all_last.
  assert (G : exists ns, sequence (map (fun a => last_dim (shape a)) (leaves y)) = Ok ns /\ In m ns).
  { revert HF Hu. induction FA as [|a v l us' (S & _) FA IH]; intros HF Hu; [destruct Hu|].
    inversion HF as [|? ? Hv HF']; subst.
    destruct (exists_last Hv) as (s' & m' & Ev). cbn [map sequence]. rewrite S, Ev. unfold last_dim at 1. rewrite rev_unit. cbn [bind].
    assert (R : exists ns, sequence (map (fun a => last_dim (shape a)) l) = Ok ns).
    { clear -FA HF'. induction FA as [|a v l us' (S & _) FA IH]; [exists []; reflexivity|]. inversion HF' as [|? ? Hv HF'']; subst.
      destruct (exists_last Hv) as (s' & m' & Ev). destruct IH as (ns & E); auto. exists (m' :: ns). cbn [map sequence].
      rewrite S, Ev. unfold last_dim at 1. rewrite rev_unit. cbn [bind]. rewrite E. reflexivity. }
    destruct Hu as [->|Hu].
    - destruct R as (ns & E). rewrite E. cbn [bind]. exists (m' :: ns). split; [reflexivity|]. left.
      rewrite Eu in Ev. apply app_inj_tail in Ev. symmetry. apply Ev.
    - destruct (IH HF' Hu) as (ns & E & Hin). rewrite E. cbn [bind]. exists (m' :: ns). split; [reflexivity|right; exact Hin]. }
  destruct G as (ns & E & Hin). rewrite E. cbn [bind]. f_equal.
  apply Bool.not_true_iff_false. intros HB. rewrite forallb_forall in HB. apply HB in Hin. apply Nat.eqb_eq in Hin. congruence.
Qed.
Lemma all_last_0d k td us X y u : tree_of td us X y -> In u us -> fst u = [] -> all_last k y = Err IndexError.
Proof.
  intros (_ & FA) Hu Eu. unfold all_last. destruct (In_nth_error _ _ Hu) as (i & Ei).
  destruct (Forall2_nth_error_r _ _ _ _ _ FA Ei) as (a & Ea & Sa & _).
  rewrite (sequence_err (fun a => last_dim (shape a)) (leaves y) a IndexError); [reflexivity|eapply nth_error_In; eauto| |rewrite Sa, Eu; reflexivity].
  intros b _. unfold last_dim. destruct (rev (shape b)); eauto.
Qed.
Lemma jac_entry n u X J q a b s m : value_of X J (jac_field n u) -> fst u = s ++ [m] -> inside s q -> (a < m)%nat -> (b < n)%nat ->
  entry J (q ++ [a; b]) = pd b (snd u (q ++ [a])) X.
Proof.
  intros (S & V) Eu Hq Ha Hb. cbn [jac_field fst snd] in V. rewrite Eu in V.
  change [a; b] with ([a] ++ [b]). rewrite app_assoc, V.
  - rewrite last_last, removelast_last. reflexivity.
  - apply inside_app; [apply inside_app; [exact Hq|]|]; constructor; try constructor; assumption.
Qed.
Lemma curl3_ok D F td us : openset 3 D -> computes_tree 3 D F td us -> Forall (last_axis 3) us ->
  computes_tree 3 D (curlP F) td (map curl3_field us).
Proof.
  intros HO H HF x Sx Dx. unfold curlP. rewrite Sx. cbn [Nat.eqb]. unfold curl3dP.
  destruct (jacfwdP_ok 3 D F td us HO H x Sx Dx) as (J & EJ & TJ). destruct (H x Sx Dx) as (y & Ey & Ty).
  rewrite EJ. cbn [bind]. rewrite Ey. cbn [bind]. rewrite (all_last_ok 3 td us _ y Ty HF). cbn [bind assert_].
  apply (map_leaves 3 (last_axis 3) us (tlist x) J _ curl3_field td HF); [|exact TJ].
  intros u a (s & Es) Pa. eexists. split; [reflexivity|]. destruct Pa as (Sa & Va) eqn:EPa. clear EPa.
  cbn [jac_field fst] in Sa. split; cbn [curl3_of curl3_field shape entry fst snd].
  - rewrite Sa, Es, !removelast_last. reflexivity.
  - rewrite Es. intros p Hp. destruct (inside_snoc _ _ _ Hp) as (q & i & -> & Hq & Hi). rewrite last_last, removelast_last.
    pose proof (jac_entry 3 u (tlist x) a q) as JE.
    destruct i as [|[|i]]; rewrite (JE _ _ s 3%nat), (JE _ _ s 3%nat) by (auto; lia || (split; assumption)); reflexivity.
Qed.
Lemma curl2_ok D F td us : openset 2 D -> computes_tree 2 D F td us -> Forall (last_axis 2) us ->
  computes_tree 2 D (curlP F) td (map curl2_field us).
Proof.
  intros HO H HF x Sx Dx. unfold curlP. rewrite Sx. cbn [Nat.eqb]. unfold curl2dP.
  destruct (jacfwdP_ok 2 D F td us HO H x Sx Dx) as (J & EJ & TJ). destruct (H x Sx Dx) as (y & Ey & Ty).
  rewrite EJ. cbn [bind]. rewrite Ey. cbn [bind]. rewrite (all_last_ok 2 td us _ y Ty HF). cbn [bind assert_].
  apply (map_leaves 2 (last_axis 2) us (tlist x) J _ curl2_field td HF); [|exact TJ].
  intros u a (s & Es) Pa. eexists. split; [reflexivity|]. destruct Pa as (Sa & Va) eqn:EPa. clear EPa.
  cbn [jac_field fst] in Sa. split; cbn [curl2_field shape entry fst snd].
  - rewrite Sa, Es, !removelast_last. reflexivity.
  - rewrite Es, removelast_last. intros q Hq.
    pose proof (jac_entry 2 u (tlist x) a q) as JE.
    rewrite (JE _ _ s 2%nat), (JE _ _ s 2%nat) by (auto; lia || (split; assumption)). reflexivity.
Qed.
Lemma curl_tree_bad n D F td us x u m s : (n = 2 \/ n = 3)%nat -> openset n D -> computes_tree n D F td us ->
  shape x = [n] -> D (tlist x) -> Forall (fun v : field => fst v <> []) us -> In u us -> fst u = s ++ [m] -> m <> n ->
  curlP F x = Err AssertionError.
Proof.
  intros Hn HO H Sx Dx HF Hu Eu Hm. unfold curlP. rewrite Sx.
  destruct (jacfwdP_ok n D F td us HO H x Sx Dx) as (J & EJ & TJ). destruct (H x Sx Dx) as (y & Ey & Ty).
  pose proof (all_last_false n td us _ y u m s Ty HF Hu Eu Hm) as E.
  destruct Hn as [->| ->]; cbn [Nat.eqb]; unfold curl2dP, curl3dP; rewrite EJ; cbn [bind]; rewrite Ey; cbn [bind]; rewrite E; reflexivity.
Qed.
Lemma curl_tree_0d n D F td us x u : (n = 2 \/ n = 3)%nat -> openset n D -> computes_tree n D F td us ->
  shape x = [n] -> D (tlist x) -> In u us -> fst u = [] -> curlP F x = Err IndexError.
Proof.
  intros Hn HO H Sx Dx Hu Eu. unfold curlP. rewrite Sx.
  destruct (jacfwdP_ok n D F td us HO H x Sx Dx) as (J & EJ & TJ). destruct (H x Sx Dx) as (y & Ey & Ty).
  pose proof (all_last_0d n td us _ y u Ty Hu Eu) as E.
  destruct Hn as [->| ->]; cbn [Nat.eqb]; unfold curl2dP, curl3dP; rewrite EJ; cbn [bind]; rewrite Ey; cbn [bind]; rewrite E; reflexivity.
Qed.

(** ** points without axes *)
Lemma leaf_at0 F td us i u t : computes_tree0 F td us -> nth_error us i = Some u -> shape t = [] ->
  exists a, leaf_of F i t = Ok a /\ shape a = fst u /\ forall p, inside (fst u) p -> entry a p = snd u p (entry t []).
Proof.
  intros H E St. destruct (H t St) as (y & Ey & _ & FA).
  destruct (Forall2_nth_error_r _ _ _ _ _ FA E) as (a & Ea & Sa & Va).
  exists a. unfold leaf_of. rewrite Ey. cbn [bind]. rewrite Ea. auto.
Qed.
Lemma jacfwdP0_ok F td us : computes_tree0 F td us ->
  computes_tree0 (jacfwdP F) td (map (fun u => (fst u, fun p => Derive (snd u p))) us).
Proof.
  intros H t St. destruct (H t St) as (y & Ey & Ty & FA). unfold jacfwdP, by_leaf. rewrite Ey. cbn [bind].
  assert (LL : length (leaves y) = @length field0 us) by exact (Forall2_len _ _ _ FA). rewrite LL.
  destruct (seq_leaves (fun i => jacfwd (leaf_of F i) t) us (fun a u => shape a = fst u /\
    forall p, inside (fst u) p -> entry a p = Derive (snd u p) (entry t []))) as (ls & E & F2).
  - intros i u Eu. destruct (leaf_at0 F td us i u t H Eu St) as (a & Ea & Sa & Va). unfold jacfwd. rewrite Ea. cbn [bind].
    eexists. split; [reflexivity|]. cbn [shape entry]. rewrite Sa, St, app_nil_r. split; [reflexivity|].
    intros p Hp. rewrite <- (inside_length _ _ Hp), firstn_all, skipn_all.
    rewrite <- (Derive_shift (snd u p)). apply Derive_ext. intros h.
    destruct (leaf_at0 F td us i u (taxpy h t (tunit [] [])) H Eu St) as (b & Eb & _ & Vb). rewrite Eb. cbn [entry_of].
    rewrite Vb by exact Hp. f_equal. cbn. ring.
  - rewrite E. cbn [bind]. eexists. split; [reflexivity|]. split; [exact Ty|]. cbn [leaves].
    apply Forall2_map_r. exact F2.
Qed.
Lemma hvpP0_ok F td us : computes_tree0 F td us ->
  computes_tree0 (fun x => hvpP F x (tsc 1)) td (map (fun u => (fst u, fun p => Derive (Derive (snd u p)))) us).
Proof.
  intros H0 t St. pose proof (jacfwdP0_ok F td us H0) as H. destruct (H t St) as (y & Ey & Ty & FA).
  unfold hvpP, jvpP, same_shapes. cbn [length map2 map forallb Nat.eqb shape tsc]. rewrite St. cbn [list_eqb andb].
  rewrite Ey. cbn [bind]. unfold by_leaf. assert (LL : length (leaves y) = @length field0 us) by (rewrite (Forall2_len _ _ _ FA), map_length; reflexivity). rewrite LL.
  destruct (seq_leaves (fun i => tderive (fun h => leaf_of (jacfwdP F) i (taxpy h t (tsc 1)))) us (fun a u => shape a = fst u /\
    forall p, inside (fst u) p -> entry a p = Derive (Derive (snd u p)) (entry t []))) as (ls & E & F2).
  - intros i u Eu.
    assert (Eu' : nth_error (map (fun u : field0 => (fst u, fun p => Derive (snd u p))) us) i = Some (fst u, fun p => Derive (snd u p))).
    { rewrite nth_error_map, Eu. reflexivity. }
    unfold tderive. destruct (leaf_at0 _ td _ i _ (taxpy 0 t (tsc 1)) H Eu' St) as (a & Ea & Sa & Va). rewrite Ea. cbn [bind].
    eexists. split; [reflexivity|]. cbn [shape entry]. split; [exact Sa|]. intros p Hp.
    rewrite <- (Derive_shift (Derive (snd u p))). apply Derive_ext. intros h.
    destruct (leaf_at0 _ td _ i _ (taxpy h t (tsc 1)) H Eu' St) as (b & Eb & _ & Vb). rewrite Eb. cbn [entry_of].
    rewrite Vb by exact Hp. cbn [snd]. f_equal. cbn. ring.
  - rewrite E. cbn [bind snd]. eexists. split; [reflexivity|]. split; [exact Ty|]. cbn [leaves].
    apply Forall2_map_r. exact F2.
Qed.
Lemma sequence_Ok {A B} (g : A -> B) l : sequence (map (fun a => Ok (g a)) l) = Ok (map g l).
Proof. induction l as [|a l IH]; [reflexivity|]. cbn [map sequence bind]. rewrite IH. reflexivity. Qed.
Lemma laplaceP0_ok F td us : computes_tree0 F td us ->
  computes_tree0 (laplaceP F) td (map (fun u => (fst u, fun p => Derive (Derive (snd u p)))) us).
Proof.
  intros H x Sx. destruct (hvpP0_ok F td us H x Sx) as (y & Ey & Ty & FA).
  unfold laplaceP, hessian_diagP. rewrite Sx, Ey. cbn [bind]. unfold tree_map at 1.
  rewrite (sequence_Ok (fun a => mkT (1%nat :: shape a) (fun p => entry a (tl p)))). cbn [bind].
  unfold tree_map. cbn [leaves tdef]. rewrite (sequence_Ok (fun d => mkT (tl (shape d)) (fun p => sumR (map (fun i => entry d (i :: p)) (seq 0 (hd 0%nat (shape d))))))). cbn [bind].
  eexists. split; [reflexivity|]. split; [exact Ty|].
  cbn [leaves]. rewrite map_map. revert FA. generalize (leaves y). clear.
  generalize (map (fun u : field0 => (fst u, fun p => Derive (Derive (snd u p)))) us). intros vs l FA.
  induction FA as [|a u l m (S & V) FA IH]; cbn [map]; constructor; auto.
  cbn [shape entry tl hd seq map sumR fold_right]. split; [exact S|]. intros p Hp. rewrite V by exact Hp. ring.
Qed.
