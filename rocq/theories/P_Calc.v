(** Proofs about calc.py, part 1: tensors, Jacobians and the operators built on them. *)
From Coquelicot Require Import Coquelicot.
From Verif Require Import Base BaseFacts P_Vec M_Tensor M_Calc S_Calc P_AD.

Lemma list_eqb_refl l : list_eqb l l = true.
Proof. induction l; cbn; auto. rewrite Nat.eqb_refl. auto. Qed.

Lemma tlist_length x n : shape x = [n] -> length (tlist x) = n.
Proof. intros H. unfold tlist. rewrite map_length, seq_length, H. reflexivity. Qed.

Lemma tlist_nth x n i : shape x = [n] -> (i < n)%nat -> nth i (tlist x) 0 = entry x [i].
Proof. intros H Hi. unfold tlist. rewrite H. cbn [hd]. apply (nth_map_seq (fun i => entry x [i])). auto. Qed.

Lemma tlist_taxpy t x v n : shape x = [n] -> shape v = [n] ->
  tlist (taxpy t x v) = axpy t (tlist x) (tlist v).
Proof.
  intros Hx Hv. assert (Ha : shape (taxpy t x v) = [n]) by exact Hx.
  pose proof (tlist_length x n Hx) as Lx. pose proof (tlist_length v n Hv) as Lv.
  apply vec_ext.
  - rewrite (tlist_length _ n Ha), axpy_length; lia.
  - intros i Hi. rewrite (tlist_length _ n Ha) in Hi.
    rewrite nth_axpy, (tlist_nth _ n) by (auto; lia). rewrite !(tlist_nth _ n) by auto. reflexivity.
Qed.

Lemma tlist_unit t x n i : shape x = [n] -> (i < n)%nat ->
  tlist (taxpy t x (tunit [n] [i])) = upd (tlist x) i (nth i (tlist x) 0 + t).
Proof.
  intros Hx Hi. assert (Ha : shape (taxpy t x (tunit [n] [i])) = [n]) by exact Hx.
  pose proof (tlist_length x n Hx) as Lx.
  apply vec_ext.
  - rewrite upd_length, (tlist_length _ n Ha); lia.
  - intros j Hj. rewrite (tlist_length _ n Ha) in Hj.
    rewrite (tlist_nth _ n) by auto. cbn [entry taxpy tunit list_eqb].
    destruct (Nat.eq_dec i j) as [->|Hij].
    + rewrite upd_nth_same by lia. rewrite Nat.eqb_refl. cbn [andb].
      rewrite (tlist_nth x n) by auto. ring.
    + rewrite upd_nth_other by auto. destruct (Nat.eqb_spec j i); [congruence|]. cbn [andb].
      rewrite (tlist_nth x n) by auto. ring.
Qed.

Lemma entry_of_rep0 n F f t : rep0 n F f -> shape t = [n] -> entry_of (F t) [] = f (tlist t).
Proof. intros H Ht. destruct (H t Ht) as (y & -> & _ & E). exact E. Qed.

Lemma entry_of_rep1 n m F f t i : rep1 n m F f -> shape t = [n] -> (i < m)%nat ->
  entry_of (F t) [i] = f i (tlist t).
Proof. intros H Ht Hi. destruct (H t Ht) as (y & -> & _ & E). apply E. auto. Qed.

Lemma entry_of_rep2 n m k F f t i j : rep2 n m k F f -> shape t = [n] -> (i < m)%nat -> (j < k)%nat ->
  entry_of (F t) [i; j] = f i j (tlist t).
Proof. intros H Ht Hi Hj. destruct (H t Ht) as (y & -> & _ & E). apply E; auto. Qed.

Lemma Derive_unit (f : list R -> R) X i :
  Derive (fun t => f (upd X i (nth i X 0 + t))) 0 = pd i f X.
Proof. exact (Derive_shift (fun t => f (upd X i t)) (nth i X 0)). Qed.

Lemma jacfwd_rep0 n F f : rep0 n F f -> rep1 n n (jacfwd F) (fun i => pd i f).
Proof.
  intros H t Ht. destruct (H t Ht) as (y & E & S & V). unfold jacfwd. rewrite E. cbn [bind].
  eexists. split; [reflexivity|]. cbn [shape entry]. rewrite S, Ht. split; [reflexivity|].
  intros i Hi. cbn [length skipn firstn].
  rewrite <- Derive_unit. apply Derive_ext. intros u.
  rewrite (entry_of_rep0 n F f) by auto. rewrite (tlist_unit _ _ n) by auto. reflexivity.
Qed.

Lemma jacfwd_rep1 n m F f : rep1 n m F f -> rep2 n m n (jacfwd F) (fun i j => pd j (f i)).
Proof.
  intros H t Ht. destruct (H t Ht) as (y & E & S & V). unfold jacfwd. rewrite E. cbn [bind].
  eexists. split; [reflexivity|]. cbn [shape entry]. rewrite S, Ht. split; [reflexivity|].
  intros i j Hi Hj. cbn [length skipn firstn].
  rewrite <- (Derive_unit (f i)). apply Derive_ext. intros u.
  rewrite (entry_of_rep1 n m F f) by auto. rewrite (tlist_unit _ _ n) by auto. reflexivity.
Qed.

Lemma jgrad_rep0 n F f : rep0 n F f -> rep1 n n (jgrad F) (fun i => pd i f).
Proof.
  intros H t Ht. destruct (H t Ht) as (y & E & S & V). unfold jgrad. rewrite E. cbn [bind]. rewrite S.
  apply (jacfwd_rep0 n F f H t Ht).
Qed.

(** directional derivative of a one-argument function *)
Lemma jvp_rep1 n m F f x v : rep1 n m F f -> shape x = [n] -> shape v = [n] ->
  exists y dy, jvp (fun l => match l with [x] => F x | _ => Err TypeError end) [x] [v] = Ok (y, dy) /\
    F x = Ok y /\ shape dy = [m] /\
    forall i, (i < m)%nat -> entry dy [i] = Derive (fun t => f i (axpy t (tlist x) (tlist v))) 0.
Proof.
  intros H Hx Hv. destruct (H x Hx) as (y & E & S & V).
  destruct (H (taxpy 0 x v) Hx) as (y0 & E0 & S0 & V0).
  unfold jvp, same_shapes. cbn [length map2 map forallb Nat.eqb].
  rewrite Hx, Hv, list_eqb_refl. cbn [andb]. rewrite E. cbn [bind].
  unfold tderive. cbn [map2]. rewrite E0. cbn [bind].
  eexists _, _. split; [reflexivity|]. split; [reflexivity|]. cbn [shape entry]. split; [exact S0|].
  intros i Hi. apply Derive_ext. intros t.
  rewrite (entry_of_rep1 n m F f) by auto. rewrite (tlist_taxpy _ _ _ n) by auto. reflexivity.
Qed.

Lemma jvp_rep2 n m k F f x v : rep2 n m k F f -> shape x = [n] -> shape v = [n] ->
  exists y dy, jvp (fun l => match l with [x] => F x | _ => Err TypeError end) [x] [v] = Ok (y, dy) /\
    F x = Ok y /\ shape dy = [m; k] /\
    forall i j, (i < m)%nat -> (j < k)%nat ->
      entry dy [i; j] = Derive (fun t => f i j (axpy t (tlist x) (tlist v))) 0.
Proof.
  intros H Hx Hv. destruct (H x Hx) as (y & E & S & V).
  destruct (H (taxpy 0 x v) Hx) as (y0 & E0 & S0 & V0).
  unfold jvp, same_shapes. cbn [length map2 map forallb Nat.eqb].
  rewrite Hx, Hv, list_eqb_refl. cbn [andb]. rewrite E. cbn [bind].
  unfold tderive. cbn [map2]. rewrite E0. cbn [bind].
  eexists _, _. split; [reflexivity|]. split; [reflexivity|]. cbn [shape entry]. split; [exact S0|].
  intros i j Hi Hj. apply Derive_ext. intros t.
  rewrite (entry_of_rep2 n m k F f) by auto. rewrite (tlist_taxpy _ _ _ n) by auto. reflexivity.
Qed.

Lemma axpy_unit t X n i : length X = n -> (i < n)%nat ->
  axpy t X (tlist (tunit [n] [i])) = upd X i (nth i X 0 + t).
Proof.
  intros L Hi. assert (Lu : length (tlist (tunit [n] [i])) = n) by (apply tlist_length; reflexivity).
  apply vec_ext; [rewrite upd_length, axpy_length; lia|].
  intros j Hj. rewrite axpy_length in Hj by lia. rewrite nth_axpy by lia.
  rewrite (tlist_nth _ n) by (auto; lia). cbn [entry tunit list_eqb].
  destruct (Nat.eq_dec i j) as [->|Hij].
  - rewrite upd_nth_same by lia. rewrite Nat.eqb_refl. cbn [andb]. ring.
  - rewrite upd_nth_other by auto. destruct (Nat.eqb_spec j i); [congruence|]. cbn [andb]. ring.
Qed.

Lemma hvp_unit_rep0 n F f x i : rep0 n F f -> shape x = [n] -> (i < n)%nat ->
  exists a, hvp F x (tunit [n] [i]) = Ok a /\ shape a = [n] /\
    forall j, (j < n)%nat -> entry a [j] = pd i (pd j f) (tlist x).
Proof.
  intros H Hx Hi. unfold hvp.
  destruct (jvp_rep1 n n _ _ x (tunit [n] [i]) (jacfwd_rep0 n F f H) Hx eq_refl) as (y & dy & E & _ & S & V).
  rewrite E. cbn [bind snd]. exists dy. split; [reflexivity|]. split; [exact S|].
  intros j Hj. rewrite V by auto. rewrite <- (Derive_unit (pd j f)). apply Derive_ext. intros t.
  rewrite axpy_unit by (auto; apply tlist_length; auto). reflexivity.
Qed.

Lemma hvp_unit_rep1 n m F f x i : rep1 n m F f -> shape x = [n] -> (i < n)%nat ->
  exists a, hvp F x (tunit [n] [i]) = Ok a /\ shape a = [m; n] /\
    forall k j, (k < m)%nat -> (j < n)%nat -> entry a [k; j] = pd i (pd j (f k)) (tlist x).
Proof.
  intros H Hx Hi. unfold hvp.
  destruct (jvp_rep2 n m n _ _ x (tunit [n] [i]) (jacfwd_rep1 n m F f H) Hx eq_refl) as (y & dy & E & _ & S & V).
  rewrite E. cbn [bind snd]. exists dy. split; [reflexivity|]. split; [exact S|].
  intros k j Hk Hj. rewrite V by auto. rewrite <- (Derive_unit (pd j (f k))). apply Derive_ext. intros t.
  rewrite axpy_unit by (auto; apply tlist_length; auto). reflexivity.
Qed.

(** ** Laplace *)
Lemma sequence_map_ok {A B} (g : A -> res B) (l : list A) (P : A -> B -> Prop) :
  (forall a, In a l -> exists b, g a = Ok b /\ P a b) ->
  exists bs, sequence (map g l) = Ok bs /\ Forall2 P l bs.
Proof.
  induction l as [|a l IH]; intros H.
  - exists []. split; [reflexivity|constructor].
  - destruct (H a (or_introl eq_refl)) as (b & E & Pb).
    destruct IH as (bs & Es & F); [intros; apply H; right; auto|].
    exists (b :: bs). cbn [map sequence]. rewrite E. cbn [bind]. rewrite Es. split; [reflexivity|]. constructor; auto.
Qed.

Lemma Forall2_nth_seq {B} (P : nat -> B -> Prop) n (bs : list B) :
  Forall2 P (seq 0 n) bs -> length bs = n /\ forall i, (i < n)%nat -> exists b, nth_error bs i = Some b /\ P i b.
Proof.
  intros F. assert (L : length bs = n).
  { clear -F. rewrite <- (seq_length n 0). induction F; cbn; auto. }
  split; auto. intros i Hi.
  assert (G : forall s m (bs : list B), Forall2 P (seq s m) bs -> forall i, (i < m)%nat ->
     exists b, nth_error bs i = Some b /\ P (s + i)%nat b).
  { clear. intros s m. revert s. induction m as [|m IH]; intros s bs F i Hi; [lia|].
    cbn [seq] in F. inversion F as [|? b ? bs' Pb F' E1 E2]; subst. destruct i as [|i].
    - exists b. rewrite Nat.add_0_r. auto.
    - destruct (IH (S s) bs' F' i ltac:(lia)) as (c & E & Pc). exists c. split; auto.
      replace (s + S i)%nat with (S s + i)%nat by lia. auto. }
  destruct (G 0%nat n bs F i Hi) as (b & E & Pb). eauto.
Qed.

Lemma travel_1d x n : shape x = [n] -> shape (travel x) = [n] /\ tlist (travel x) = tlist x.
Proof.
  intros H. assert (S : shape (travel x) = [n]).
  { cbn [travel shape]. rewrite H. cbn. rewrite Nat.mul_1_r. reflexivity. }
  split; auto. apply vec_ext; [rewrite !(tlist_length _ n); auto|].
  intros i Hi. rewrite (tlist_length _ n S) in Hi. rewrite !(tlist_nth _ n) by auto.
  cbn [travel entry hd]. rewrite H. cbn [unravel nprod fold_right]. rewrite Nat.div_1_r. reflexivity.
Qed.

Lemma tmatvec_unit a n m i : shape a = [m; n] -> (i < n)%nat ->
  exists y, tmatvec a (tunit [n] [i]) = Ok y /\ shape y = [m] /\
    forall k, entry y [k] = entry a [k; i].
Proof.
  intros S Hi. unfold tmatvec. rewrite S. cbn [rev app shape tunit]. rewrite Nat.eqb_refl.
  eexists. split; [reflexivity|]. split; [reflexivity|]. intros k. cbn [entry app].
  pose proof (lsum_pick n i (fun k0 => entry a [k; k0]) Hi) as L. unfold lsum in L. rewrite <- L.
  apply sumR_map_ext. intros j Hj. cbn [entry tunit list_eqb]. rewrite Bool.andb_true_r. reflexivity.
Qed.

Lemma tmatvec_unit_1d a n i : shape a = [n] -> (i < n)%nat ->
  exists y, tmatvec a (tunit [n] [i]) = Ok y /\ shape y = [] /\ entry y [] = entry a [i].
Proof.
  intros S Hi. unfold tmatvec. rewrite S. cbn [rev app shape tunit]. rewrite Nat.eqb_refl.
  eexists. split; [reflexivity|]. split; [reflexivity|]. cbn [entry app].
  pose proof (lsum_pick n i (fun k0 => entry a [k0]) Hi) as L. unfold lsum in L. rewrite <- L.
  apply sumR_map_ext. intros j Hj. cbn [entry tunit list_eqb]. rewrite Bool.andb_true_r. reflexivity.
Qed.

Lemma laplace_ravel0 n F f x : (0 < n)%nat -> rep0 n F f -> shape x <> [] -> nprod (shape x) = n ->
  exists y, laplace F x = Ok y /\ shape y = [] /\ entry y [] = lap_ n f (tlist (travel x)).
Proof.
  intros Hn H Hx0 Hx. assert (St : shape (travel x) = [n]) by (cbn [travel shape]; congruence).
  unfold laplace, hessian_diag. destruct (shape x) as [|a0 s0] eqn:Es; [congruence|]. clear Es.
  replace (nprod (shape (travel x))) with n by (rewrite St; cbn; lia).
  destruct (sequence_map_ok (fun i => a <- hvp F (travel x) (tunit [n] [i]) ;; tmatvec a (tunit [n] [i])) (seq 0 n)
    (fun i y => shape y = [] /\ entry y [] = pd i (pd i f) (tlist (travel x)))) as (rows & E & FA).
  { intros i Hi. apply in_seq in Hi.
    destruct (hvp_unit_rep0 n F f (travel x) i H St ltac:(lia)) as (a & Ea & Sa & Va). rewrite Ea. cbn [bind].
    destruct (tmatvec_unit_1d a n i Sa ltac:(lia)) as (y & Ey & Sy & Vy).
    exists y. split; auto. split; auto. rewrite Vy, Va by lia. reflexivity. }
  rewrite E. cbn [bind]. destruct (Forall2_nth_seq _ n rows FA) as (L & Hr).
  eexists. split; [reflexivity|]. cbn [shape entry tl hd]. split.
  - destruct rows as [|r rows]; [reflexivity|]. destruct (Hr 0%nat Hn) as (b & Eb & Sb & _).
    cbn in Eb. injection Eb as ->. exact Sb.
  - unfold lap_, total. apply sumR_map_ext. intros i Hi. apply in_seq in Hi.
    destruct (Hr i ltac:(lia)) as (b & -> & _ & Vb). exact Vb.
Qed.

Lemma laplace_ravel1 n m F f x : (0 < n)%nat -> rep1 n m F f -> shape x <> [] -> nprod (shape x) = n ->
  exists y, laplace F x = Ok y /\ shape y = [m] /\
    forall k, (k < m)%nat -> entry y [k] = lap_ n (f k) (tlist (travel x)).
Proof.
  intros Hn H Hx0 Hx. assert (St : shape (travel x) = [n]) by (cbn [travel shape]; congruence).
  unfold laplace, hessian_diag. destruct (shape x) as [|a0 s0] eqn:Es; [congruence|]. clear Es.
  replace (nprod (shape (travel x))) with n by (rewrite St; cbn; lia).
  destruct (sequence_map_ok (fun i => a <- hvp F (travel x) (tunit [n] [i]) ;; tmatvec a (tunit [n] [i])) (seq 0 n)
    (fun i y => shape y = [m] /\ forall k, (k < m)%nat -> entry y [k] = pd i (pd i (f k)) (tlist (travel x)))) as (rows & E & FA).
  { intros i Hi. apply in_seq in Hi.
    destruct (hvp_unit_rep1 n m F f (travel x) i H St ltac:(lia)) as (a & Ea & Sa & Va). rewrite Ea. cbn [bind].
    destruct (tmatvec_unit a n m i Sa ltac:(lia)) as (y & Ey & Sy & Vy).
    exists y. split; auto. split; auto. intros k Hk. rewrite Vy, Va by lia. reflexivity. }
  rewrite E. cbn [bind]. destruct (Forall2_nth_seq _ n rows FA) as (L & Hr).
  eexists. split; [reflexivity|]. cbn [shape entry tl hd]. split.
  - destruct rows as [|r rows]; [cbn in L; lia|]. destruct (Hr 0%nat Hn) as (b & Eb & Sb & _).
    cbn in Eb. injection Eb as ->. exact Sb.
  - intros k Hk. unfold lap_, total. apply sumR_map_ext. intros i Hi. apply in_seq in Hi.
    destruct (Hr i ltac:(lia)) as (b & -> & _ & Vb). apply Vb. exact Hk.
Qed.

Lemma laplace_rep0 n F f x : (0 < n)%nat -> rep0 n F f -> shape x = [n] ->
  exists y, laplace F x = Ok y /\ shape y = [] /\ entry y [] = lap_ n f (tlist x).
Proof.
  intros Hn H Hx. destruct (travel_1d x n Hx) as (_ & <-). apply laplace_ravel0; auto; rewrite Hx; [discriminate|cbn; lia].
Qed.
Lemma laplace_rep1 n m F f x : (0 < n)%nat -> rep1 n m F f -> shape x = [n] ->
  exists y, laplace F x = Ok y /\ shape y = [m] /\
    forall k, (k < m)%nat -> entry y [k] = lap_ n (f k) (tlist x).
Proof.
  intros Hn H Hx. destruct (travel_1d x n Hx) as (_ & <-). apply laplace_ravel1; auto; rewrite Hx; [discriminate|cbn; lia].
Qed.

(** 0-d points *)
Lemma repS_jac F g : repS F g -> repS (jacfwd F) (Derive g).
Proof.
  intros H t Ht. destruct (H t Ht) as (y & E & S & V). unfold jacfwd. rewrite E. cbn [bind].
  eexists. split; [reflexivity|]. cbn [shape entry]. rewrite S, Ht. split; [reflexivity|].
  cbn [length skipn firstn]. rewrite <- (Derive_shift g). apply Derive_ext. intros u.
  destruct (H (taxpy u t (tunit [] [])) Ht) as (z & -> & _ & Vz). cbn [entry_of]. rewrite Vz.
  f_equal. cbn. ring.
Qed.

Lemma laplace_repS F g x : repS F g -> shape x = [] ->
  exists y, laplace F x = Ok y /\ shape y = [] /\ entry y [] = Derive (Derive g) (entry x []).
Proof.
  intros H Hx. pose proof (repS_jac F g H) as HJ.
  unfold laplace, hessian_diag. rewrite Hx. unfold hvp, jvp, same_shapes.
  cbn [length map2 map forallb Nat.eqb]. rewrite Hx. cbn [list_eqb shape tsc andb].
  destruct (HJ x Hx) as (y & -> & Sy & Vy). cbn [bind]. unfold tderive. cbn [map2].
  destruct (HJ (taxpy 0 x (tsc 1)) Hx) as (y0 & E0 & S0 & V0). rewrite E0. cbn [bind snd shape hd tl].
  eexists. split; [reflexivity|]. cbn [shape entry tl]. split; [exact S0|].
  cbn [seq map sumR fold_right]. rewrite Rplus_0_r. rewrite <- (Derive_shift (Derive g)). apply Derive_ext. intros u.
  destruct (HJ (taxpy u x (tsc 1)) Hx) as (z & -> & _ & Vz). cbn [entry_of]. rewrite Vz. f_equal. cbn. ring.
Qed.

(** ** Divergence *)
Lemma pyget_pos {A} (args : list A) argnum k x : nth_error args k = Some x ->
  argnum = Z.of_nat k \/ argnum = (Z.of_nat k - Z.of_nat (length args))%Z ->
  pyget args argnum = Ok x /\ forall v, pyset args argnum v = upd args k v.
Proof.
  intros Hk Ha. assert (Hl : (k < length args)%nat) by (apply nth_error_Some; congruence).
  unfold pyget, pyset.
  assert (E : (if Z.ltb argnum 0 then (argnum + Z.of_nat (length args))%Z else argnum) = Z.of_nat k).
  { destruct (Z.ltb_spec argnum 0); lia. }
  rewrite E. destruct (Z.ltb_spec (Z.of_nat k) 0); [lia|]. rewrite Nat2Z.id, Hk. auto.
Qed.

Lemma nth_error_upd_self {A} (l : list A) k x : nth_error l k = Some x -> upd l k x = l.
Proof. revert k; induction l as [|a l IH]; intros [|k] H; cbn in *; try congruence. f_equal. auto. Qed.

Lemma rep1_ext n m F G f : (forall t, F t = G t) -> rep1 n m F f -> rep1 n m G f.
Proof. intros E H t Ht. rewrite <- E. apply H. auto. Qed.

Lemma divergence_ok n F fs argnum k args x : nth_error args k = Some x ->
  argnum = Z.of_nat k \/ argnum = (Z.of_nat k - Z.of_nat (length args))%Z ->
  shape x = [n] -> rep1 n n (fun t => F (upd args k t)) fs ->
  exists v d, value_and_divergence F argnum args = Ok (v, d) /\ F args = Ok v /\
    divergence F argnum args = Ok d /\
    shape d = [] /\ entry d [] = div_ n fs (tlist x).
Proof.
  intros Hk Ha Hx H. destruct (pyget_pos args argnum k x Hk Ha) as (Eg & Es).
  destruct (H x Hx) as (y & E & Sy & Vy).
  assert (H' : rep1 n n (fun t => F (pyset args argnum t)) fs)
    by (apply (rep1_ext n n (fun t => F (upd args k t))); auto; intros; rewrite Es; reflexivity).
  destruct (jacfwd_rep1 n n _ _ H' x Hx) as (J & EJ & SJ & VJ).
  assert (EV : value_and_divergence F argnum args =
     Ok (y, tsc (sumR (map (fun i => entry J [i; i]) (seq 0 (Nat.min n n)))))).
  { unfold value_and_divergence, value_and_jacfwd. rewrite Eg. rewrite Es, E. cbn [bind].
    rewrite EJ. cbn [bind snd fst]. unfold compute_div. rewrite SJ. reflexivity. }
  exists y. eexists. unfold divergence. rewrite EV. cbn [bind snd].
  split; [reflexivity|]. split; [rewrite <- (nth_error_upd_self args k x Hk); exact E|].
  split; [reflexivity|]. split; [reflexivity|]. cbn [entry tsc]. rewrite Nat.min_id.
  unfold div_, total. apply sumR_map_ext. intros i Hi. apply in_seq in Hi. apply VJ; lia.
Qed.

Lemma divergence_unary n F fs x : shape x = [n] -> rep1 n n F fs ->
  exists d, divergence (unary F) 0 [x] = Ok d /\ shape d = [] /\ entry d [] = div_ n fs (tlist x).
Proof.
  intros Hx H.
  destruct (divergence_ok n (unary F) fs 0%Z 0 [x] x eq_refl (or_introl eq_refl) Hx) as (v & d & _ & _ & E & S & V).
  - apply (rep1_ext n n F); auto.
  - eauto.
Qed.

(** out of range argument numbers *)
Lemma divergence_bad F argnum args :
  (argnum < - Z.of_nat (length args) \/ Z.of_nat (length args) <= argnum)%Z ->
  divergence F argnum args = Err ValueError.
Proof.
  intros H. unfold divergence, value_and_divergence, value_and_jacfwd.
  assert (E : pyget args argnum = Err IndexError).
  { unfold pyget. destruct (Z.ltb_spec argnum 0).
    - destruct (Z.ltb_spec (argnum + Z.of_nat (length args)) 0); [reflexivity|lia].
    - destruct (Z.ltb_spec argnum 0); [lia|].
      destruct (nth_error args (Z.to_nat argnum)) eqn:En; [|reflexivity].
      assert (Z.to_nat argnum < length args)%nat by (apply nth_error_Some; congruence). lia. }
  rewrite E. reflexivity.
Qed.

(** ** Curl *)
Lemma curl_rep3 F f : rep1 3 3 F f -> rep1 3 3 (curl F) (curl3_ f).
Proof.
  intros H x Hx. destruct (H x Hx) as (y & E & S & V).
  destruct (jacfwd_rep1 3 3 F f H x Hx) as (J & EJ & SJ & VJ).
  unfold curl. rewrite Hx. cbn [Nat.eqb]. unfold curl3d. rewrite E. cbn [bind]. rewrite EJ. cbn [bind].
  rewrite S. cbn [last_dim rev app bind Nat.eqb assert_].
  eexists. split; [reflexivity|]. split; [reflexivity|].
  intros i Hi. cbn [entry last removelast app]. destruct i as [|[|[|i]]]; [| | |lia]; cbn [curl3_].
  - rewrite !VJ by lia. reflexivity.
  - rewrite !VJ by lia. reflexivity.
  - rewrite !VJ by lia. reflexivity.
Qed.

Lemma curl_rep2 F f : rep1 2 2 F f -> rep0 2 (curl F) (curl2_ f).
Proof.
  intros H x Hx. destruct (H x Hx) as (y & E & S & V).
  destruct (jacfwd_rep1 2 2 F f H x Hx) as (J & EJ & SJ & VJ).
  unfold curl. rewrite Hx. cbn [Nat.eqb]. unfold curl2d. rewrite E. cbn [bind]. rewrite EJ. cbn [bind].
  rewrite S. cbn [last_dim rev app bind Nat.eqb assert_].
  eexists. split; [reflexivity|]. split; [reflexivity|].
  cbn [entry app]. unfold curl2_. rewrite !VJ by lia. reflexivity.
Qed.

Lemma curl_other F x n : shape x = [n] -> n <> 2%nat -> n <> 3%nat -> curl F x = Err ValueError.
Proof.
  intros H H2 H3. unfold curl. rewrite H. destruct (Nat.eqb_spec n 2); [congruence|].
  destruct (Nat.eqb_spec n 3); [congruence|]. reflexivity.
Qed.

(** ** identities *)
Lemma pd_minus i f g x : ex_derive (fun t => f (upd x i t)) (nth i x 0) ->
  ex_derive (fun t => g (upd x i t)) (nth i x 0) ->
  pd i (fun y => f y - g y) x = pd i f x - pd i g x.
Proof. intros. apply Derive_minus; auto. Qed.

Lemma div_curl_0 D f x : openset 3 D -> (forall k, (k < 3)%nat -> C2 3 D (f k)) -> D x ->
  div_ 3 (curl3_ f) x = 0.
Proof.
  intros HO HC Dx. unfold div_, total. cbn [seq map sumR fold_right].
  change (curl3_ f 0%nat) with (fun y => pd 1 (f 2%nat) y - pd 2 (f 1%nat) y).
  change (curl3_ f 1%nat) with (fun y => pd 2 (f 0%nat) y - pd 0 (f 2%nat) y).
  change (curl3_ f 2%nat) with (fun y => pd 0 (f 1%nat) y - pd 1 (f 0%nat) y).
  assert (X : forall k i j, (k < 3)%nat -> (i < 3)%nat -> (j < 3)%nat ->
     ex_derive (fun t => pd i (f k) (upd x j t)) (nth j x 0)).
  { intros k i j Hk Hi Hj. destruct (HC k Hk) as (_ & H2). apply (H2 i Hi j x Hj Dx). }
  rewrite !pd_minus by (apply X; lia).
  rewrite (schwarz_n 3 D (f 2%nat) x 0 1), (schwarz_n 3 D (f 1%nat) x 0 2), (schwarz_n 3 D (f 0%nat) x 1 2)
    by (auto; apply HC; lia).
  ring.
Qed.

Lemma curl_grad_0 D f x i : openset 3 D -> C2 3 D f -> D x -> (i < 3)%nat ->
  curl3_ (fun k => pd k f) i x = 0.
Proof.
  intros HO HC Dx Hi. destruct i as [|[|[|i]]]; [| | |lia]; cbn [curl3_].
  - rewrite (schwarz_n 3 D f x 1 2) by (auto; lia). ring.
  - rewrite (schwarz_n 3 D f x 2 0) by (auto; lia). ring.
  - rewrite (schwarz_n 3 D f x 0 1) by (auto; lia). ring.
Qed.

Lemma curl2_grad_0 D f x : openset 2 D -> C2 2 D f -> D x -> curl2_ (fun k => pd k f) x = 0.
Proof.
  intros HO HC Dx. unfold curl2_. rewrite (schwarz_n 2 D f x 0 1) by (auto; lia). ring.
Qed.
