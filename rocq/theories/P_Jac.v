(** Proofs about Jacobians in both modes. *)
From Coquelicot Require Import Coquelicot.
From Verif Require Import Base BaseFacts P_Vec M_Tensor M_Calc M_Surface M_Jac S_Calc S_Model S_Surface S_Jac
  P_AD P_Calc P_Calc2 P_Surface1.
Import ListNotations.
Open Scope R_scope.

Lemma seq_shift_map a b m : seq (a + b) m = map (fun k => (b + k)%nat) (seq a m).
Proof. revert a. induction m as [|m IH]; intros a; [reflexivity|]. cbn [seq map]. f_equal; [lia|]. rewrite <- (IH (S a)). f_equal. Qed.
Lemma indices_unravel s : indices s = map (unravel s) (seq 0 (nprod s)).
Proof.
  induction s as [|n s IH]; [reflexivity|]. cbn [indices]. change (nprod (n :: s)) with (n * nprod s)%nat.
  rewrite IH. clear IH.
  assert (H : forall a, flat_map (fun i => map (cons i) (map (unravel s) (seq 0 (nprod s)))) (seq a n)
    = map (unravel (n :: s)) (seq (a * nprod s) (n * nprod s))); [|apply (H 0%nat)].
  intros a. change (unravel (n :: s)) with (fun k => (k / nprod s)%nat :: unravel s (k mod nprod s)).
  revert a. induction n as [|n IH]; intros a; [reflexivity|]. cbn [seq flat_map]. rewrite IH.
  cbn [Nat.mul]. rewrite seq_app, map_app. f_equal.
  - rewrite map_map. rewrite <- (Nat.add_0_l (a * nprod s)), seq_shift_map, map_map.
    apply map_ext_in. intros k Hk. apply in_seq in Hk.
    rewrite Nat.div_add_l by lia. rewrite (Nat.div_small k) by lia.
    rewrite (Nat.add_comm (a * nprod s) k), Nat.mod_add by lia. rewrite Nat.mod_small by lia. f_equal. lia.
  - f_equal. f_equal. lia.
Qed.
Lemma indices_length s : length (indices s) = nprod s.
Proof. rewrite indices_unravel, map_length, seq_length. reflexivity. Qed.
Lemma indices_nth s k : (k < nprod s)%nat -> nth k (indices s) [] = unravel s k.
Proof. intros H. rewrite indices_unravel. rewrite (nth_indep _ [] (unravel s 0)) by (rewrite map_length, seq_length; auto). rewrite map_nth, seq_nth by auto. reflexivity. Qed.
Lemma indices_nth_error s k q : nth_error (indices s) k = Some q ->
  inside s q /\ (k < nprod s)%nat /\ q = unravel s k /\ k = ravel_idx s q.
Proof.
  intros H. assert (L : (k < nprod s)%nat). { rewrite <- indices_length. apply nth_error_Some. congruence. }
  apply (nth_error_nth _ _ []) in H. rewrite indices_nth in H by auto.
  destruct (unravel_inside s k L) as (A & B). subst q. auto.
Qed.
Lemma inside_nth_error s q : inside s q -> nth_error (indices s) (ravel_idx s q) = Some q.
Proof.
  intros H. destruct (unravel_ravel s q H) as (A & B).
  rewrite (nth_error_nth' _ []) by (rewrite indices_length; auto). rewrite indices_nth by auto. congruence.
Qed.
Lemma flatten_length t : length (flatten t) = nprod (shape t).
Proof. unfold flatten. rewrite map_length. apply indices_length. Qed.
Lemma flatten_nth t k q : nth_error (indices (shape t)) k = Some q -> nth k (flatten t) 0 = entry t q.
Proof.
  intros H. unfold flatten. rewrite (nth_indep _ 0 (entry t [])).
  - rewrite map_nth. f_equal. apply nth_error_nth. exact H.
  - rewrite map_length. apply nth_error_Some. congruence.
Qed.
Lemma flatten_1d t n : shape t = [n] -> flatten t = tlist t.
Proof.
  intros H. unfold flatten, tlist. rewrite H. cbn [indices hd map].
  generalize (seq 0 n). intros l. induction l; [reflexivity|]. cbn [flat_map map app]. f_equal. auto.
Qed.

(** the curve through unit arrays moves one coordinate *)
Lemma flatten_unit h x q k : nth_error (indices (shape x)) k = Some q ->
  flatten (taxpy h x (tunit (shape x) q)) = upd (flatten x) k (nth k (flatten x) 0 + h).
Proof.
  intros H. destruct (indices_nth_error _ _ _ H) as (I & L & Eq & Ek).
  apply vec_ext; [rewrite upd_length, !flatten_length; reflexivity|].
  intros i Hi. rewrite flatten_length in Hi. cbn [shape taxpy] in Hi.
  assert (Ei : nth_error (indices (shape x)) i = Some (unravel (shape x) i)).
  { rewrite (nth_error_nth' _ []) by (rewrite indices_length; auto). rewrite indices_nth; auto. }
  rewrite (flatten_nth _ i (unravel (shape x) i)) by exact Ei. cbn [entry taxpy tunit].
  destruct (Nat.eq_dec i k) as [->|N].
  - rewrite upd_nth_same by (rewrite flatten_length; auto). rewrite <- Eq, list_eqb_refl, (flatten_nth x k q) by auto. ring.
  - rewrite upd_nth_other by auto. rewrite (flatten_nth x i _ Ei).
    destruct (list_eqb (unravel (shape x) i) q) eqn:E; [|ring].
    apply list_eqb_eq in E. exfalso. apply N. subst k. rewrite <- E. symmetry. apply unravel_inside. auto.
Qed.

Lemma jacfwd_computes sx s D F f x : openset (nprod sx) D -> computes sx s D F f ->
  shape x = sx -> D (flatten x) -> exists J, jacfwd F x = Ok J /\ is_jacobian s f x J.
Proof.
  intros HO H Hx Dx. destruct (H x Hx Dx) as (y & E & S & V). unfold jacfwd. rewrite E. cbn [bind].
  eexists. split; [reflexivity|]. split; cbn [shape entry]; rewrite S; [reflexivity|].
  intros p q k Hp Hq.
  rewrite <- (inside_length _ _ Hp), firstn_app, firstn_all, skipn_app, skipn_all, Nat.sub_diag. cbn [firstn skipn app].
  rewrite app_nil_r. rewrite <- (Derive_unit (f p)).
  destruct (indices_nth_error _ _ _ Hq) as (Iq & Lk & _ & _).
  destruct (HO _ Dx) as (L & d & Hd & Hn). apply Derive_ext_loc. exists (mkposreal d Hd).
  intros h Hh. unfold ball in Hh; cbn in Hh. unfold AbsRing_ball, abs, minus, plus, opp in Hh; cbn in Hh.
  rewrite Ropp_0, Rplus_0_r in Hh.
  destruct (H (taxpy h x (tunit (shape x) q))) as (z & Ez & _ & Vz); [exact Hx| |].
  - rewrite (flatten_unit h x q k Hq). apply Hn. apply near_upd; [apply near_refl; auto|].
    assert (Eh : forall a b : R, a + b - a = b) by (intros; ring). rewrite Eh. auto.
  - rewrite Ez. cbn [entry_of]. rewrite Vz by exact Hp. rewrite (flatten_unit h x q k Hq). reflexivity.
Qed.

(** ** reverse mode *)
Lemma sum_unit s p (g : list nat -> R) : inside s p ->
  sumR (map (fun k => let q := unravel s k in entry (tunit s p) q * g q) (seq 0 (nprod s))) = g p.
Proof.
  intros Hp. destruct (unravel_ravel s p Hp) as (A & B).
  transitivity (lsum (nprod s) (fun k => g (unravel s k) * (if Nat.eqb k (ravel_idx s p) then 1 else 0))).
  - apply lsum_ext. intros k Hk. cbv zeta. cbn [entry tunit].
    destruct (Nat.eqb_spec k (ravel_idx s p)) as [->|N].
    + rewrite A, list_eqb_refl. ring.
    + destruct (list_eqb (unravel s k) p) eqn:E; [|ring]. apply list_eqb_eq in E. exfalso. apply N. rewrite <- E.
      symmetry. apply unravel_inside. auto.
  - rewrite lsum_pick by exact B. rewrite A. reflexivity.
Qed.
Lemma inside_split s t pq : inside (s ++ t) pq -> exists p q, pq = p ++ q /\ inside s p /\ inside t q.
Proof.
  revert pq. induction s as [|n s IH]; intros pq H.
  - exists [], pq. repeat split; auto. constructor.
  - inversion H; subst. destruct (IH l) as (p & q & -> & Hp & Hq); [assumption|].
    exists (x :: p), q. repeat split; auto. constructor; auto.
Qed.
Lemma jacrev_jacfwd F x : same_result (jacrev F x) (jacfwd F x).
Proof.
  unfold jacrev, jacfwd. destruct (F x) as [y|e]; cbn [bind same_result]; [|reflexivity].
  split; [reflexivity|]. cbn [shape entry vjp]. intros pq H.
  destruct (inside_split _ _ _ H) as (p & q & -> & Hp & Hq).
  rewrite <- (inside_length _ _ Hp), firstn_app, firstn_all, skipn_app, skipn_all, Nat.sub_diag. cbn [firstn skipn app].
  rewrite app_nil_r. apply Derive_ext. intros t. apply sum_unit. exact Hp.
Qed.

Lemma same_jacobian s f x J J' : same_array J' J -> is_jacobian s f x J -> is_jacobian s f x J'.
Proof.
  intros (A & B) (C & E). split; [congruence|]. intros p q k Hp Hq. rewrite B.
  - apply E; auto.
  - rewrite A, C. apply inside_app; auto. apply (indices_nth_error _ _ _ Hq).
Qed.
Lemma jacrev_computes sx s D F f x : openset (nprod sx) D -> computes sx s D F f ->
  shape x = sx -> D (flatten x) -> exists J, jacrev F x = Ok J /\ is_jacobian s f x J.
Proof.
  intros HO H Hx Dx. destruct (jacfwd_computes sx s D F f x HO H Hx Dx) as (J & E & HJ).
  pose proof (jacrev_jacfwd F x) as S. rewrite E in S. destruct (jacrev F x) as [J'|]; [|contradiction].
  exists J'. split; [reflexivity|]. eapply same_jacobian; eauto.
Qed.

(** ** several arguments *)
Definition is_mode (jac : (tensor -> res tensor) -> tensor -> res tensor) : Prop := jac = jacfwd \/ jac = jacrev.
Lemma mode_computes jac sx s D F f x : is_mode jac -> openset (nprod sx) D -> computes sx s D F f ->
  shape x = sx -> D (flatten x) -> exists J, jac F x = Ok J /\ is_jacobian s f x J.
Proof. intros [->| ->]; [apply jacfwd_computes|apply jacrev_computes]. Qed.

Lemma pyset_pos {A} (args : list A) k j x : pyidx (length args) k j -> pyset args j x = upd args k x.
Proof.
  intros (Hk & [->| ->]); unfold pyset.
  - destruct (Z.ltb_spec (Z.of_nat k) 0); [lia|]. rewrite Nat2Z.id. reflexivity.
  - destruct (Z.ltb_spec (Z.of_nat k - Z.of_nat (length args)) 0); [|lia]. f_equal. lia.
Qed.
Lemma pyget_idx {A} (args : list A) k j x : pyidx (length args) k j -> nth_error args k = Some x -> pyget args j = Ok x.
Proof.
  intros (Hk & H) Hx. unfold pyget. destruct H as [->| ->].
  - destruct (Z.ltb_spec (Z.of_nat k) 0); [lia|]. destruct (Z.ltb_spec (Z.of_nat k) 0); [lia|].
    rewrite Nat2Z.id, Hx. reflexivity.
  - destruct (Z.ltb_spec (Z.of_nat k - Z.of_nat (length args)) 0); [|lia].
    replace (Z.of_nat k - Z.of_nat (length args) + Z.of_nat (length args))%Z with (Z.of_nat k) by lia.
    destruct (Z.ltb_spec (Z.of_nat k) 0); [lia|]. rewrite Nat2Z.id, Hx. reflexivity.
Qed.
Lemma pyget_out {A} (args : list A) j : (j < - Z.of_nat (length args) \/ Z.of_nat (length args) <= j)%Z ->
  pyget args j = Err IndexError.
Proof.
  intros H. unfold pyget. destruct (Z.ltb_spec j 0) as [L|L].
  - destruct (Z.ltb_spec (j + Z.of_nat (length args)) 0); [reflexivity|lia].
  - destruct (Z.ltb_spec j 0); [lia|]. replace (nth_error args (Z.to_nat j)) with (@None A); [reflexivity|].
    symmetry. apply nth_error_None. lia.
Qed.

Lemma computes_ext sx s D F G f : (forall t, F t = G t) -> computes sx s D F f -> computes sx s D G f.
Proof. intros E H t Ht Dt. rewrite <- E. apply H; auto. Qed.

Lemma jac_arg_ok jac F args k j x y : is_mode jac -> pyidx (length args) k j -> nth_error args k = Some x ->
  F args = Ok y -> exists J, jac_arg jac F args j = Ok J /\ arg_jacobian (shape y) F args k J.
Proof.
  intros M Hj Hx Ey. unfold jac_arg. rewrite (pyget_idx args k j x Hj Hx).
  assert (EF : F (pyset args j x) = Ok y) by (rewrite (pyset_pos args k j x Hj), nth_error_upd_self; auto).
  assert (X : exists J, jac (fun x => F (pyset args j x)) x = Ok J).
  { destruct M as [->| ->]; [unfold jacfwd|unfold jacrev]; rewrite EF; cbn [bind]; eauto. }
  destruct X as (J & EJ). exists J. split; [exact EJ|]. intros x' D f Hx' HO Dx HF.
  assert (x' = x) by congruence. subst x'.
  destruct (mode_computes jac (shape x) (shape y) D (fun x => F (pyset args j x)) f x M) as (J' & EJ' & H); auto.
  - rewrite <- indices_length. exact HO.
  - eapply computes_ext; [|exact HF]. intros t. cbv beta. rewrite (pyset_pos args k j t Hj). reflexivity.
  - congruence.
Qed.
Lemma jac_arg_out jac F args j : (j < - Z.of_nat (length args) \/ Z.of_nat (length args) <= j)%Z ->
  jac_arg jac F args j = Err ValueError.
Proof. intros H. unfold jac_arg. rewrite pyget_out by exact H. reflexivity. Qed.

Lemma value_and_jac_ok jac F args k j y : is_mode jac -> pyidx (length args) k j -> F args = Ok y ->
  exists J, value_and_jac jac F (JOne j) args = Ok (y, Jac J) /\ arg_jacobian (shape y) F args k J.
Proof.
  intros M Hj Ey. destruct (nth_error args k) as [x|] eqn:Hx.
  - destruct (jac_arg_ok jac F args k j x y M Hj Hx Ey) as (J & E & H).
    exists J. split; [|exact H]. unfold value_and_jac, jac_all. rewrite E. cbn [bind]. rewrite Ey. reflexivity.
  - exfalso. apply nth_error_None in Hx. destruct Hj. lia.
Qed.
Lemma jac_all_many jac F args ks js y : is_mode jac -> Forall2 (fun j k => pyidx (length args) k j) js ks ->
  F args = Ok y -> exists Js, jac_all jac F (JMany js) args = Ok (Jacs Js) /\
    Forall2 (fun k J => arg_jacobian (shape y) F args k J) ks Js.
Proof.
  intros M H Ey. cbn [jac_all].
  assert (X : exists Js, sequence (map (jac_arg jac F args) js) = Ok Js /\
    Forall2 (fun k J => arg_jacobian (shape y) F args k J) ks Js).
  { induction H as [|j k js ks Hj H IH]; [exists []; split; [reflexivity|constructor]|].
    destruct IH as (Js & E & HJ). destruct (nth_error args k) as [x|] eqn:Hx.
    - destruct (jac_arg_ok jac F args k j x y M Hj Hx Ey) as (J & EJ & HJ'). exists (J :: Js).
      cbn [map sequence]. rewrite EJ. cbn [bind]. rewrite E. split; [reflexivity|constructor; auto].
    - exfalso. apply nth_error_None in Hx. destruct Hj. lia. }
  destruct X as (Js & E & HJ). exists Js. rewrite E. auto.
Qed.
Lemma value_and_jac_many jac F args ks js y : is_mode jac -> Forall2 (fun j k => pyidx (length args) k j) js ks ->
  F args = Ok y -> exists Js, value_and_jac jac F (JMany js) args = Ok (y, Jacs Js) /\
    Forall2 (fun k J => arg_jacobian (shape y) F args k J) ks Js.
Proof.
  intros M H Ey. destruct (jac_all_many jac F args ks js y M H Ey) as (Js & E & HJ).
  exists Js. split; [|exact HJ]. unfold value_and_jac. rewrite E. cbn [bind]. rewrite Ey. reflexivity.
Qed.
Lemma value_and_jac_aux_ok {A} jac (F : list tensor -> res (tensor * A)) a args y aux J :
  F args = Ok (y, aux) ->
  value_and_jac jac (fun l => r <- F l ;; Ok (fst r)) a args = Ok (y, J) ->
  value_and_jac_aux jac F a args = Ok ((y, aux), J).
Proof.
  intros E. unfold value_and_jac, value_and_jac_aux.
  destruct (jac_all jac _ a args) as [J'|]; cbn [bind]; rewrite ?E; cbn [bind fst]; intros H; inversion H. reflexivity.
Qed.
Lemma value_and_jac_aux_one {A} jac (F : list tensor -> res (tensor * A)) (G : list tensor -> res tensor) args k j y aux :
  is_mode jac -> (forall l, G l = match F l with Ok (z, _) => Ok z | Err e => Err e end) ->
  pyidx (length args) k j -> F args = Ok (y, aux) ->
  exists J, value_and_jac_aux jac F (JOne j) args = Ok ((y, aux), Jac J) /\ arg_jacobian (shape y) G args k J.
Proof.
  intros M HG Hj Ey.
  assert (E : forall l, (r <- F l ;; Ok (fst r)) = G l) by (intros l; rewrite HG; destruct (F l) as [[z a]|]; reflexivity).
  destruct (value_and_jac_ok jac (fun l => r <- F l ;; Ok (fst r)) args k j y M Hj) as (J & EJ & HJ).
  { rewrite Ey. reflexivity. }
  exists J. split; [apply value_and_jac_aux_ok; auto|]. intros x D f Hx HO Dx HF. apply (HJ x D f); auto.
  eapply computes_ext; [|exact HF]. intros t. symmetry. apply E.
Qed.
Lemma value_and_jac_out jac F args j : (j < - Z.of_nat (length args) \/ Z.of_nat (length args) <= j)%Z ->
  value_and_jac jac F (JOne j) args = Err ValueError.
Proof. intros H. unfold value_and_jac, jac_all. rewrite jac_arg_out by exact H. reflexivity. Qed.
Lemma modes_agree F args j :
  match value_and_jacfwd_ F (JOne j) args, value_and_jacrev F (JOne j) args with
  | Ok (y, Jac a), Ok (y', Jac b) => y = y' /\ same_array b a
  | Err e, Err e' => e = e'
  | _, _ => False
  end.
Proof.
  unfold value_and_jacfwd_, value_and_jacrev, value_and_jac, jac_all, jac_arg.
  destruct (pyget args j) as [x|e]; cbn [bind]; [|reflexivity].
  pose proof (jacrev_jacfwd (fun x => F (pyset args j x)) x) as S. cbv beta in *.
  destruct (jacfwd _ x), (jacrev _ x); cbn [bind same_result] in *; try contradiction; auto.
  destruct (F args); cbn [bind]; auto.
Qed.

(** ** laplace ravels the point *)
Lemma travel_flatten a : tlist (travel a) = flatten a.
Proof.
  unfold flatten, tlist. rewrite indices_unravel, map_map. unfold travel at 2. cbn [shape hd].
  apply map_ext. intros i. apply travel_entry.
Qed.
Lemma laplace_of_array_lemma n F f x : (0 < n)%nat -> rep0 n F f -> shape x <> [] -> length (indices (shape x)) = n ->
  exists y, laplace F x = Ok y /\ shape y = [] /\ entry y [] = lap_ n f (flatten x).
Proof.
  intros Hn H Hx Hs. rewrite indices_unravel, map_length, seq_length in Hs. rewrite <- travel_flatten. apply laplace_ravel0; auto.
Qed.
