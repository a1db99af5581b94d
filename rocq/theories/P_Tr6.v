(** Exact CG: residuals stay orthogonal, so the loop ends after at most n iterations. *)
From Verif Require Import Base BaseFacts S_RFun P_Vec M_Tree M_XR M_Tr S_Tr S_Ode P_Tree P_Tr1 P_Tr2 P_Tr3.

(** *** at most n pairwise orthogonal non-zero vectors *)
Definition frac (x u : list R) : R := dotR x u * dotR x u / dotR u u.
Fixpoint orthogonal (us : list (list R)) : Prop :=
  match us with [] => True | u :: us' => 0 < dotR u u /\ (forall v, In v us' -> dotR u v = 0) /\ orthogonal us' end.
Lemma bessel n : forall us x, length x = n -> (forall u, In u us -> length u = n) -> orthogonal us -> sumR (map (frac x) us) <= dotR x x.
Proof.
  induction us as [|u us IH]; intros x Hx Hl HO; [simpl; apply dotR_nonneg|]. destruct HO as (Hu & Ho & HO).
  assert (Lu : length u = n) by (apply Hl; left; auto).
  set (c := dotR x u / dotR u u). set (x' := vadd x (vscal (- c) u)).
  assert (Lx' : length x' = n) by (unfold x'; rewrite vadd_length; auto; rewrite vscal_length; congruence).
  assert (DX : forall w, length w = n -> dotR x' w = dotR x w - c * dotR u w).
  { intros w Hw. unfold x'. rewrite dotR_vadd by (rewrite vscal_length; congruence). rewrite dotR_vscal. ring. }
  specialize (IH x' Lx' (fun v Hv => Hl v (or_intror Hv)) HO).
  assert (E : map (frac x') us = map (frac x) us).
  { apply map_ext_in. intros v Hv. unfold frac. rewrite DX by (apply Hl; right; auto). rewrite (Ho v Hv), Rmult_0_r, Rminus_0_r. auto. }
  rewrite E in IH. change (sumR (map (frac x) (u :: us))) with (frac x u + sumR (map (frac x) us)).
  assert (EQ : dotR x' x' = dotR x x - frac x u).
  { rewrite DX by auto. rewrite (dotR_comm x x'), (dotR_comm u x'), !DX by auto. rewrite (dotR_comm u x). unfold frac, c. field. lra. }
  lra.
Qed.
Definition unit_vec (n i : nat) : list R := map (fun j => if Nat.eqb i j then 1 else 0) (seq 0 n).
Lemma dotR_unit n i u : length u = n -> (i < n)%nat -> dotR (unit_vec n i) u = nth i u 0.
Proof.
  unfold unit_vec. intros <-. clear. enough (H : forall u i k, (i < length u)%nat -> dotR (map (fun j => if Nat.eqb (k + i) j then 1 else 0) (seq k (length u))) u = nth i u 0).
  { intros Hi. apply (H u i 0%nat Hi). }
  clear. assert (Z : forall u i k, (i < k)%nat -> dotR (map (fun j => if Nat.eqb i j then 1 else 0) (seq k (length u))) u = 0).
  { induction u as [|a u IH]; intros i k Hi; [reflexivity|]. cbn [length seq map]. rewrite dotR_cons. destruct (Nat.eqb_spec i k); [lia|]. rewrite IH by lia. ring. }
  induction u as [|a u IH]; intros i k Hi; [simpl in Hi; lia|]. cbn [length seq map]. rewrite dotR_cons. destruct i as [|i].
  - rewrite Nat.add_0_r, Nat.eqb_refl, Z by lia. cbn [nth]. ring.
  - destruct (Nat.eqb_spec (k + S i) k); [lia|]. replace (k + S i)%nat with (S k + i)%nat by lia. rewrite IH by (simpl in Hi; lia). cbn [nth]. ring.
Qed.
Lemma dotR_unit_self n i : (i < n)%nat -> dotR (unit_vec n i) (unit_vec n i) = 1.
Proof.
  intros Hi. rewrite dotR_unit; auto; [|unfold unit_vec; rewrite map_length, seq_length; auto].
  unfold unit_vec. set (f := fun j => if Nat.eqb i j then 1 else 0). rewrite (nth_indep (map f (seq 0 n)) 0 (f 0%nat)) by (rewrite map_length, seq_length; auto).
  rewrite map_nth, seq_nth by auto. unfold f. simpl. rewrite Nat.eqb_refl. auto.
Qed.
Lemma sum_nth_sq u : sumR (map (fun i => nth i u 0 * nth i u 0) (seq 0 (length u))) = dotR u u.
Proof.
  induction u as [|a u IH]; [reflexivity|]. rewrite dotR_cons. cbn [length seq map]. rewrite <- seq_shift, map_map.
  change (sumR (?x :: ?l)) with (x + sumR l). cbn [nth]. f_equal. exact IH.
Qed.
Lemma orthogonal_bound n us : (forall u, In u us -> length u = n) -> orthogonal us -> (length us <= n)%nat.
Proof.
  intros Hl HO. apply INR_le.
  assert (S1 : sumR (map (fun i => sumR (map (frac (unit_vec n i)) us)) (seq 0 n)) <= INR n).
  { assert (L : forall l, (forall i, In i l -> (i < n)%nat) -> sumR (map (fun i => sumR (map (frac (unit_vec n i)) us)) l) <= INR (length l)).
    { induction l as [|i l IH]; intros HI; [simpl; lra|]. cbn [map length]. change (sumR (?x :: ?l)) with (x + sumR l). rewrite S_INR.
      specialize (IH (fun j Hj => HI j (or_intror Hj))). pose proof (bessel n us (unit_vec n i)) as B. rewrite dotR_unit_self in B by (apply HI; left; auto).
      specialize (B ltac:(unfold unit_vec; rewrite map_length, seq_length; auto) Hl HO). lra. }
    specialize (L (seq 0 n)). rewrite seq_length in L. apply L. intros i Hi. apply in_seq in Hi. lia. }
  assert (S2 : sumR (map (fun i => sumR (map (frac (unit_vec n i)) us)) (seq 0 n)) = INR (length us)).
  { clear S1. induction us as [|u us IH].
    - simpl. rewrite sumR_map_0; auto.
    - cbn [map length]. rewrite S_INR, <- IH; [|intros; apply Hl; right; auto|apply HO].
      rewrite (sumR_map_ext _ (fun i => frac (unit_vec n i) u + sumR (map (frac (unit_vec n i)) us))) by reflexivity. rewrite sumR_map_add.
      assert (E : sumR (map (fun i => frac (unit_vec n i) u) (seq 0 n)) = 1); [|lra].
      assert (Lu : length u = n) by (apply Hl; left; auto). destruct HO as (Hu & _).
      rewrite (sumR_map_ext _ (fun i => / dotR u u * (nth i u 0 * nth i u 0))).
      + rewrite sumR_map_scal. rewrite <- Lu, sum_nth_sq. field. lra.
      + intros i Hi. apply in_seq in Hi. unfold frac. rewrite dotR_unit by (auto; lia). field. lra. }
  lra.
Qed.

(** *** the orthogonality invariant *)
Section Orth.
  Variables (g : tree) (hvp : xtree -> xtree) (h : tree -> tree) (D e : R).
  Hypotheses (HD : 0 < D) (He : 0 < e) (Hc : computes hvp h (shape g)) (HS : symmetric_op h (shape g)).
  Let sh := shape g.
  Let Hs : forall u, shape u = sh -> shape (h u) = sh. Proof. intros u Hu. apply Hc. auto. Qed.
  Fixpoint torth (rs : list tree) : Prop :=
    match rs with [] => True | r :: rs' => 0 < tdot r r /\ (forall q, In q rs' -> tdot r q = 0) /\ torth rs' end.
  (** rs, ds: the earlier residuals and directions; r, d: the current ones; z the current point *)
  Definition orth_inv (rs ds : list tree) (z r d : tree) : Prop :=
    (forall q, In q rs -> shape q = sh) /\ (forall q, In q ds -> shape q = sh) /\ torth rs /\ (forall q, In q rs -> tdot r q = 0) /\
    (forall q, In q ds -> tdot r q = 0 /\ tdot d (h q) = 0) /\
    (forall w q, In q (r :: rs) -> (forall p, In p (d :: ds) -> tdot w p = 0) -> tdot w q = 0) /\
    (forall w q, In q ds -> (forall p, In p (r :: rs) -> tdot w p = 0) -> tdot w (h q) = 0) /\
    (forall w, (forall p, In p ds -> tdot w p = 0) -> tdot w z = 0) /\ 0 <= tdot z d.
  Definition ghost (s : cg_state) : Prop :=
    (exists z d r rs ds, cg_inv sh D s z d r /\ length rs = s_iter s /\ orth_inv rs ds z r d) \/
    ((s_iter s <= length (concat g))%nat /\ exists z, cg_term sh D s z).
  Lemma torth_bound rs : (forall q, In q rs -> shape q = sh) -> torth rs -> (length rs <= length (concat g))%nat.
  Proof.
    intros HSh HO. replace (length rs) with (length (map (fun t : tree => concat t) rs)) by apply map_length. apply orthogonal_bound.
    - intros u Hu. apply in_map_iff in Hu as (q & <- & Hq). apply concat_length_shape. rewrite HSh; auto.
    - clear HSh. induction rs as [|r rs IH]; simpl; auto. destruct HO as (H1 & H2 & H3). split; auto. split; auto.
      intros v Hv. apply in_map_iff in Hv as (q & <- & Hq). apply H2. auto.
  Qed.
  Lemma orth_init : orth_inv [] [] (tscal 0 g) g (tscal (-1) g).
  Proof.
    unfold orth_inv. split; [intros ? []|]. split; [intros ? []|]. split; [exact I|]. split; [intros ? []|]. split; [intros ? []|]. split; [|split; [intros w q []|split]].
    - intros w q [<-|[]] Hp. specialize (Hp (tscal (-1) g) (or_introl eq_refl)). rewrite tdot_scal_r in Hp. lra.
    - intros w _. rewrite tdot_scal_r. ring.
    - rewrite tdot_scal_l. lra.
  Qed.
  Lemma orth_step rs ds z r d : shape z = sh -> shape r = sh -> shape d = sh -> orth_inv rs ds z r d -> 0 < tdot r r -> tdot r d = - tdot r r ->
    0 < tdot d (h d) -> let alpha := tdot r r / tdot d (h d) in let r' := taxpy r alpha (h d) in
    orth_inv (r :: rs) (d :: ds) (taxpy z alpha d) r' (taxpy (tscal (-1) r') (tdot r' r' / tdot r r) d).
  Proof.
    intros Sz Sr Sd (O1 & O2 & O3 & O4 & O5 & O6 & O7 & O8 & O9) Hrr Hrd Hk alpha r'. set (beta := tdot r' r' / tdot r r). set (d' := taxpy (tscal (-1) r') beta d).
    pose proof (Hs d Sd) as Shd. assert (Ap : 0 < alpha) by (apply Rmult_lt_0_compat; auto; apply Rinv_0_lt_compat; auto).
    assert (Sr' : shape r' = sh) by (unfold r'; rewrite taxpy_shape; congruence).
    assert (Sd' : shape d' = sh) by (unfold d'; rewrite taxpy_shape; rewrite shape_scal; congruence).
    assert (R' : forall w, tdot w r' = tdot w r + alpha * tdot w (h d)) by (intros w; unfold r'; apply tdot_axpy_r; congruence).
    assert (D' : forall w, tdot w d' = - tdot w r' + beta * tdot w d) by (intros w; unfold d'; rewrite tdot_axpy_r by (rewrite shape_scal; congruence); rewrite tdot_scal_r; ring).
    assert (Rd : tdot r' d = 0).
    { rewrite tdot_comm, R', (tdot_comm d r), Hrd. unfold alpha. field. lra. }
    assert (Rds : forall q, In q (d :: ds) -> tdot r' q = 0).
    { intros q [<-|Hq]; auto. rewrite tdot_comm, R', (tdot_comm q r). destruct (O5 q Hq) as [Q1 Q2]. rewrite Q1.
      rewrite <- (HS q d (O2 q Hq) Sd). rewrite (tdot_comm (h q) d), Q2. ring. }
    assert (Rrs : forall q, In q (r :: rs) -> tdot r' q = 0) by (intros q Hq; apply O6; auto).
    unfold orth_inv. split; [intros q [<-|Hq]; auto|]. split; [intros q [<-|Hq]; auto|]. split; [simpl; auto|]. split; [auto|]. split.
    { intros q Hq. split; [auto|]. rewrite tdot_comm, D'. destruct Hq as [<-|Hq].
      - assert (E1 : tdot (h d) r' = tdot r' r' / alpha).
        { assert (RR : tdot r' r' = tdot r' r + alpha * tdot r' (h d)) by (apply R'). rewrite (Rrs r (or_introl eq_refl)) in RR.
          rewrite (tdot_comm (h d) r'). rewrite RR. field. lra. }
        rewrite E1, (tdot_comm (h d) d). unfold beta, alpha. field. lra.
      - destruct (O5 q Hq) as [_ Q2]. rewrite (tdot_comm (h q) d), Q2, (tdot_comm (h q) r'), (O7 r' q Hq); auto. ring. }
    split.
    { intros w q Hq Hp. destruct Hq as [<-|Hq].
      - pose proof (Hp d' (or_introl eq_refl)) as P1. pose proof (Hp d (or_intror (or_introl eq_refl))) as P2. rewrite D', P2 in P1. lra.
      - apply O6; auto. intros p Hpp. apply Hp. right. auto. }
    split.
    { intros w q Hq Hp. destruct Hq as [<-|Hq].
      - pose proof (Hp r' (or_introl eq_refl)) as P1. pose proof (Hp r (or_intror (or_introl eq_refl))) as P2. rewrite R', P2 in P1.
        destruct (Rmult_integral alpha (tdot w (h d))) as [E|E]; lra.
      - apply O7; auto. intros p Hpp. apply Hp. right. auto. }
    split.
    { intros w Hp. rewrite tdot_axpy_r by congruence. rewrite (Hp d (or_introl eq_refl)), O8; [ring|]. intros p Hpp. apply Hp. right. auto. }
    assert (Zr : tdot (taxpy z alpha d) r' = 0).
    { rewrite tdot_comm, tdot_axpy_r by congruence. rewrite Rd, O8; [ring|]. intros p Hpp. apply Rds. right. auto. }
    rewrite D', Zr, tdot_axpy_l by congruence. pose proof (tdot_nonneg d). pose proof (tdot_nonneg r').
    assert (0 <= beta) by (apply Rmult_le_pos; auto; left; apply Rinv_0_lt_compat; auto).
    assert (0 <= tdot z d + alpha * tdot d d) by (assert (0 <= alpha * tdot d d) by (apply Rmult_le_pos; lra); lra).
    assert (0 <= beta * (tdot z d + alpha * tdot d d)) by (apply Rmult_le_pos; auto). lra.
  Qed.
  Lemma ghost_init : ghost (cg_init (fin g)).
  Proof. left. exists (tscal 0 g), (tscal (-1) g), g, [], []. split; [apply cg_inv_init; auto|]. split; [reflexivity|apply orth_init]. Qed.
  Lemma ghost_step s : ghost s -> cg_cond D (Fin e) s = true -> ghost (cg_step hvp D s).
  Proof.
    intros [(z & d & r & rs & ds & HI & HLen & HO)|(_ & z & HT)] HC; [|rewrite (cg_term_cond _ _ _ _ _ HT) in HC; discriminate].
    pose proof HI as (_ & (Sz & Sd & Sr) & Hrd & _). destruct (Hc d Sd) as (Eh & Shd).
    destruct (cg_inv_step _ _ _ _ _ _ _ _ _ HD He HI HC Eh Shd) as (Hrr & [(K & I)|(K & tau & Ht & Ha & T)]).
    - left. eexists _, _, _, (r :: rs), (d :: ds). split; [exact I|]. split; [rewrite cg_step_iter; simpl; lia|]. apply orth_step; auto.
    - right. split; [|eauto]. rewrite cg_step_iter, <- HLen. destruct HO as (O1 & _ & O3 & O4 & _).
      pose proof (torth_bound (r :: rs)) as B. simpl in B. rewrite Nat.add_1_r. apply B; auto. intros q [<-|Hq]; auto.
  Qed.
  Lemma ghost_loop mi : ghost (cg_loop g hvp D (Fin e) mi).
  Proof. unfold cg_loop. apply while_inv; [apply ghost_step|apply ghost_init]. Qed.
  Lemma ghost_bound s : ghost s -> (s_iter s <= length (concat g))%nat /\ (s_iter s = length (concat g) -> cg_cond D (Fin e) s = false).
  Proof.
    intros [(z & d & r & rs & ds & HI & HLen & HO)|(HB & z & HT)]; [|split; auto; intros _; apply (cg_term_cond _ _ _ _ _ HT)].
    destruct HO as (O1 & _ & O3 & O4 & _). rewrite <- HLen. split; [apply torth_bound; auto|]. intros E.
    rewrite (cg_inv_cond _ _ _ _ _ _ _ HD HI). unfold Rleb. destruct (Rle_dec e (tnorm r)) as [L|]; auto. exfalso.
    assert (Hrr : 0 < tdot r r) by (rewrite <- tnorm_sq; nra). pose proof HI as (_ & (_ & _ & Sr) & _).
    pose proof (torth_bound (r :: rs)) as B. simpl in B. specialize (B ltac:(intros q [<-|Hq]; auto) ltac:(auto)). lia.
  Qed.
End Orth.

Lemma steihaug_terminates_lemma g hvp h D e mi : 0 < D -> 0 < e -> computes hvp h (shape g) -> symmetric_op h (shape g) ->
  let res := steihaug (fin g) hvp D (Fin e) mi in
  (cg_iter res <= length (concat g))%nat /\ ((length (concat g) <= iter_limit g mi)%nat -> cg_converged res = true).
Proof.
  intros HD He Hc HS res. unfold res. pose proof (steihaug_iter_lemma g hvp D (Fin e) mi) as [_ HI]. cbv zeta in HI.
  rewrite steihaug_unfold in *. cbn [cg_iter cg_converged] in *.
  destruct (ghost_bound g h D e HD He _ (ghost_loop g hvp h D e HD He Hc HS mi)) as [B1 B2]. split; auto.
  intros Hm. destruct (negb (cg_cond D (Fin e) (cg_loop g hvp D (Fin e) mi))) eqn:E; auto. specialize (HI eq_refl).
  rewrite B2 in E by lia. discriminate.
Qed.
(** the step length grows with every iteration *)
Lemma ghost_grow g hvp h D e s : 0 < D -> 0 < e -> computes hvp h (shape g) -> symmetric_op h (shape g) ->
  ghost g h D s -> cg_cond D (Fin e) s = true -> exists z z', s_z s = fin z /\ s_z (cg_step hvp D s) = fin z' /\ tnorm z < tnorm z'.
Proof.
  intros HD He Hc HS [(z & d & r & rs & ds & HI & HLen & HO)|(_ & z & HT)] HC; [|rewrite (cg_term_cond _ _ _ _ _ HT) in HC; discriminate].
  pose proof HI as ((Ez & _) & (Sz & Sd & Sr) & Hrd & _ & Hz & _). destruct (Hc d Sd) as (Eh & Shd).
  destruct (cg_inv_step _ _ _ _ _ _ _ _ _ HD He HI HC Eh Shd) as (Hrr & [(K & I)|(K & tau & Ht & Ha & T)]).
  - pose proof I as ((Ez' & _) & _). exists z. eexists. split; [exact Ez|]. split; [exact Ez'|].
    assert (Ap : 0 < tdot r r / tdot d (h d)) by (apply Rmult_lt_0_compat; auto; apply Rinv_0_lt_compat; auto).
    assert (Hdd : 0 < tdot d d).
    { destruct (Req_dec (tdot d d) 0) as [E0|N]; [|pose proof (tdot_nonneg d); lra]. exfalso.
      pose proof (tdot_cs r d ltac:(congruence)) as CS. rewrite E0, Hrd in CS. nra. }
    destruct HO as (_ & _ & _ & _ & _ & _ & _ & _ & O9). set (a := tdot r r / tdot d (h d)) in *.
    unfold tnorm. apply sqrt_lt_1_alt. split; [apply tdot_nonneg|]. rewrite tdot_axpy_l, !tdot_axpy_r by congruence. rewrite (tdot_comm d z).
    clearbody a. assert (0 < a * (a * tdot d d)) by (apply Rmult_lt_0_compat; [|apply Rmult_lt_0_compat]; auto). assert (0 <= a * tdot z d) by (apply Rmult_le_pos; lra). nra.
  - pose proof T as (Ez' & _ & Ht' & _). exists z, (taxpy z tau d). split; auto. split; auto. lra.
Qed.
Lemma loop_monotone g hvp h D e : 0 < D -> 0 < e -> computes hvp h (shape g) -> symmetric_op h (shape g) ->
  forall n s z, ghost g h D s -> s_z s = fin z -> exists z', s_z (while_loop n (cg_cond D (Fin e)) (cg_step hvp D) s) = fin z' /\ tnorm z <= tnorm z'.
Proof.
  intros HD He Hc HS. induction n as [|n IH]; intros s z HG Ez; simpl; [exists z; split; auto; lra|].
  destruct (cg_cond D (Fin e) s) eqn:EC; [|exists z; split; auto; lra].
  destruct (ghost_grow g hvp h D e s HD He Hc HS HG EC) as (z0 & z1 & E0 & E1 & HLt).
  assert (z0 = z) by (apply fin_inj; congruence). subst z0.
  destruct (IH (cg_step hvp D s) z1 (ghost_step g hvp h D e HD He Hc HS s HG EC) E1) as (z' & E' & HLe). exists z'. split; auto. lra.
Qed.
Lemma while_add {A} (cond : A -> bool) body : forall m n s, while_loop (m + n) cond body s = while_loop n cond body (while_loop m cond body s).
Proof.
  induction m as [|m IH]; intros n s; simpl; auto. destruct (cond s) eqn:E; auto. clear IH. destruct n; simpl; auto. rewrite E. auto.
Qed.
Lemma steihaug_longer_lemma g hvp h D e m n : 0 < D -> 0 < e -> computes hvp h (shape g) -> symmetric_op h (shape g) ->
  (m <= n)%nat -> exists p q, cg_p (steihaug (fin g) hvp D (Fin e) (Some m)) = fin p /\ cg_p (steihaug (fin g) hvp D (Fin e) (Some n)) = fin q /\ tnorm p <= tnorm q.
Proof.
  intros HD He Hc HS Hmn. rewrite !steihaug_unfold. cbn [cg_p]. unfold cg_loop at 2. cbn [iter_limit]. replace n with (m + (n - m))%nat by lia. rewrite while_add.
  pose proof (ghost_loop g hvp h D e HD He Hc HS (Some m)) as HG. unfold cg_loop in HG |- *. cbn [iter_limit] in *.
  assert (exists z, s_z (while_loop m (cg_cond D (Fin e)) (cg_step hvp D) (cg_init (fin g))) = fin z) as [z Ez].
  { destruct HG as [(z & d & r & rs & ds & HI & _)|(_ & z & HT)]; exists z; [apply HI|apply HT]. }
  destruct (loop_monotone g hvp h D e HD He Hc HS (n - m) _ z HG Ez) as (z' & E' & HLe). exists z, z'. auto.
Qed.
