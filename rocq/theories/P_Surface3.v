(** Proofs about surface_integral.py, part 3: charge tensor, Taylor polynomials,
    the single layer potential. *)
From Coquelicot Require Import Coquelicot.
From Verif Require Import Base BaseFacts P_Vec M_Tensor M_Calc S_Calc P_AD P_Calc P_Calc2 S_Model P_Model.
From Verif Require Import M_Integrate S_Integrate P_Integrate1 P_Integrate2 P_Integrate3 T_Integrate.
From Verif Require Import M_Surface S_Surface P_Surface1 P_Surface2.

(** ** charge tensor *)
Lemma repD_ext n D s F f g : (forall p x, inside s p -> f p x = g p x) -> repD n D s F f -> repD n D s F g.
Proof.
  intros H HF t Ht Dt. destruct (HF t Ht Dt) as (y & E & S & V). exists y. repeat split; auto.
  intros p Hp. rewrite V, H by auto. reflexivity.
Qed.
Lemma inside_app_inv s t pq : inside (s ++ t) pq -> exists p q, pq = p ++ q /\ inside s p /\ inside t q.
Proof.
  unfold inside. intros H. apply Forall2_app_inv_r in H. destruct H as (p & q & H1 & H2 & E). eauto.
Qed.
Lemma pds_snoc l a f : pds (l ++ [a]) f = pd a (pds l f).
Proof. unfold pds. rewrite fold_left_app. reflexivity. Qed.

(** derivatives of order [i] of all entries *)
Definition ders (s : list nat) (f : list nat -> list R -> R) (pq : list nat) : list R -> R :=
  pds (skipn (length s) pq) (f (firstn (length s) pq)).
Lemma ders_app s f p q : inside s p -> ders s f (p ++ q) = pds q (f p).
Proof.
  intros Hp. unfold ders. rewrite <- (inside_length _ _ Hp), firstn_app, firstn_all, skipn_app, skipn_all, Nat.sub_diag.
  cbn [firstn skipn app]. rewrite app_nil_r. reflexivity.
Qed.
Lemma ders_0 D s F f : repD 3 D s F f -> repD 3 D (s ++ threes 0) F (ders s f).
Proof.
  intros H. cbn [threes repeat]. rewrite app_nil_r. eapply repD_ext; [|exact H].
  intros p x Hp. rewrite <- (app_nil_r p) at 2. rewrite ders_app by auto. reflexivity.
Qed.
Lemma ders_S D s F f i : openset 3 D -> repD 3 D (s ++ threes i) F (ders s f) ->
  repD 3 D (s ++ threes (S i)) (jacfwd F) (ders s f).
Proof.
  intros HO H. apply (jacfwd_repD 3 D) in H; auto. rewrite <- app_assoc, threes_snoc in H.
  eapply repD_ext; [|exact H]. intros pq x Hpq. cbv beta.
  rewrite <- threes_snoc, app_assoc in Hpq. destruct (inside_snoc _ _ _ Hpq) as (pq' & a & -> & Hpq' & Ha).
  destruct (inside_app_inv _ _ _ Hpq') as (p & q & -> & Hp & Hq).
  rewrite last_last, removelast_last, <- app_assoc, !ders_app, pds_snoc by auto. reflexivity.
Qed.

Lemma charge_terms_ok D s f c : openset 3 D -> shape c = [3%nat] -> D (tlist c) -> nprod s <> 0%nat ->
  forall r i F, repD 3 D (s ++ threes i) F (ders s f) ->
  exists l, charge_terms r i F s c = Ok l /\ length l = r /\
    forall j a, nth_error l j = Some a -> shape a = s ++ [(3 ^ (S (i + j)))%nat] /\
      forall p m, inside s p -> (m < 3 ^ (S (i + j)))%nat ->
        entry a (p ++ [m]) = pds (unravel (threes (S (i + j))) m) (f p) (tlist c) / INR (fact (S (i + j))).
Proof.
  intros HO Sc Dc Ns. induction r as [|r IH]; intros i F HF.
  - exists []. split; [reflexivity|]. split; [reflexivity|]. intros [|j] a H; discriminate H.
  - pose proof (ders_S D s F f i HO HF) as HJ. cbn [charge_terms].
    destruct (HJ c Sc Dc) as (v & -> & Sv & Vv). cbn [bind].
    replace (i + 1)%nat with (S i) by lia.
    destruct (IH (S i) (jacfwd F) HJ) as (l & -> & Ll & Hl). cbn [bind].
    assert (Ek : (nprod (shape (tmap (fun e => (e / INR (fact (S i)))%R) v)) / nprod s)%nat = nprod (threes (S i))).
    { cbn [tmap shape]. rewrite Sv, nprod_app, Nat.mul_comm, Nat.div_mul by auto. reflexivity. }
    cbv zeta. rewrite Ek.
    remember (treshape (s ++ [nprod (threes (S i))]) (tmap (fun e => e / INR (fact (S i))) v)) as h eqn:Eh.
    exists (h :: l). split; [reflexivity|]. split; [cbn; lia|]. intros [|j] a Ha; cbn [nth_error] in Ha.
    + injection Ha as Ha. rewrite <- Ha. rewrite Nat.add_0_r. split.
      * rewrite Eh. cbn [treshape shape]. rewrite nprod_threes. reflexivity.
      * intros p m Hp Hm. rewrite <- nprod_threes in Hm. rewrite Eh.
        rewrite (reshape_last s (threes (S i))) by (auto; exact Sv).
        cbn [tmap entry]. rewrite Vv. 2:{ apply inside_app; auto. apply unravel_inside; auto. }
        rewrite ders_app by auto. reflexivity.
    + specialize (Hl j a Ha). rewrite Nat.add_succ_r. exact Hl.
Qed.

Lemma swap_ends_snoc {A} (s : list A) L : swap_ends (s ++ [L]) = L :: rot s.
Proof.
  destruct s as [|a s]; [reflexivity|]. destruct s as [|b s]; [reflexivity|].
  cbn [app swap_ends rot]. rewrite last_last. change (b :: s ++ [L]) with ((b :: s) ++ [L]). rewrite removelast_last. reflexivity.
Qed.
Lemma swap_ends_rot {A} (p : list A) m : swap_ends (m :: rot p) = p ++ [m].
Proof.
  destruct p as [|a p]; [reflexivity|]. cbn [rot]. destruct p as [|b p]; [reflexivity|].
  cbn [app swap_ends]. rewrite last_last. change (b :: p ++ [a]) with ((b :: p) ++ [a]). rewrite removelast_last. reflexivity.
Qed.
Lemma inside_rot s p : inside s p -> inside (rot s) (rot p).
Proof.
  destruct 1 as [|i n p s Hi H]; [constructor|]. cbn [rot]. apply Forall2_app; auto.
Qed.
Lemma nprod_rot s : nprod (rot s) = nprod s.
Proof. destruct s as [|a s]; [reflexivity|]. cbn [rot]. rewrite nprod_app. change (nprod (a :: s)) with (a * nprod s)%nat. unfold nprod at 2. cbn. lia. Qed.

Definition coef (g : list R -> R) (c : list R) (idx : list nat) : R := pds idx g c / INR (fact (length idx)).

Lemma unravel_length s k : length (unravel s k) = length s.
Proof. revert k. induction s as [|a s IH]; intros k; cbn [unravel length]; auto. Qed.

Lemma charge_at_ok D s f F c o : openset 3 D -> shape c = [3%nat] -> D (tlist c) -> nprod s <> 0%nat ->
  repD 3 D s F f ->
  exists Y, charge_at F o c = Ok Y /\ shape Y = nmulti (S o) 0 :: rot s /\
    forall p m, inside s p -> (m < nmulti (S o) 0)%nat ->
      entry Y (m :: rot p) = coef (f p) (tlist c) (multi (S o) 0 m).
Proof.
  intros HO Sc Dc Ns HF. unfold charge_at. destruct (HF c Sc Dc) as (v0 & E0 & S0 & V0). rewrite E0. cbn [bind].
  destruct (charge_terms_ok D s f c HO Sc Dc Ns o 0 F (ders_0 D s F f HF)) as (l & El & Ll & Hl).
  rewrite S0, El. cbn [bind].
  destruct (tconcat_multi (fun q idx => coef (f q) (tlist c) idx) s
              (mkT (s ++ [1%nat]) (fun p => entry v0 (removelast p)) :: l)) as (T & ET & ST & VT).
  - discriminate.
  - intros [|j] a Ha; cbn [nth_error] in Ha.
    + injection Ha as <-. split; [reflexivity|]. intros q r Hq Hr. cbn [entry]. rewrite removelast_last, V0 by auto.
      unfold coef. cbn. field.
    + destruct (Hl j a Ha) as (Sa & Va). cbn [Nat.add] in Sa, Va. split; [exact Sa|].
      intros q r Hq Hr. rewrite Va by auto. unfold coef. rewrite unravel_length, threes_length. reflexivity.
  - rewrite ET. cbn [bind]. cbn [length] in ST, VT. rewrite Ll in ST, VT.
    eexists. split; [reflexivity|]. cbn [tswap shape entry]. rewrite ST. split; [apply swap_ends_snoc|].
    intros p m Hp Hm. rewrite swap_ends_rot. apply VT; auto.
Qed.

Lemma nth_error_seq0 n i : (i < n)%nat -> nth_error (seq 0 n) i = Some i.
Proof.
  intros H. rewrite (nth_error_nth' _ 0%nat) by (rewrite seq_length; auto). rewrite seq_nth by auto. reflexivity.
Qed.

Lemma charge_tensor_ok P pf u v f args s g D order : (2 <= length u)%nat -> (2 <= length v)%nat ->
  nondecreasing u -> nondecreasing v -> parametrizes P pf u v -> openset 3 D ->
  (forall y, on_surface pf u v y -> D y) -> nprod s <> 0%nat -> repD 3 D s (fun x => f (x :: args)) g ->
  (0 <= order)%Z ->
  let L := nmulti (S (Z.to_nat order)) 0 in
  let sh := [length u - 1; length v - 1; L]%nat in
  exists C, charge_tensor f P u v args order = Ok C /\ shape C = nprod sh :: rot s /\
    forall p k, inside s p -> (k < nprod sh)%nat ->
      entry C (k :: rot p) =
        match unravel sh k with
        | [i; j; m] => coef (g p) (point pf [middle u i; middle v j]) (multi (S (Z.to_nat order)) 0 m)
        | _ => 0
        end.
Proof.
  intros Hu Hv Nu Nv HP HO HD Ns Hf Ho L sh. set (o := Z.to_nat order) in *. unfold charge_tensor.
  rewrite (proj2 (Z.leb_le _ _) Ho). cbn [assert_ bind]. fold o.
  destruct (midpoints_ok P pf u v) as (C & EC & SC & VC); auto. rewrite EC. cbn [bind]. rewrite SC.
  set (fx := fun x => f (x :: args)) in *.
  assert (On : forall i j, (S i < length u)%nat -> (S j < length v)%nat ->
     exists Y, charge_at fx o (trow (trow C i) j) = Ok Y /\ shape Y = L :: rot s /\
       forall p m, inside s p -> (m < L)%nat ->
         entry Y (m :: rot p) = coef (g p) (point pf [middle u i; middle v j]) (multi (S o) 0 m)).
  { intros i j Hi Hj. rewrite <- (VC i j Hi Hj). apply (charge_at_ok D s g fx); auto.
    - cbn [trow shape]. rewrite SC. reflexivity.
    - apply HD. rewrite VC by auto. exists [middle u i; middle v j]. split; auto.
      eapply (rect_cell u v i j); auto. apply rect_middle; auto. }
  set (inner := fun i => vmapT (fun j => charge_at fx o (trow (trow C i) j)) (seq 0 (length v - 1))).
  assert (In1 : forall i, (S i < length u)%nat -> exists Y, inner i = Ok Y /\ shape Y = (length v - 1)%nat :: L :: rot s /\
     forall j p m, (S j < length v)%nat -> inside s p -> (m < L)%nat ->
         entry Y (j :: m :: rot p) = coef (g p) (point pf [middle u i; middle v j]) (multi (S o) 0 m)).
  { intros i Hi. unfold inner.
    destruct (vmapT_ok (fun j => charge_at fx o (trow (trow C i) j)) (seq 0 (length v - 1)) (L :: rot s)
       (fun j Y => forall p m, inside s p -> (m < L)%nat ->
         entry Y (m :: rot p) = coef (g p) (point pf [middle u i; middle v j]) (multi (S o) 0 m))) as (Y & EY & SY & VY).
    - destruct (length v) as [|[|n]]; try lia. discriminate.
    - intros j Hj. apply in_seq in Hj. apply On; auto. lia.
    - exists Y. split; auto. rewrite seq_length in SY. split; auto. intros j p m Hj Hp Hm.
      destruct (VY j j (nth_error_seq0 (length v - 1) j ltac:(lia))) as (y & _ & _ & Q & Ent). rewrite Ent. apply Q; auto. }
  destruct (vmapT_ok inner (seq 0 (length u - 1)) ((length v - 1)%nat :: L :: rot s)
       (fun i Y => forall j p m, (S j < length v)%nat -> inside s p -> (m < L)%nat ->
         entry Y (j :: m :: rot p) = coef (g p) (point pf [middle u i; middle v j]) (multi (S o) 0 m))) as (F & EF & SF & VF).
  - destruct (length u) as [|[|n]]; try lia. discriminate.
  - intros i Hi. apply in_seq in Hi. apply In1. lia.
  - rewrite EF. cbn [bind]. rewrite seq_length in SF.
    assert (SF' : shape F = sh ++ rot s) by exact SF.
    assert (Esk : skipn 3 (shape F) = rot s) by (rewrite SF; reflexivity). rewrite Esk.
    assert (En : (nprod (shape F) / nprod (rot s))%nat = nprod sh).
    { rewrite SF', nprod_app. apply Nat.div_mul. rewrite nprod_rot. auto. }
    rewrite En. eexists. split; [reflexivity|]. split; [reflexivity|].
    intros p k Hp Hk. rewrite (reshape_first sh (rot s)) by (auto using inside_rot).
    destruct (unravel_inside sh k Hk) as (I1 & _).
    remember (unravel sh k) as q eqn:Eq. clear Eq. unfold sh in I1.
    inversion I1 as [|i ? l1 ? Hi I2 E1]; subst. inversion I2 as [|j ? l2 ? Hj I3 E2]; subst.
    inversion I3 as [|m ? l3 ? Hm I4 E3]; subst. inversion I4; subst. cbn [app].
    destruct (VF i i (nth_error_seq0 (length u - 1) i ltac:(lia))) as (y & _ & _ & Q & Ent). rewrite Ent. apply Q; auto. lia.
Qed.

(** ** Taylor polynomials *)
Lemma sum_dirder k : forall f c d,
  lsum (3 ^ k) (fun r => pds (unravel (threes k) r) f c * mono d (unravel (threes k) r)) = dirder k f c d.
Proof.
  induction k as [|k IH]; intros f c d.
  - cbn. unfold mono, prodR, lsum, sumR. cbn. ring.
  - rewrite <- nprod_threes.
    change (threes (S k)) with (3%nat :: threes k).
    rewrite (sum_unravel 3 (threes k) (fun idx => pds idx f c * mono d idx)). cbn [dirder]. change total with lsum.
    apply lsum_ext. intros i _. rewrite nprod_threes, <- IH, <- lsum_scal. apply lsum_ext. intros r _.
    unfold mono. cbn [map]. change (prodR (?u :: ?v)) with (u * prodR v).
    change (pds (i :: ?l) f) with (pds l (pd i f)). ring.
Qed.

Lemma sum_taylor n f c d :
  lsum (nmulti (S n) 0) (fun m => coef f c (multi (S n) 0 m) * mono d (multi (S n) 0 m)) =
  total (S n) (fun k => dirder k f c d / INR (fact k)).
Proof.
  rewrite (sum_multi (fun idx => coef f c idx * mono d idx)). change total with lsum. apply lsum_ext. intros k _.
  rewrite Nat.add_0_l. rewrite <- sum_dirder. unfold Rdiv. rewrite Rmult_comm, <- lsum_scal. apply lsum_ext. intros r _.
  unfold coef. rewrite unravel_length, threes_length. unfold Rdiv. ring.
Qed.

Lemma upd_self (l : list R) i : (i < length l)%nat -> upd l i (nth i l 0) = l.
Proof. revert i. induction l as [|a l IH]; intros [|i] H; cbn in *; try lia; auto. rewrite IH by lia. auto. Qed.

Lemma poly_smooth n f : poly n f -> forall x i, length x = 3%nat -> (i < 3)%nat ->
  ex_derive (fun t => f (upd x i t)) (nth i x 0).
Proof.
  induction 1 as [n c|n j f Hj Hf IH|n f g Hf IHf Hg IHg|n f g Hf IH E]; intros x i Hx Hi.
  - apply ex_derive_const.
  - apply (ex_derive_mult (fun t => nth j (upd x i t) 0) (fun t => f (upd x i t))); [|apply IH; auto].
    destruct (Nat.eq_dec i j) as [->|Hn].
    + apply (ex_derive_ext (fun t => t)); [|apply ex_derive_id]. intros t. rewrite upd_nth_same by lia. reflexivity.
    + apply (ex_derive_ext (fun t => nth j x 0)); [|apply ex_derive_const]. intros t. rewrite upd_nth_other by auto. reflexivity.
  - apply (ex_derive_plus (fun t => f (upd x i t)) (fun t => g (upd x i t))); auto.
  - apply (ex_derive_ext (fun t => f (upd x i t))); [|apply IH; auto]. intros t. apply E. rewrite upd_length. auto.
Qed.

Lemma pd_coord_mul i j (f : list R -> R) (x : list R) : length x = 3%nat -> (i < 3)%nat -> (j < 3)%nat ->
  ex_derive (fun t => f (upd x i t)) (nth i x 0) ->
  pd i (fun x => nth j x 0 * f x) x = (if Nat.eqb i j then f x else 0) + nth j x 0 * pd i f x.
Proof.
  intros Hx Hi Hj He. unfold pd at 1. rewrite (Derive_mult (fun t => nth j (upd x i t) 0) (fun t => f (upd x i t))).
  - cbv beta. rewrite (upd_self x i) by lia. unfold pd. destruct (Nat.eqb_spec i j) as [->|Hn].
    + rewrite (Derive_ext _ (fun t => t)) by (intros; rewrite upd_nth_same by lia; reflexivity). rewrite Derive_id. ring.
    + rewrite (Derive_ext _ (fun t => nth j x 0)) by (intros; rewrite upd_nth_other by auto; reflexivity).
      rewrite Derive_const. ring.
  - destruct (Nat.eq_dec i j) as [->|Hn].
    + apply (ex_derive_ext (fun t => t)); [|apply ex_derive_id]. intros t. rewrite upd_nth_same by lia. reflexivity.
    + apply (ex_derive_ext (fun t => nth j x 0)); [|apply ex_derive_const]. intros t. rewrite upd_nth_other by auto. reflexivity.
  - exact He.
Qed.
Lemma pd_plus_at i (f g : list R -> R) (x : list R) : ex_derive (fun t => f (upd x i t)) (nth i x 0) -> ex_derive (fun t => g (upd x i t)) (nth i x 0) ->
  pd i (fun x => f x + g x) x = pd i f x + pd i g x.
Proof. intros Hf Hg. unfold pd. apply (Derive_plus (fun t => f (upd x i t)) (fun t => g (upd x i t))); auto. Qed.
Lemma pd_same3 i (f g : list R -> R) (x : list R) : length x = 3%nat -> (forall x, length x = 3%nat -> f x = g x) -> pd i f x = pd i g x.
Proof. intros Hx H. unfold pd. apply Derive_ext. intros t. apply H. rewrite upd_length. auto. Qed.

Lemma poly_0_const' n f : poly n f -> n = 0%nat -> exists c, forall x, length x = 3%nat -> f x = c.
Proof.
  induction 1 as [n c|n j f Hj Hf IH|n f g Hf IHf Hg IHg|n f g Hf IH E]; intros En; try discriminate En.
  - exists c. auto.
  - destruct (IHf En) as (a & Ha). destruct (IHg En) as (b & Hb). exists (a + b). intros x Hx. rewrite (Ha x Hx), (Hb x Hx). reflexivity.
  - destruct (IH En) as (a & Ha). exists a. intros x Hx. rewrite <- (E x Hx). apply Ha. exact Hx.
Qed.
Lemma poly_0_const f : poly 0 f -> exists c, forall x, length x = 3%nat -> f x = c.
Proof. intros H. exact (poly_0_const' 0 f H eq_refl). Qed.
Lemma pd_const3 i c f x : length x = 3%nat -> (forall x, length x = 3%nat -> f x = c) -> pd i f x = 0.
Proof.
  intros Hx H. rewrite (pd_same3 i f (fun _ => c) x Hx H). unfold pd. apply Derive_const.
Qed.

Lemma poly_pd n f : poly n f -> forall i, (i < 3)%nat -> poly (pred n) (pd i f).
Proof.
  induction 1 as [n c|n j f Hj Hf IH|n f g Hf IHf Hg IHg|n f g Hf IH E]; intros i Hi.
  - apply (poly_same _ (fun _ => 0)); [constructor|]. intros x Hx. symmetry. unfold pd. apply Derive_const.
  - cbn [pred]. apply (poly_same _ (fun x => (if Nat.eqb i j then f x else 0) + nth j x 0 * pd i f x)).
    + apply poly_add; [destruct (Nat.eqb i j); [exact Hf|constructor]|].
      destruct n as [|n]; [|apply poly_mul; auto; apply IH; auto].
      destruct (poly_0_const f Hf) as (c & Hc). apply (poly_same _ (fun _ => 0)); [constructor|].
      intros x Hx. rewrite (pd_const3 i c f) by auto. ring.
    + intros x Hx. symmetry. apply pd_coord_mul; auto. eapply poly_smooth; eauto.
  - apply (poly_same _ (fun x => pd i f x + pd i g x)); [apply poly_add; auto|].
    intros x Hx. symmetry. apply pd_plus_at; eapply poly_smooth; eauto.
  - apply (poly_same _ (pd i f)); [auto|]. intros x Hx. apply pd_same3; auto.
Qed.

Lemma poly_line n f : poly n f -> forall c d t, length c = 3%nat -> length d = 3%nat ->
  is_derive (fun t => f (axpy t c d)) t (lsum 3 (fun i => nth i d 0 * pd i f (axpy t c d))).
Proof.
  induction 1 as [n k|n j f Hj Hf IH|n f g Hf IHf Hg IHg|n f g Hf IH E]; intros c d t Hc Hd.
  - rewrite (lsum_ext 3 _ (fun _ => 0)).
    + rewrite lsum_0. apply (is_derive_const k).
    + intros i _. unfold pd. rewrite Derive_const. ring.
  - assert (Ha : length (axpy t c d) = 3%nat) by (rewrite axpy_length; lia).
    specialize (IH c d t Hc Hd).
    assert (D1 : is_derive (fun t => nth j (axpy t c d) 0) t (nth j d 0)).
    { apply (is_derive_ext (fun t => nth j c 0 + t * nth j d 0)).
      - intros s. rewrite nth_axpy by lia. reflexivity.
      - auto_derive; [auto|ring]. }
    rewrite (lsum_ext 3 _ (fun i => f (axpy t c d) * (nth i d 0 * (if Nat.eqb i j then 1 else 0)) +
        nth j (axpy t c d) 0 * (nth i d 0 * pd i f (axpy t c d)))).
    + rewrite lsum_add, !lsum_scal, (lsum_pick 3 j (fun i => nth i d 0)) by auto.
      replace (f (axpy t c d) * nth j d 0 + nth j (axpy t c d) 0 * lsum 3 (fun i => nth i d 0 * pd i f (axpy t c d)))
        with (nth j d 0 * f (axpy t c d) + nth j (axpy t c d) 0 * lsum 3 (fun i => nth i d 0 * pd i f (axpy t c d))) by ring.
      apply (is_derive_mult (fun t => nth j (axpy t c d) 0) (fun t => f (axpy t c d)) t); auto. intros; apply Rmult_comm.
    + intros i Hi. rewrite pd_coord_mul; auto; [|eapply poly_smooth; eauto]. destruct (Nat.eqb i j); ring.
  - assert (Ha : length (axpy t c d) = 3%nat) by (rewrite axpy_length; lia).
    rewrite (lsum_ext 3 _ (fun i => nth i d 0 * pd i f (axpy t c d) + nth i d 0 * pd i g (axpy t c d))).
    + rewrite lsum_add. apply (is_derive_plus (fun t => f (axpy t c d)) (fun t => g (axpy t c d))); auto.
    + intros i Hi. rewrite pd_plus_at by (eapply poly_smooth; eauto). ring.
  - assert (Ha : forall t, length (axpy t c d) = 3%nat) by (intros; rewrite axpy_length; lia).
    apply (is_derive_ext (fun t => f (axpy t c d))); [intros; apply E; auto|].
    rewrite (lsum_ext 3 _ (fun i => nth i d 0 * pd i f (axpy t c d))); [apply IH; auto|].
    intros i Hi. rewrite (pd_same3 i f g) by auto. reflexivity.
Qed.

Lemma is_derive_lsum m (F : nat -> R -> R) (dF : nat -> R) t : (forall k, (k < m)%nat -> is_derive (F k) t (dF k)) ->
  is_derive (fun t => lsum m (fun k => F k t)) t (lsum m dF).
Proof.
  induction m as [|m IH]; intros H.
  - apply (is_derive_const 0).
  - rewrite lsum_S. apply (is_derive_ext (fun t => lsum m (fun k => F k t) + F m t)).
    + intros s. rewrite lsum_S. reflexivity.
    + apply (is_derive_plus (fun t => lsum m (fun k => F k t)) (F m)); auto.
Qed.

Lemma axpy_0 c d : length c = length d -> axpy 0 c d = c.
Proof.
  intros H. apply vec_ext; [apply axpy_length; auto|]. intros i Hi. rewrite nth_axpy by auto. ring.
Qed.

Lemma taylor_line n : forall f c d, poly n f -> length c = 3%nat -> length d = 3%nat -> forall t, 0 <= t <= 1 ->
  f (axpy t c d) = lsum (S n) (fun k => t ^ k / INR (fact k) * dirder k f c d).
Proof.
  induction n as [|n IH]; intros f c d Hf Hc Hd t Ht.
  - destruct (poly_0_const f Hf) as (a & Ha). rewrite lsum_S. unfold lsum. cbn.
    rewrite !Ha; auto; [field|rewrite axpy_length; lia].
  - set (G := fun t => f (axpy t c d) - lsum (S (S n)) (fun k => t ^ k / INR (fact k) * dirder k f c d)).
    assert (DG : forall s, 0 <= s <= t -> is_derive G s 0).
    { intros s Hs. unfold G.
      set (T := lsum 3 (fun i => nth i d 0 * pd i f (axpy s c d))).
      assert (ET : T = lsum (S n) (fun k => s ^ k / INR (fact k) * dirder (S k) f c d)).
      { unfold T. rewrite (lsum_ext 3 _ (fun i => lsum (S n) (fun k => s ^ k / INR (fact k) * (nth i d 0 * dirder k (pd i f) c d)))).
        - cbn [dirder]. clear.
          set (a := fun k i => nth i d 0 * dirder k (pd i f) c d).
          change (lsum 3 (fun i => lsum (S n) (fun k => s ^ k / INR (fact k) * a k i)) =
                  lsum (S n) (fun k => s ^ k / INR (fact k) * lsum 3 (a k))).
          generalize (S n) as m. induction m as [|m IHm].
          + unfold lsum at 2 3. cbn [seq map]. change (sumR []) with 0. apply lsum_0.
          + rewrite (lsum_S m (fun k => s ^ k / INR (fact k) * lsum 3 (a k))), <- IHm, <- lsum_scal, <- lsum_add. apply lsum_ext. intros i _. apply lsum_S.
        - intros i Hi. rewrite (IH (pd i f) c d); auto; [|exact (poly_pd _ _ Hf i Hi)|lra].
          rewrite <- lsum_scal. apply lsum_ext. intros k _. ring. }
      replace 0 with (T - lsum (S (S n)) (fun k => match k with O => 0 | S j => s ^ j / INR (fact j) * dirder (S j) f c d end)).
      2:{ rewrite (lsum_shift (S n)). rewrite <- ET. ring. }
      apply (is_derive_minus (fun t => f (axpy t c d)) (fun t => lsum (S (S n)) (fun k => t ^ k / INR (fact k) * dirder k f c d))).
      - eapply poly_line; eauto.
      - apply (is_derive_lsum (S (S n)) (fun k t => t ^ k / INR (fact k) * dirder k f c d)). intros [|j] _.
        + apply (is_derive_ext (fun _ => 1 / INR (fact 0) * dirder 0 f c d)); [intros; reflexivity|]. exact (is_derive_const (V := R_NormedModule) (1 / INR (fact 0) * dirder 0 f c d) s).
        + pose proof (INR_fact_neq_0 j) as N1. pose proof (INR_fact_neq_0 (S j)) as N2.
          apply (is_derive_ext (fun t => t ^ (S j) * (dirder (S j) f c d / INR (fact (S j))))).
          * intros z. match goal with |- @eq _ ?a ?b => change (@eq R a b) end. unfold Rdiv. ring.
          * replace (s ^ j / INR (fact j) * dirder (S j) f c d)
              with (INR (S j) * s ^ j * (dirder (S j) f c d / INR (fact (S j)))).
            { apply (is_derive_ext (fun t => (dirder (S j) f c d / INR (fact (S j))) * t ^ S j)); [intros z; match goal with |- @eq _ ?a ?b => change (@eq R a b) end; ring|].
              replace (INR (S j) * s ^ j * (dirder (S j) f c d / INR (fact (S j))))
                with ((dirder (S j) f c d / INR (fact (S j))) * (INR (S j) * 1 * s ^ j)) by ring.
              apply (is_derive_scal (fun t => t ^ S j)). apply (is_derive_pow (fun t => t) (S j) s 1). apply (is_derive_id s). }
            { rewrite fact_simpl, mult_INR. field. split; auto. apply not_0_INR. lia. } }
    assert (G0 : G 0 = 0).
    { unfold G. rewrite axpy_0 by lia. rewrite lsum_shift.
      rewrite (lsum_ext (S n) _ (fun _ => 0)) by (intros k _; cbn [pow]; unfold Rdiv; ring). rewrite lsum_0. cbn. field. }
    destruct (Req_dec t 0) as [->|Nt].
    + unfold G in G0. lra.
    + assert (E : G 0 = G t) by (apply (eq_is_derive G 0 t); [exact DG|lra]). unfold G at 2 in E. lra.
Qed.

Lemma taylor_poly n f c y : poly n f -> length c = 3%nat -> length y = 3%nat -> taylor n f c y = f y.
Proof.
  intros Hf Hc Hy. unfold taylor. set (d := map2 Rminus y c).
  assert (Hd : length d = 3%nat) by (unfold d; rewrite map2_length; lia).
  assert (E : axpy 1 c d = y).
  { apply vec_ext; [rewrite axpy_length; lia|]. intros i Hi. rewrite axpy_length in Hi by lia. rewrite nth_axpy by lia.
    unfold d. rewrite (nth_map2 _ _ _ _ 0 0) by lia. ring. }
  rewrite <- E at 1. rewrite (taylor_line n f c d Hf Hc Hd 1) by lra. change total with lsum.
  apply lsum_ext. intros k _. rewrite pow1. unfold Rdiv. ring.
Qed.
