(** Proofs for the stray field fit, part 2: the fit and the solver. *)
From Coquelicot Require Import Coquelicot.
From Verif Require Import Base BaseFacts P_Vec S_RFun M_Quat M_RFun M_Domain M_Tensor M_Calc M_Integrate M_Surface M_Mumag M_Stray.
From Verif Require Import S_Calc P_AD P_Calc P_Calc2 S_Integrate P_Integrate1 P_Integrate2 P_Integrate3 S_Model P_Model S_Surface S_Mumag S_Stray.
From Verif Require Import P_Surface1 P_Surface2 P_Surface3 P_Surface4 P_Surface5 P_Mumag1 P_Mumag2 P_Mumag3 P_Mumag4 P_Mumag5 P_Mumag6 P_Stray1.

(** ** array operations *)
Lemma sum_list {A} (f : A -> R) d l : sumR (map f l) = lsum (length l) (fun i => f (nth i l d)).
Proof.
  induction l as [|a l IH]; [reflexivity|]. unfold lsum. cbn [map length seq sumR fold_right nth]. rewrite <- seq_shift, map_map.
  change (f a + sumR (map f l) = f a + lsum (length l) (fun i => f (nth i l d))). rewrite IH. reflexivity.
Qed.
Lemma trecip_ok s r : shape s = [r] -> (forall a, (a < r)%nat -> entry s [a] <> 0) -> trecip s = Ok (tmap (fun e => 1 / e) s).
Proof.
  intros Ss H. unfold trecip. replace (forallb _ _) with true; [reflexivity|]. symmetry. apply forallb_forall.
  unfold tlist. rewrite Ss. cbn [hd]. intros e He. apply in_map_iff in He. destruct He as (a & <- & Ha). apply in_seq in Ha.
  destruct (Req_EM_T (entry s [a]) 0); auto. exfalso. apply (H a); auto. lia.
Qed.
Lemma trecip_zero s r a : shape s = [r] -> (a < r)%nat -> entry s [a] = 0 -> trecip s = Err NonFinite.
Proof.
  intros Ss Ha E. unfold trecip. replace (forallb _ _) with false; [reflexivity|]. symmetry. apply Bool.not_true_iff_false.
  intros F. rewrite forallb_forall in F. specialize (F (entry s [a])). unfold tlist in F. rewrite Ss in F. cbn [hd] in F.
  assert (I : In (entry s [a]) (map (fun i => entry s [i]) (seq 0 r))) by (apply in_map_iff; exists a; split; auto; apply in_seq; lia).
  specialize (F I). destruct (Req_EM_T (entry s [a]) 0); [discriminate|tauto].
Qed.
Lemma tbop_rows f a b m n : shape a = [m; n] -> shape b = [n] ->
  exists y, tbop f a b = Ok y /\ shape y = [m; n] /\
    forall i j, (i < m)%nat -> (j < n)%nat -> entry y [i; j] = f (entry a [i; j]) (entry b [j]).
Proof.
  intros Sa Sb. unfold tbop. rewrite Sa, Sb. unfold bshape. cbn [rev app bshape_rev bind]. unfold bdim. rewrite Nat.eqb_refl.
  cbn [bind rev app]. eexists. split; [reflexivity|]. split; [reflexivity|]. intros i j Hi Hj. cbn [entry]. unfold bidx. cbn [rev app bidx_rev].
  f_equal; f_equal.
  - destruct (Nat.eqb_spec m 1); destruct (Nat.eqb_spec n 1); subst; repeat f_equal; lia.
  - destruct (Nat.eqb_spec n 1); subst; repeat f_equal; lia.
Qed.
Lemma tmatmul_ok a b m n k : shape a = [m; n] -> shape b = [n; k] ->
  exists y, tmatmul a b = Ok y /\ shape y = [m; k] /\
    forall i j, entry y [i; j] = lsum n (fun l => entry a [i; l] * entry b [l; j]).
Proof.
  intros Sa Sb. unfold tmatmul. rewrite Sa, Sb, Nat.eqb_refl. eexists. split; [reflexivity|]. split; [reflexivity|]. reflexivity.
Qed.
Lemma pinv_ok svd Q U s VT N K : svd Q = (U, s, VT) -> is_svd N K Q U s VT ->
  (forall a, (a < Nat.min N K)%nat -> entry s [a] <> 0) ->
  exists P, pinv svd Q = Ok P /\ shape P = [K; N] /\
    forall j i, (j < K)%nat -> (i < N)%nat -> entry P [j; i] = lsum (Nat.min N K) (fun a => entry VT [a; j] * (1 / entry s [a]) * entry U [i; a]).
Proof.
  intros E (SU & Ss & SV & _) Hs. set (r := Nat.min N K) in *. unfold pinv. rewrite E, (trecip_ok s r Ss Hs). cbn [bind].
  assert (STV : shape (ttrans VT) = [K; r]) by (unfold ttrans; cbn [shape]; rewrite SV; reflexivity).
  assert (STU : shape (ttrans U) = [r; N]) by (unfold ttrans; cbn [shape]; rewrite SU; reflexivity).
  destruct (tbop_rows Rmult (ttrans VT) (tmap (fun e => 1 / e) s) K r STV Ss) as (A & -> & SA & VA). cbn [bind].
  destruct (tmatmul_ok A (ttrans U) K r N SA STU) as (P & -> & SP & VP).
  exists P. split; auto. split; auto. intros j i Hj Hi. rewrite VP. apply lsum_ext. intros a Ha. rewrite VA by auto. reflexivity.
Qed.

Section Fit.
Variables (xs ys zs : list R) (c : brick) (W b : tensor) (K : nat).
Hypothesis HC : Cuboid xs ys zs = Ok c.
Hypothesis HT : thick xs ys zs.
Hypotheses (SW : shape W = [K; 3%nat]) (Sb : shape b = [K]).
Let adf := box_adf [first xs; first ys; first zs] [final xs; final ys; final zs].
Definition unit_value (j : nat) (X : list R) : R := tanh (total 3 (fun i => entry W [j; i] * scaled xs ys zs X i) + entry b [j]).
Definition feature (j : nat) (X : list R) : R := unit_value j X * adf X.
Definition pot (q : nat -> R) (X : list R) : R := lsum K (fun j => feature j X * q j).

Lemma u_elm_rep : rep1 3 K (u_elm c W b) feature.
Proof.
  intros x Sx. unfold u_elm. destruct (h_elm_ok xs ys zs c W b K HC HT SW Sb x Sx) as (h & -> & Sh & Vh). cbn [bind].
  destruct (cub_adfT_rep xs ys zs c HC x Sx (tlist_len3 x Sx)) as (a & -> & Sa & Va). cbn [bind].
  destruct (tbop_scal_r Rmult h a [K] Sh Sa) as (u & Eu & Su & Vu). exists u. split; auto. split; auto.
  intros j Hj. rewrite Vu, Vh, Va by (auto; try apply inside1; auto; constructor). reflexivity.
Qed.
Lemma phi1_pot p : shape p = [K] -> repD 3 len3 [] (phi1 c W b p) (fun _ => pot (fun j => entry p [j])).
Proof.
  intros Sp x Sx Lx. destruct (phi1_ok xs ys zs c W b p K HC HT SW Sb Sp x Sx Lx) as (y & Ey & Sy & Vy).
  exists y. split; auto. split; auto. intros r Hr. rewrite Vy by auto. unfold pot, network. change total with lsum. rewrite <- lsum_scal.
  apply lsum_ext. intros j Hj. unfold feature, unit_value. change total with lsum. unfold adf. ring.
Qed.
Lemma feature_D2 j X l : inside_box xs ys zs X -> (l < 3)%nat -> D2 (fun t => feature j (upd X l t)) (nth l X 0).
Proof.
  intros (LX & HX) Hl. unfold feature. apply (D2_mult (fun t => unit_value j (upd X l t)) (fun t => adf (upd X l t))).
  - unfold unit_value. change total with lsum.
    apply (D2_comp tanh (fun t => lsum 3 (fun i => entry W [j; i] * scaled xs ys zs (upd X l t) i) + entry b [j])); [apply D2_tanh|].
    apply (D2_plus (fun t => lsum 3 (fun i => entry W [j; i] * scaled xs ys zs (upd X l t) i)) (fun _ => entry b [j])); [|apply D2_const].
    apply (D2_lsum 3 (fun i t => entry W [j; i] * scaled xs ys zs (upd X l t) i)). intros i Hi.
    apply (D2_mult (fun _ => entry W [j; i]) (fun t => scaled xs ys zs (upd X l t) i)); [apply D2_const|].
    unfold scaled. set (lo := first (axis_grid xs ys zs i)). set (hi := final (axis_grid xs ys zs i)).
    apply (D2_minus (fun t => 2 * (nth i (upd X l t) 0 - lo) / (hi - lo)) (fun _ => 1)); [|apply D2_const].
    apply (D2_mult (fun t => 2 * (nth i (upd X l t) 0 - lo)) (fun _ => / (hi - lo))); [|apply D2_const].
    apply (D2_mult (fun _ => 2) (fun t => nth i (upd X l t) 0 - lo)); [apply D2_const|].
    apply D2_minus; [apply D2_coord|apply D2_const].
  - apply D2_box; [lia|]. intros i Hi. specialize (HX i Hi). destruct i as [|[|[|i]]]; try lia; exact HX.
Qed.
Lemma pot_D2 q X l : inside_box xs ys zs X -> (l < 3)%nat -> D2 (fun t => pot q (upd X l t)) (nth l X 0) /\
  pd l (pd l (pot q)) X = lsum K (fun j => pd l (pd l (feature j)) X * q j).
Proof.
  intros HX Hl. assert (L : (l < length X)%nat) by (destruct HX; lia). unfold pot.
  destruct (D2_lsum K (fun j t => feature j (upd X l t) * q j) (nth l X 0)) as (A & B).
  { intros j Hj. apply D2_scal. apply feature_D2; auto. }
  split; auto. rewrite pd_pd by auto. rewrite B. apply lsum_ext. intros j Hj. rewrite pd_pd by auto.
  apply (D2_scal (fun t => feature j (upd X l t)) (q j)). apply feature_D2; auto.
Qed.
Lemma pot_lap q X : inside_box xs ys zs X -> lap_ 3 (pot q) X = lsum K (fun j => lap_ 3 (feature j) X * q j).
Proof.
  intros HX. unfold lap_. change total with lsum.
  rewrite (lsum_ext 3 _ (fun l => lsum K (fun j => pd l (pd l (feature j)) X * q j))) by (intros l Hl; apply pot_D2; auto).
  rewrite lsum_swap. apply lsum_ext. intros j Hj. apply lsum_scal_r.
Qed.
Lemma pot_partials q X : inside_box xs ys zs X -> partials 3 (pot q) X.
Proof. intros HX l Hl. apply D2_derive. apply pot_D2; auto. Qed.
Lemma lap_same3 f g X : length X = 3%nat -> (forall Y, length Y = 3%nat -> f Y = g Y) -> lap_ 3 f X = lap_ 3 g X.
Proof.
  intros LX E. unfold lap_. change total with lsum. apply lsum_ext. intros l Hl. apply pd_same3; auto.
  intros Y LY. apply pd_same3; auto.
Qed.

Variables (X : list tensor).
Hypotheses (HX0 : X <> []) (HX : forall x, In x X -> shape x = [3%nat] /\ inside_box xs ys zs (tlist x)).
Let N := length X.
Let pt i := tlist (nth i X (tsc 0)).
Lemma pt_inside i : (i < N)%nat -> inside_box xs ys zs (pt i).
Proof. intros Hi. apply HX. apply nth_In. auto. Qed.
Lemma fit_ok : exists Q, fit_matrix c W b X = Ok Q /\ shape Q = [N; K] /\
  forall i j, (i < N)%nat -> (j < K)%nat -> entry Q [i; j] = - lap_ 3 (feature j) (pt i).
Proof.
  destruct (vmapT_ok (fun x => y <- laplace (u_elm c W b) x ;; Ok (tmap Ropp y)) X [K]
    (fun x y => forall j, (j < K)%nat -> entry y [j] = - lap_ 3 (feature j) (tlist x)) HX0) as (Q & EQ & SQ & VQ).
  { intros x Hx. destruct (HX x Hx) as (Sx & _). destruct (laplace_rep1 3 K _ _ x ltac:(lia) u_elm_rep Sx) as (y & -> & Sy & Vy).
    cbn [bind]. eexists. split; [reflexivity|]. split; [exact Sy|]. intros j Hj. cbn [tmap entry]. rewrite Vy by auto. reflexivity. }
  exists Q. split; auto. split; auto. intros i j Hi Hj.
  destruct (VQ i (nth i X (tsc 0))) as (y & _ & _ & Vy & Ey); [apply nth_error_nth'; auto|]. rewrite Ey. apply Vy; auto.
Qed.

Variables (m : list tensor -> res tensor) (args : list tensor) (M : nat -> list R -> R).
Hypothesis Hm : rep1 3 3 (fun y => m (y :: args)) M.
Lemma rhs_ok : exists B, vmapT (fun x => y <- divergence m 0 (x :: args) ;; Ok (tmap Ropp y)) X = Ok B /\ shape B = [N] /\
  forall i, (i < N)%nat -> entry B [i] = - div_ 3 M (pt i).
Proof.
  destruct (vmapT_ok (fun x => y <- divergence m 0 (x :: args) ;; Ok (tmap Ropp y)) X []
    (fun x y => entry y [] = - div_ 3 M (tlist x)) HX0) as (Q & EQ & SQ & VQ).
  { intros x Hx. destruct (HX x Hx) as (Sx & _).
    destruct (divergence_ok 3 m M 0%Z 0 (x :: args) x eq_refl (or_introl eq_refl) Sx) as (v & d & _ & _ & -> & Sd & Vd); [exact Hm|].
    cbn [bind]. eexists. split; [reflexivity|]. split; [exact Sd|]. cbn [tmap entry]. rewrite Vd. reflexivity. }
  exists Q. split; auto. split; auto. intros i Hi.
  destruct (VQ i (nth i X (tsc 0))) as (y & _ & _ & Vy & Ey); [apply nth_error_nth'; auto|]. rewrite Ey. apply Vy; auto.
Qed.

Variables (svd : tensor -> tensor * tensor * tensor) (U s VT : tensor).
Hypothesis Hsvd : forall Q, fit_matrix c W b X = Ok Q -> svd Q = (U, s, VT) /\ is_svd N K Q U s VT.
Lemma weights_ok : (forall a, (a < Nat.min N K)%nat -> entry s [a] <> 0) ->
  exists p, stray_weights svd c W b X m args = Ok p /\ shape p = [K] /\
  forall q, shape q = [K] ->
    misfit X (pot (fun j => entry p [j])) M <= misfit X (pot (fun j => entry q [j])) M /\
    (misfit X (pot (fun j => entry q [j])) M <= misfit X (pot (fun j => entry p [j])) M -> square K p <= square K q).
Proof.
  intros Hs. destruct fit_ok as (Q & EQ & SQ & VQ). destruct (Hsvd Q EQ) as (Es & HS).
  destruct (pinv_ok svd Q U s VT N K Es HS Hs) as (P & EP & SP & VP). destruct rhs_ok as (B & EB & SB & VB).
  destruct (tmatvec_mat P B K N SP SB) as (p & Ep & Sp & Vp).
  exists p. split. { unfold stray_weights. rewrite EQ. cbn [bind]. rewrite EP. cbn [bind]. unfold fit_weights. rewrite EB. exact Ep. }
  split; auto. destruct HS as (SU & Ss & SV & OU & OV & _ & DQ). set (r := Nat.min N K) in *.
  pose (fU := fun i a => entry U [i; a]). pose (fV := fun a j => entry VT [a; j]). pose (fQ := fun i j => entry Q [i; j]).
  pose (fs := fun a => entry s [a]). pose (fb := fun i => entry B [i]).
  assert (MR : forall q : nat -> R, misfit X (pot q) M = residual N K fQ fb q).
  { intros q. unfold misfit. rewrite (sum_list _ (tsc 0)). unfold residual. apply lsum_ext. intros i Hi.
    fold (pt i). rewrite pot_lap by (apply pt_inside; auto). unfold fb. rewrite VB by auto.
    rewrite (lsum_ext K (fun j => fQ i j * q j) (fun j => -1 * (lap_ 3 (feature j) (pt i) * q j))).
    - rewrite lsum_scal. ring.
    - intros j Hj. unfold fQ. rewrite VQ by auto. ring. }
  assert (PS : forall j, (j < K)%nat -> entry p [j] = sv_solution N r fU fV fs fb j).
  { intros j Hj. rewrite Vp. unfold sv_solution. rewrite (lsum_ext N _ (fun i => lsum r (fun a => fV a j * (1 / fs a) * (fU i a * fb i)))).
    - rewrite lsum_swap. apply lsum_ext. intros a Ha. rewrite lsum_scal. reflexivity.
    - intros i Hi. rewrite VP by auto. rewrite <- lsum_scal_r. apply lsum_ext. intros a Ha. unfold fV, fs, fU, fb. ring. }
  assert (RP : residual N K fQ fb (fun j => entry p [j]) = residual N K fQ fb (sv_solution N r fU fV fs fb)).
  { unfold residual. apply lsum_ext. intros i Hi. f_equal. f_equal. apply lsum_ext. intros j Hj. rewrite PS by auto. reflexivity. }
  intros q Sq. rewrite !MR, RP. split.
  - apply least_squares with (U := fU) (VT := fV) (s := fs); auto.
  - intros H. unfold square. change total with lsum. rewrite (lsum_ext K (fun j => entry p [j] ^ 2) (fun j => sv_solution N r fU fV fs fb j ^ 2)) by (intros j Hj; rewrite PS by auto; reflexivity).
    apply least_norm with (Q := fQ); auto.
Qed.
Lemma weights_zero a : (a < Nat.min N K)%nat -> entry s [a] = 0 -> stray_weights svd c W b X m args = Err NonFinite.
Proof.
  intros Ha E. destruct fit_ok as (Q & EQ & SQ & VQ). destruct (Hsvd Q EQ) as (Es & (SU & Ss & _)).
  unfold stray_weights. rewrite EQ. cbn [bind]. unfold pinv. rewrite Es, (trecip_zero s _ a Ss Ha E). reflexivity.
Qed.
End Fit.
Lemma repD_unique F f g : repD 3 len3 [] F (fun _ => f) -> repD 3 len3 [] F (fun _ => g) -> forall Y, length Y = 3%nat -> f Y = g Y.
Proof.
  intros Hf Hg Y LY. assert (SY : shape (tvec Y) = [3%nat]) by (cbn; congruence).
  assert (LT : len3 (tlist (tvec Y))) by (rewrite tlist_tvec; exact LY).
  destruct (Hf (tvec Y) SY LT) as (y & E & _ & V). destruct (Hg (tvec Y) SY LT) as (y' & E' & _ & V').
  rewrite E in E'. injection E' as <-. specialize (V [] ltac:(constructor)). specialize (V' [] ltac:(constructor)).
  rewrite tlist_tvec in V, V'. congruence.
Qed.
Lemma misfit_same X f g M : (forall x, In x X -> length (tlist x) = 3%nat) -> (forall Y, length Y = 3%nat -> f Y = g Y) ->
  misfit X f M = misfit X g M.
Proof.
  intros L E. unfold misfit. f_equal. apply map_ext_in. intros x Hx. rewrite (lap_same3 f g); auto.
Qed.
Lemma misfit_zero_iff X phi M : (forall x, In x X -> lap_ 3 phi (tlist x) = div_ 3 M (tlist x)) <-> misfit X phi M <= 0.
Proof.
  unfold misfit. induction X as [|x X IH]; cbn [map sumR fold_right].
  - split; [lra|intros _ x []].
  - assert (P : 0 <= sumR (map (fun x => (lap_ 3 phi (tlist x) - div_ 3 M (tlist x)) ^ 2) X)).
    { rewrite (sum_list _ (tsc 0)). apply lsum_nonneg. intros i _. apply pow2_ge_0. }
    fold (sumR (map (fun x => (lap_ 3 phi (tlist x) - div_ 3 M (tlist x)) ^ 2) X)).
    pose proof (pow2_ge_0 (lap_ 3 phi (tlist x) - div_ 3 M (tlist x))) as P2. split.
    + intros H. rewrite (H x (or_introl eq_refl)) in *. apply (Rle_trans _ (0 + 0)); [|lra].
      apply Rplus_le_compat; [nra|]. apply IH. intros y Hy. apply H. right. auto.
    + intros H y [<-|Hy].
      * assert (E : (lap_ 3 phi (tlist x) - div_ 3 M (tlist x)) ^ 2 = 0) by lra. nra.
      * apply IH; auto. lra.
Qed.
Lemma boundary_len3 xs ys zs Y : on_boundary xs ys zs Y -> len3 Y.
Proof. intros (k & b & Hk & (q & _ & ->)). destruct k as [|[|k]]; reflexivity. Qed.
Lemma inside_off xs ys zs X : inside_box xs ys zs X -> ~ on_boundary xs ys zs X.
Proof.
  intros (LX & HX) (k & b & Hk & HS). apply on_side_iff in HS; auto. destruct HS as (E & _). specialize (HX k Hk).
  unfold side_value in E. destruct b; lra.
Qed.
