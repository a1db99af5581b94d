(** Proofs about TR.run. *)
From Coquelicot Require Import Coquelicot.
From Verif Require Import Base BaseFacts P_Vec M_Tree M_XR M_Tr S_Tr M_TrRun S_TrRun M_Tensor M_Surface M_Calc M_HvpTree M_TrFun
  S_Calc S_Jac S_HvpTree S_TrFun P_Tr1 P_TrFun3.
Import ListNotations.
Open Scope R_scope.

Lemma tr_run_snoc {A} c (f : M_Tr.objective A) : forall n xs ys, tr_run c f n xs = Ok ys ->
  tr_run c f (S n) xs = update c f (fst ys) (snd ys).
Proof.
  induction n as [|n IH]; intros xs ys E.
  - injection E as <-. cbn [tr_run]. destruct (update c f (fst xs) (snd xs)); reflexivity.
  - cbn [tr_run] in E. destruct (update c f (fst xs) (snd xs)) as [z|e] eqn:U; [|discriminate].
    cbn [tr_run]. rewrite U. exact (IH z ys E).
Qed.

Definition open_ {A} (c : tr_cfg) (s : tr_state A) : Prop := xgtb (M_Tr.error s) (Fin (tol c)) = true.
Lemma run_loop_run {A} c (f : M_Tr.objective A) st : forall m k r xs, tr_run c f k st = Ok r -> run_loop c f m r = Ok xs ->
  exists n, (k <= n <= k + m)%nat /\ tr_run c f n st = Ok xs /\ (n = (k + m)%nat \/ ~ open_ c (snd xs)) /\
    (forall j ys, (k <= j < n)%nat -> tr_run c f j st = Ok ys -> open_ c (snd ys)).
Proof.
  induction m as [|m IH]; intros k r xs HR HL; cbn [run_loop] in HL.
  - injection HL as <-. exists k. split; [lia|]. split; [exact HR|]. split; [left; lia|]. intros; lia.
  - destruct (xgtb _ _) eqn:O.
    + destruct (update c f (fst r) (snd r)) as [r'|e] eqn:U; [|discriminate]. cbn [bind] in HL.
      rewrite <- (tr_run_snoc c f k st r HR) in U. destruct (IH (S k) r' xs U HL) as (n & B & E & Z & T).
      exists n. split; [lia|]. split; [exact E|]. split; [destruct Z; [left; lia|now right]|].
      intros j ys Hj Ej. destruct (Nat.eq_dec j k) as [-> |N]; [|apply (T j); [lia|exact Ej]].
      rewrite HR in Ej. injection Ej as <-. exact O.
    + injection HL as <-. exists k. split; [lia|]. split; [exact HR|]. split; [right; unfold open_; congruence|]. intros; lia.
Qed.
Lemma run_is_updates {A} c (f : M_Tr.objective A) m x p xs : run c f m x p = Ok xs ->
  exists n, (n <= m)%nat /\ tr_run c f n (x, init_state c f x p) = Ok xs /\
    (n = m \/ (1 <= n)%nat /\ ~ open_ c (snd xs)) /\
    (forall j ys, (1 <= j < n)%nat -> tr_run c f j (x, init_state c f x p) = Ok ys -> open_ c (snd ys)).
Proof.
  unfold run. destruct m as [|m]; intros E.
  - injection E as <-. exists 0%nat. split; [lia|]. split; [reflexivity|]. split; [now left|]. intros; lia.
  - destruct (update c f x (init_state c f x p)) as [r|e] eqn:U; [|discriminate]. cbn [bind] in E.
    assert (R1 : tr_run c f 1 (x, init_state c f x p) = Ok r) by (cbn [tr_run fst snd]; now rewrite U).
    destruct (run_loop_run c f _ m 1 r xs R1 E) as (n & B & En & Z & T). exists n.
    split; [lia|]. split; [exact En|]. split; [destruct Z; [left; lia|right; split; [lia|trivial]]|exact T].
Qed.
Lemma run_loop_total {A} c (f : M_Tr.objective A) : (approx_hvp c = true -> fd_h c <> 0) -> forall m r, exists xs, run_loop c f m r = Ok xs.
Proof.
  intros H. induction m as [|m IH]; intros r; cbn [run_loop]; [eexists; reflexivity|].
  destruct (xgtb _ _); [|eexists; reflexivity].
  destruct (run_total c f H 1 r) as (ys & E). cbn [tr_run] in E. destruct (update c f (fst r) (snd r)); [|discriminate]. apply IH.
Qed.
Lemma run_total_ {A} c (f : M_Tr.objective A) m x p : (approx_hvp c = true -> fd_h c <> 0) -> exists xs, run c f m x p = Ok xs.
Proof.
  intros H. unfold run. destruct m as [|m]; [eexists; reflexivity|].
  destruct (run_total c f H 1 (x, init_state c f x p)) as (ys & E). cbn [tr_run fst snd] in E.
  destruct (update c f x (init_state c f x p)); [|discriminate]. apply run_loop_total, H.
Qed.

Lemma run_decreases c sh phi aux vag (has_aux : bool) f m x p : C2 (size_ sh) (whole (size_ sh)) phi ->
  user_function sh (whole (size_ sh)) phi aux vag has_aux f ->
  (approx_hvp c = true -> fd_h c <> 0 /\ exact_differences (size_ sh) (fd_h c) phi) ->
  0 < tol c -> 0 <= min_tr_radius c -> 0 <= rho_accept c -> (forall l, damping_factor c = Some l -> 0 <= l) -> sized sh x ->
  exists x' s n, run c (tr_objective f vag has_aux sh) m (fin x) p = Ok (fin x', s) /\ sized sh x' /\
    phi (concat x') <= phi (concat x) /\ M_Tr.value s = Fin (phi (concat x')) /\
    M_Tr.error s = Fin (normR (gradient (size_ sh) phi (concat x'))) /\
    (n <= m)%nat /\ tr_run c (tr_objective f vag has_aux sh) n (fin x, init_state c (tr_objective f vag has_aux sh) (fin x) p) = Ok (fin x', s) /\
    (n = m \/ normR (gradient (size_ sh) phi (concat x')) <= tol c).
Proof.
  intros HC HU HA Ht Hm Hr Hd Sx.
  destruct (run_total_ c (tr_objective f vag has_aux sh) m (fin x) p) as (xs & E); [intros K; now apply HA|].
  destruct (run_is_updates c _ m (fin x) p xs E) as (n & Ln & En & Z & _).
  destruct (tr_function_monotone_lemma c sh phi aux vag has_aux f n x p HC HU HA Ht Hm Hr Hd Sx)
    as (x' & s & E' & Sx' & Hphi & Hv & _ & _ & He).
  rewrite En in E'. injection E' as ->. exists x', s, n.
  split; [exact E|]. split; [exact Sx'|]. split; [exact Hphi|]. split; [exact Hv|]. split; [exact He|].
  split; [exact Ln|]. split; [exact En|]. destruct Z as [Z|[_ Z]]; [now left|right].
  unfold open_ in Z. cbn [snd] in Z. rewrite He in Z. unfold xgtb, xltb in Z. 
  destruct (Rlt_dec (tol c) (normR (gradient (size_ sh) phi (concat x')))) as [L|L]; [|lra].
  exfalso. apply Z. unfold Rltb. now destruct (Rlt_dec _ _).
Qed.
Lemma run_converges c sh phi aux vag (has_aux : bool) f m x p B L : C2 (size_ sh) (whole (size_ sh)) phi ->
  user_function sh (whole (size_ sh)) phi aux vag has_aux f ->
  (approx_hvp c = true -> exact_differences (size_ sh) (fd_h c) phi) -> 0 < B -> curvature_bound (size_ sh) phi B ->
  (forall X, length X = size_ sh -> L <= phi X) -> progress_options c -> rho_decrease c < 1 -> min_tr_radius c < init_tr_radius c ->
  min_tr_radius c < decrease_factor c * (tol c * Rmin (/ (B + damping c)) ((1 - rho_decrease c) / (B + B))) ->
  sized sh x -> (forall s, p = Some s -> tr_radius s <= max_tr_radius c) -> tr_budget c B (phi (concat x) - L) < INR m ->
  exists x' s, run c (tr_objective f vag has_aux sh) m (fin x) p = Ok (fin x', s) /\
    sized sh x' /\ normR (gradient (size_ sh) phi (concat x')) <= tol c /\ phi (concat x') <= phi (concat x) /\
    M_Tr.value s = Fin (phi (concat x')) /\ M_Tr.error s = Fin (normR (gradient (size_ sh) phi (concat x'))).
Proof.
  intros HC HU HA HB Hcb HL HP Hrd Hi Hs Sx Hp Hbud.
  destruct HP as (Ht & HGR & Hdf & Hra & Hd & Hms & Hfd). assert (HP : progress_options c) by (repeat split; trivial; apply Hra || apply HGR).
  destruct (run_decreases c sh phi aux vag has_aux f m x p HC HU (fun K => conj (Hfd K) (HA K)) Ht) as (x' & s & n & E & Sx' & Hphi & Hv & He & Ln & En & Z);
    [destruct HGR; lra|lra|exact Hd|exact Sx|].
  exists x', s. split; [exact E|]. split; [exact Sx'|]. split; [|now repeat split].
  destruct Z as [-> |Z]; [|exact Z].
  destruct (tr_function_converges_lemma c sh phi aux vag has_aux f m x p B L HC HU HA HB Hcb HL HP Hrd Hi Hs Sx Hp Hbud)
    as (x'' & s'' & E'' & _ & G & _). rewrite En in E''. injection E'' as Ex Es.
  assert (x' = x'') as -> by (apply fin_inj; exact Ex). lra.
Qed.
Lemma open_above {A} c (s : tr_state A) : open_ c s <-> above (M_Tr.error s) (tol c).
Proof.
  unfold open_, above, xgtb, xltb. destruct (M_Tr.error s) as [r| | |].
  - unfold Rltb. destruct (Rlt_dec _ _); split; intros; try easy; try lra.
  - easy.
  - easy.
  - easy.
Qed.
Lemma run_updates_above {A} c (f : M_Tr.objective A) m x p xs : run c f m x p = Ok xs ->
  exists n, (n <= m)%nat /\ tr_run c f n (x, init_state c f x p) = Ok xs /\
    (n = m \/ (1 <= n)%nat /\ ~ above (M_Tr.error (snd xs)) (tol c)) /\
    (forall j ys, (1 <= j < n)%nat -> tr_run c f j (x, init_state c f x p) = Ok ys -> above (M_Tr.error (snd ys)) (tol c)).
Proof.
  intros E. destruct (run_is_updates c f m x p xs E) as (n & Ln & En & Z & T). exists n. split; [exact Ln|]. split; [exact En|].
  split.
  - destruct Z as [Z|[Z1 Z2]]; [now left|right]. split; [exact Z1|]. now rewrite <- open_above.
  - intros j ys Hj Ej. apply open_above. exact (T j ys Hj Ej).
Qed.
