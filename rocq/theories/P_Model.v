(** Proofs about model.py. *)
From Coq Require Import String.
From Coquelicot Require Import Coquelicot.
From Verif Require Import Base BaseFacts P_Vec M_Tensor M_Calc M_Model S_Calc S_Model P_AD P_Calc P_Calc2.
Open Scope R_scope.

(** ** Broadcasting *)
Lemma Forall2_rev {A B} (P : A -> B -> Prop) l m : Forall2 P l m -> Forall2 P (rev l) (rev m).
Proof.
  induction 1; cbn; [constructor|]. apply Forall2_app; auto.
Qed.

Lemma bidx_inside s p : inside s p -> bidx s p = p.
Proof.
  intros H. unfold bidx. replace (bidx_rev (rev s) (rev p)) with (rev p); [apply rev_involutive|].
  apply Forall2_rev in H. revert H. generalize (rev s), (rev p). clear.
  intros s p H. induction H as [|i a p s Hi H IH]; [reflexivity|]. cbn. rewrite <- IH.
  destruct (Nat.eqb_spec a 1) as [->|]; [|reflexivity]. replace i with 0%nat by lia. reflexivity.
Qed.

Lemma bidx_nil p : bidx [] p = [].
Proof. unfold bidx. cbn. reflexivity. Qed.

Lemma bshape_same s : bshape s s = Ok s.
Proof.
  unfold bshape. assert (G : forall r, bshape_rev r r = Ok r).
  { induction r as [|a r IH]; [reflexivity|]. cbn. unfold bdim. rewrite Nat.eqb_refl. cbn. rewrite IH. reflexivity. }
  rewrite G. cbn. rewrite rev_involutive. reflexivity.
Qed.
Lemma bshape_nil_l s : bshape [] s = Ok s.
Proof. unfold bshape. cbn. rewrite rev_involutive. reflexivity. Qed.
Lemma bshape_nil_r s : bshape s [] = Ok s.
Proof.
  unfold bshape. cbn [rev]. assert (G : forall r, bshape_rev r [] = Ok r) by (intros [|]; reflexivity).
  rewrite G. cbn [bind]. rewrite rev_involutive. reflexivity.
Qed.

(** operands of shape [s] or 0-d *)
Lemma tbop_same f a b s : shape a = s -> shape b = s ->
  exists y, tbop f a b = Ok y /\ shape y = s /\
    forall p, inside s p -> entry y p = f (entry a p) (entry b p).
Proof.
  intros Ha Hb. unfold tbop. rewrite Ha, Hb, bshape_same. cbn [bind].
  eexists. split; [reflexivity|]. split; [reflexivity|]. intros p Hp. cbn [entry]. rewrite bidx_inside by auto. reflexivity.
Qed.
Lemma tbop_scal_l f a b s : shape a = [] -> shape b = s ->
  exists y, tbop f a b = Ok y /\ shape y = s /\
    forall p, inside s p -> entry y p = f (entry a []) (entry b p).
Proof.
  intros Ha Hb. unfold tbop. rewrite Ha, Hb, bshape_nil_l. cbn [bind].
  eexists. split; [reflexivity|]. split; [reflexivity|]. intros p Hp. cbn [entry].
  rewrite bidx_nil, (bidx_inside s p Hp). reflexivity.
Qed.
Lemma tbop_scal_r f a b s : shape a = s -> shape b = [] ->
  exists y, tbop f a b = Ok y /\ shape y = s /\
    forall p, inside s p -> entry y p = f (entry a p) (entry b []).
Proof.
  intros Ha Hb. unfold tbop. rewrite Ha, Hb, bshape_nil_r. cbn [bind].
  eexists. split; [reflexivity|]. split; [reflexivity|]. intros p Hp. cbn [entry].
  rewrite bidx_nil, (bidx_inside s p Hp). reflexivity.
Qed.

(** ** Dirichlet *)
(** all shapes *)
Lemma dirichlet_entries adf g na ng model args kw xs l v xg w s1 s2 :
  pick args na = Ok xs -> adf xs = Ok l -> model args kw = Ok v ->
  pick args ng = Ok xg -> or_zero g xg = Ok w ->
  bshape (shape l) (shape v) = Ok s1 -> bshape s1 (shape w) = Ok s2 ->
  exists y, dirichlet_model adf g na ng model args kw = Ok y /\ shape y = s2 /\
    forall p, entry y p = entry l (bidx (shape l) (bidx s1 p)) * entry v (bidx (shape v) (bidx s1 p))
                          + entry w (bidx (shape w) p).
Proof.
  intros E1 E2 E3 E4 E5 S1 S2. unfold dirichlet_model. rewrite E1. cbn [bind]. rewrite E2. cbn [bind].
  rewrite E3. cbn [bind]. rewrite E4. cbn [bind]. rewrite E5. cbn [bind].
  unfold tbop at 1. rewrite S1. cbn [bind]. unfold tbop. cbn [shape entry]. rewrite S2. cbn [bind].
  eexists. split; [reflexivity|]. split; [reflexivity|]. reflexivity.
Qed.

Lemma dirichlet_ok adf g na ng model args kw xs l v xg w s :
  pick args na = Ok xs -> adf xs = Ok l -> model args kw = Ok v ->
  pick args ng = Ok xg -> g xg = Ok w ->
  shape l = [] -> shape v = s -> shape w = s ->
  exists y, dirichlet_model adf (Some g) na ng model args kw = Ok y /\ shape y = s /\
    forall p, inside s p -> entry y p = entry l [] * entry v p + entry w p.
Proof.
  intros E1 E2 E3 E4 E5 Sl Sv Sw.
  destruct (dirichlet_entries adf (Some g) na ng model args kw xs l v xg w s s E1 E2 E3 E4 E5) as (y & E & S & V).
  - rewrite Sl, Sv. apply bshape_nil_l.
  - rewrite Sw. apply bshape_same.
  - exists y. split; [exact E|]. split; [exact S|]. intros p Hp. rewrite V, Sl, Sv, Sw.
    rewrite !(bidx_inside s p Hp), bidx_nil. reflexivity.
Qed.

Lemma dirichlet_zero_ok adf na ng model args kw xs l v xg s :
  pick args na = Ok xs -> adf xs = Ok l -> model args kw = Ok v -> pick args ng = Ok xg ->
  shape l = [] -> shape v = s ->
  exists y, dirichlet_model adf None na ng model args kw = Ok y /\ shape y = s /\
    forall p, inside s p -> entry y p = entry l [] * entry v p.
Proof.
  intros E1 E2 E3 E4 Sl Sv.
  destruct (dirichlet_entries adf None na ng model args kw xs l v xg (tsc 0) s s E1 E2 E3 E4 eq_refl) as (y & E & S & V).
  - rewrite Sl, Sv. apply bshape_nil_l.
  - apply bshape_nil_r.
  - exists y. split; [exact E|]. split; [exact S|]. intros p Hp. rewrite V, Sl, Sv.
    rewrite !(bidx_inside s p Hp), bidx_nil. cbn. ring.
Qed.

(** the selected arguments, in order *)
Lemma pick_ok args spec is : Forall2 (fun k i => pyidx (List.length args) i k) (argn spec) is ->
  pick args spec = Ok (map (fun i => nth i args (tsc 0)) is).
Proof.
  unfold pick. intros H. induction H as [|k i ks is (Hi & Hk) H IH]; [reflexivity|].
  cbn [map sequence]. destruct (nth_error args i) as [x|] eqn:E; [|apply nth_error_None in E; lia].
  destruct (pyget_pos args k i x E Hk) as (-> & _). cbn [bind]. rewrite IH. cbn [bind].
  rewrite (nth_error_nth _ _ _ E). reflexivity.
Qed.

Lemma pick_err args spec k : In k (argn spec) -> (k < - Z.of_nat (List.length args) \/ Z.of_nat (List.length args) <= k)%Z ->
  pick args spec = Err IndexError.
Proof.
  unfold pick. intros Hin Hk. induction (argn spec) as [|a l IH]; [destruct Hin|].
  assert (G : forall i, pyget args i = Err IndexError \/ exists x, pyget args i = Ok x).
  { intros i. unfold pyget. destruct (Z.ltb _ _); auto. destruct (nth_error _ _); eauto. }
  cbn [map sequence]. destruct Hin as [->|Hin].
  - assert (E : pyget args k = Err IndexError).
    { unfold pyget. destruct (Z.ltb_spec k 0).
      - destruct (Z.ltb_spec (k + Z.of_nat (List.length args)) 0); [reflexivity|lia].
      - destruct (Z.ltb_spec k 0); [lia|].
        destruct (nth_error args (Z.to_nat k)) eqn:En; [|reflexivity].
        assert (Z.to_nat k < List.length args)%nat by (apply nth_error_Some; congruence). lia. }
    rewrite E. reflexivity.
  - destruct (G a) as [->|(x & ->)]; [reflexivity|]. cbn [bind]. rewrite (IH Hin). reflexivity.
Qed.

(** ** Initial conditions *)
Lemma ic_ok m0 t0 rate nm nt model args kw t v xs v0 s :
  pyget args nt = Ok t -> model args kw = Ok v -> pick args nm = Ok xs -> m0 xs = Ok v0 ->
  shape t = [] -> shape v = s -> shape v0 = s ->
  exists y, ic_model m0 t0 rate nm nt model args kw = Ok y /\ shape y = s /\
    forall p, inside s p ->
      entry y p = exp (- rate * (entry t [] - t0)) * entry v0 p
                  + (1 - exp (- rate * (entry t [] - t0))) * entry v p.
Proof.
  intros E1 E2 E3 E4 St Sv S0. unfold ic_model. rewrite E1. cbn [bind]. rewrite E2. cbn [bind].
  rewrite E3. cbn [bind]. rewrite E4. cbn [bind].
  set (decay := tmap (fun r => exp (- rate * (r - t0))) t).
  assert (Sd : shape decay = []) by exact St.
  destruct (tbop_scal_r Rmult v0 decay s S0 Sd) as (a & -> & Sa & Va). cbn [bind].
  destruct (tbop_scal_l Rmult (tmap (fun r => 1 - r) decay) v s Sd Sv) as (b & -> & Sb & Vb). cbn [bind].
  destruct (tbop_same Rplus a b s Sa Sb) as (y & -> & Sy & Vy).
  exists y. split; [reflexivity|]. split; [exact Sy|]. intros p Hp. rewrite Vy, Va, Vb by auto.
  unfold decay. cbn [entry tmap]. ring.
Qed.

(** ** Neumann *)
Lemma slices {A} (l : list A) a k x : nth_error l k = Some x -> (0 <= a)%Z -> a = Z.of_nat k ->
  forall v, slice_to l a ++ v :: slice_from l (a + 1) = upd l k v.
Proof.
  intros Hk Ha -> v. assert (Hl : (k < List.length l)%nat) by (apply nth_error_Some; congruence).
  unfold slice_to, slice_from, clip.
  destruct (Z.ltb_spec (Z.of_nat k) 0); [lia|]. destruct (Z.ltb_spec (Z.of_nat k + 1) 0); [lia|].
  rewrite !Z.min_l by lia. rewrite Nat2Z.id. replace (Z.to_nat (Z.of_nat k + 1)) with (S k) by lia.
  clear -Hl. revert k Hl. induction l as [|a l IH]; intros [|k] Hl; cbn [List.length] in *; try lia; [reflexivity|].
  cbn [firstn skipn app upd]. f_equal. apply IH. lia.
Qed.

Lemma jvp_repT n s F f x v : repT n s F f -> shape x = [n] -> shape v = [n] ->
  exists y dy, jvp (fun l => match l with [x] => F x | _ => Err TypeError end) [x] [v] = Ok (y, dy) /\
    F x = Ok y /\ shape dy = s /\
    forall p, inside s p -> entry dy p = Derive (fun t => f p (axpy t (tlist x) (tlist v))) 0.
Proof.
  intros H Hx Hv. destruct (H x Hx) as (y & E & S & V).
  destruct (H (taxpy 0 x v) Hx) as (y0 & E0 & S0 & V0).
  unfold jvp, same_shapes. cbn [List.length map2 map forallb Nat.eqb].
  rewrite Hx, Hv, list_eqb_refl. cbn [andb]. rewrite E. cbn [bind].
  unfold tderive. cbn [map2]. rewrite E0. cbn [bind].
  eexists _, _. split; [reflexivity|]. split; [reflexivity|]. cbn [shape entry]. split; [exact S0|].
  intros p Hp. apply Derive_ext. intros t.
  destruct (H (taxpy t x v) Hx) as (z & -> & _ & Vz). cbn [entry_of]. rewrite Vz by auto.
  rewrite (tlist_taxpy _ _ _ n) by auto. reflexivity.
Qed.

Definition gradv (n : nat) (f : list R -> R) (x : list R) : list R := map (fun i => pd i f x) (seq 0 n).

Section Neumann.
Variables (n j : nat) (s : list nat) (adf : list tensor -> res tensor)
  (na nh : argspec) (am : Z) (model : amodel) (args : list tensor) (kw : kwargs)
  (phi : list R -> R) (u : list nat -> list R -> R).
Hypothesis Hj : (j < List.length args)%nat.
Hypothesis Ham : am = Z.of_nat j.
Hypothesis Hna : exists a, argn na = [a] /\ pyidx (List.length args) j a.
Hypothesis Hphi : rep0 n (fun t => adf [t]) phi.
Hypothesis Hu : repT n s (fun t => model (upd args j t) kw) u.

Lemma value_and_jacfwd_rep t : shape t = [n] ->
  exists l g, value_and_jacfwd adf 0 [t] = Ok (l, g) /\ shape l = [] /\ entry l [] = phi (tlist t) /\
    shape g = [n] /\ tlist g = gradv n phi (tlist t).
Proof.
  intros Ht. unfold value_and_jacfwd. cbn [pyget Z.ltb Z.compare nth_error List.length Z.to_nat].
  change (pyget [t] 0) with (Ok t).
  assert (H' : rep0 n (fun x => adf (pyset [t] 0 x)) phi) by exact Hphi.
  cbv beta iota zeta. destruct (H' t Ht) as (l & E & S & V). rewrite E. cbn [bind].
  destruct (jacfwd_rep0 n _ phi H' t Ht) as (g & Eg & Sg & Vg). rewrite Eg. cbn [bind].
  exists l, g. repeat (split; auto). apply vec_ext.
  - rewrite (tlist_length g n Sg). unfold gradv. rewrite map_length, seq_length. reflexivity.
  - intros i Hi. rewrite (tlist_length g n Sg) in Hi. rewrite (tlist_nth g n), Vg by auto.
    unfold gradv. rewrite (nth_map_seq (fun i => pd i phi (tlist t))) by auto. reflexivity.
Qed.

Lemma pick_adf t : pick (upd args j t) na = Ok [t].
Proof.
  destruct Hna as (a & Ea & Pa). rewrite (pick_ok _ na [j]).
  - cbn [map]. rewrite upd_nth_same by auto. reflexivity.
  - rewrite Ea. constructor; [|constructor]. rewrite upd_length. exact Pa.
Qed.

Lemma pyget_model t : pyget (upd args j t) am = Ok t.
Proof.
  destruct (pyget_pos (upd args j t) am j t) as (E & _); auto. apply upd_nth_error. auto.
Qed.

Definition neumann_value (h : list nat -> list R -> R) (p : list nat) (x : list R) : R :=
  u p x - phi x * Derive (fun r => u p (axpy r x (gradv n phi x))) 0 - phi x * h p x.

Lemma neumann_rep_gen (h : option (list tensor -> res tensor)) sh hv :
  (sh = s \/ sh = []) ->
  repT n sh (fun t => xs <- pick (upd args j t) nh ;; or_zero h xs) (fun p => hv p) ->
  repT n s (fun t => neumann_model adf h na am nh model (upd args j t) kw)
    (neumann_value (fun p => hv (if list_eqb sh [] then [] else p))).
Proof.
  intros Hsh Hh t Ht. unfold neumann_model. rewrite pyget_model. cbn [bind]. rewrite pick_adf. cbn [bind].
  destruct (value_and_jacfwd_rep t Ht) as (l & g & -> & Sl & Vl & Sg & Lg). cbn [bind].
  assert (Hf : repT n s (fun x => model (slice_to (upd args j t) am ++ x :: slice_from (upd args j t) (am + 1)) kw) u).
  { intros x Hx. rewrite (slices (upd args j t) am j t) by (auto; try apply upd_nth_error; auto; lia).
    rewrite upd_upd. apply Hu. exact Hx. }
  destruct (jvp_repT n s _ u t g Hf Ht Sg) as (v & d & Ej & Ev & Sd & Vd).
  cbv zeta. rewrite Ej. cbn [bind].
  destruct (Hh t Ht) as (w & Ew & Sw & Vw).
  destruct (pick (upd args j t) nh) as [xh|e] eqn:Exh; [|discriminate]. cbn [bind] in Ew |- *. rewrite Ew. cbn [bind].
  assert (SV : shape v = s /\ forall p, inside s p -> entry v p = u p (tlist t)).
  { destruct (Hf t Ht) as (v' & Ev' & Sv' & Vv'). rewrite Ev in Ev'. injection Ev' as ->. auto. }
  destruct SV as (Sv & Vv).
  destruct (tbop_scal_l Rmult l d s Sl Sd) as (a & -> & Sa & Va). cbn [bind].
  destruct (tbop_same Rminus v a s Sv Sa) as (b & -> & Sb & Vb). cbn [bind].
  destruct (tbop_scal_l Rmult l w sh Sl Sw) as (c & -> & Sc & Vc). cbn [bind].
  assert (Final : exists y, tbop Rminus b c = Ok y /\ shape y = s /\
     forall p, inside s p -> entry y p = entry b p - entry c (if list_eqb sh [] then [] else p)).
  { destruct (list_eqb sh []) eqn:El.
    - apply list_eqb_eq in El. rewrite El in Sc. apply (tbop_scal_r Rminus b c s Sb Sc).
    - destruct Hsh as [E|E]; [|rewrite E in El; discriminate]. rewrite E in Sc.
      apply (tbop_same Rminus b c s Sb Sc). }
  destruct Final as (y & Ey & Sy & Vy). exists y. split; [exact Ey|]. split; [exact Sy|].
  intros p Hp. rewrite Vy by auto. rewrite Vb, Va, Vv, Vd by auto. unfold neumann_value. rewrite Lg, Vl.
  f_equal.
  assert (Hp' : inside sh (if list_eqb sh [] then [] else p)).
  { destruct (list_eqb sh []) eqn:El.
    - apply list_eqb_eq in El. rewrite El. constructor.
    - destruct Hsh as [E|E]; [rewrite E; exact Hp|rewrite E in El; discriminate]. }
  rewrite Vc by auto. rewrite Vl, Vw by auto. reflexivity.
Qed.
End Neumann.

(** product with a factor that vanishes: only continuity of the other one is needed *)
Lemma is_derive_vanishing (w k : R -> R) (a d : R) : is_derive w a d -> w a = 0 -> continuous k a ->
  is_derive (fun t => w t * k t) a (d * k a).
Proof.
  intros Hw Hz Hk. apply is_derive_Reals. apply is_derive_Reals in Hw.
  apply continuity_pt_filterlim in Hk.
  intros eps He.
  set (M := Rabs d + 1). set (B := Rabs (k a) + 1).
  assert (HM : 0 < M) by (unfold M; pose proof (Rabs_pos d); lra).
  assert (HB : 0 < B) by (unfold B; pose proof (Rabs_pos (k a)); lra).
  set (e1 := Rmin 1 (eps / (2 * B))).
  assert (He1 : 0 < e1) by (apply Rmin_glb_lt; [lra|apply Rdiv_lt_0_compat; lra]).
  destruct (Hw e1 He1) as (d1 & H1).
  set (e2 := eps / (2 * M)). assert (He2 : 0 < e2) by (apply Rdiv_lt_0_compat; lra).
  destruct (Hk e2 He2) as (d2 & Hd2 & H2).
  assert (Hd : 0 < Rmin d1 d2) by (apply Rmin_glb_lt; [apply cond_pos|lra]).
  exists (mkposreal _ Hd). intros h Hh Hlt. cbn in Hlt. rewrite Hz, Rmult_0_l, Rminus_0_r.
  assert (Q : Rabs (w (a + h) / h - d) < e1).
  { specialize (H1 h Hh). rewrite Hz, Rminus_0_r in H1. apply H1.
    apply Rlt_le_trans with (1 := Hlt), Rmin_l. }
  assert (P : Rabs (k (a + h) - k a) < e2).
  { apply (H2 (a + h)). split.
    - split; [exact I|]. lra.
    - change (Rabs (a + h - a) < d2). replace (a + h - a) with h by ring.
      apply (Rlt_le_trans _ _ _ Hlt), Rmin_r. }
  set (q := w (a + h) / h) in *.
  replace (w (a + h) * k (a + h) / h - d * k a) with (q * (k (a + h) - k a) + (q - d) * k a)
    by (unfold q; field; auto).
  eapply Rle_lt_trans; [apply Rabs_triang|]. rewrite !Rabs_mult.
  assert (Hq : Rabs q <= M).
  { replace q with (d + (q - d)) by ring. eapply Rle_trans; [apply Rabs_triang|]. unfold M.
    assert (e1 <= 1) by apply Rmin_l. lra. }
  assert (A : Rabs q * Rabs (k (a + h) - k a) <= eps / 2).
  { apply Rle_trans with (M * e2).
    - apply Rmult_le_compat; try apply Rabs_pos; lra.
    - unfold e2. right. field. lra. }
  assert (C : Rabs (q - d) * Rabs (k a) < eps / 2).
  { apply Rle_lt_trans with (e1 * Rabs (k a)); [apply Rmult_le_compat_r; [apply Rabs_pos|lra]|].
    apply Rlt_le_trans with (e1 * B).
    - apply Rmult_lt_compat_l; [exact He1|unfold B; lra].
    - apply Rle_trans with (eps / (2 * B) * B).
      + apply Rmult_le_compat_r; [lra|apply Rmin_r].
      + right. field. lra. }
  lra.
Qed.

Lemma abs_le_lsum v n i : (i < n)%nat -> Rabs (nth i v 0) <= lsum n (fun j => Rabs (nth j v 0)).
Proof.
  induction n as [|n IH]; intros Hi; [lia|]. rewrite lsum_S.
  pose proof (Rabs_pos (nth n v 0)).
  assert (0 <= lsum n (fun j => Rabs (nth j v 0))) by (apply lsum_nonneg; intros; apply Rabs_pos).
  destruct (Nat.eq_dec i n) as [->|]; [lra|]. specialize (IH ltac:(lia)). lra.
Qed.

Lemma cont_at_along g x v : cont_at g x -> List.length x = List.length v -> cont_along g x v.
Proof.
  intros H L. unfold cont_along. apply continuity_pt_filterlim. intros eps He.
  destruct (H eps He) as (d & Hd & Hb).
  set (S := lsum (List.length x) (fun i => Rabs (nth i v 0))).
  assert (HS : 0 <= S) by (apply lsum_nonneg; intros; apply Rabs_pos).
  exists (d / (1 + S)). split; [apply Rdiv_lt_0_compat; lra|].
  intros t (_ & Ht). unfold dist in *. cbn in *. unfold R_dist in *. rewrite Rminus_0_r in Ht.
  assert (E0 : axpy 0 x v = x).
  { apply vec_ext; [apply axpy_length; lia|]. intros i Hi. rewrite nth_axpy by lia. ring. }
  rewrite E0. apply Hb. split; [apply axpy_length; auto|].
  intros i. rewrite nth_axpy by auto. replace (_ + _ - _) with (t * nth i v 0) by ring. rewrite Rabs_mult.
  assert (Hv : Rabs (nth i v 0) <= S).
  { destruct (Nat.lt_ge_cases i (List.length x)) as [Hi|Hi].
    - apply (abs_le_lsum v); auto.
    - rewrite nth_overflow by lia. rewrite Rabs_R0. exact HS. }
  apply Rle_lt_trans with (Rabs t * (1 + S)).
  - apply Rmult_le_compat_l; [apply Rabs_pos|]. lra.
  - apply Rlt_le_trans with (d / (1 + S) * (1 + S)).
    + apply Rmult_lt_compat_r; [lra|exact Ht].
    + right. field. lra.
Qed.

Lemma lsum_continuous m (h : nat -> R -> R) a : (forall i, (i < m)%nat -> continuous (h i) a) ->
  continuous (fun t => lsum m (fun i => h i t)) a.
Proof.
  induction m as [|m IH]; intros H.
  - apply (continuous_const 0).
  - apply (continuous_ext (fun t => lsum m (fun i => h i t) + h m t)).
    + intros t. symmetry. apply lsum_S.
    + apply (continuous_plus (fun t => lsum m (fun i => h i t)) (h m)); [apply IH; intros; apply H; lia|apply H; lia].
Qed.

(** the normal derivative of the constrained model on the boundary *)
Lemma neumann_boundary n D (phi u hh : list R -> R) x : openset n D -> C1 n D phi -> C1 n D u -> D x ->
  phi x = 0 -> grad_sq n phi x = 1 -> cont_along hh x (outward n phi x) ->
  let U y := u y - phi y * Derive (fun r => u (axpy r y (gradv n phi y))) 0 - phi y * hh y in
  is_derive (fun t => U (axpy t x (outward n phi x))) 0 (hh x).
Proof.
  intros HO Hp Hu Dx Hz Hg Hh U. destruct (HO x Dx) as (Lx & dl & Hdl & HD).
  set (nu := outward n phi x).
  assert (Ln : List.length nu = n) by (unfold nu, outward; rewrite map_length, seq_length; auto).
  assert (E0 : axpy 0 x nu = x).
  { apply vec_ext; [apply axpy_length; lia|]. intros i Hi. rewrite nth_axpy by lia. ring. }
  set (N := fun y => lsum n (fun i => pd i u y * pd i phi y)).
  assert (EN : forall y, D y -> Derive (fun r => u (axpy r y (gradv n phi y))) 0 = N y).
  { intros y Dy. destruct (HO y Dy) as (Ly & _).
    transitivity (lsum n (fun i => pd i u y * nth i (gradv n phi y) 0)).
    - apply is_derive_unique. apply (chain_line n D); auto. unfold gradv. rewrite map_length, seq_length. auto.
    - apply lsum_ext. intros i Hi. f_equal. apply (nth_map_seq (fun i => pd i phi y)). auto. }
  assert (nui : forall i, (i < n)%nat -> nth i nu 0 = - pd i phi x).
  { intros i Hi. apply (nth_map_seq (fun i => - pd i phi x)). auto. }
  assert (Hw : is_derive (fun t => phi (axpy t x nu)) 0 (-1)).
  { replace (-1) with (lsum n (fun i => pd i phi x * nth i nu 0)); [apply (chain_line n D); auto|].
    transitivity (- grad_sq n phi x); [|rewrite Hg; ring].
    unfold grad_sq, total. fold (lsum n (fun i => pd i phi x * pd i phi x)).
    clear -nui. assert (G : forall m, (m <= n)%nat -> lsum m (fun i => pd i phi x * nth i nu 0) = - lsum m (fun i => pd i phi x * pd i phi x)).
    { induction m as [|m IH]; intros Hm; [unfold lsum; cbn; ring|]. rewrite !lsum_S, IH, nui by lia. ring. }
    apply G. lia. }
  assert (Hud : is_derive (fun t => u (axpy t x nu)) 0 (- N x)).
  { replace (- N x) with (lsum n (fun i => pd i u x * nth i nu 0)); [apply (chain_line n D); auto|].
    unfold N. clear -nui. assert (G : forall m, (m <= n)%nat -> lsum m (fun i => pd i u x * nth i nu 0) = - lsum m (fun i => pd i u x * pd i phi x)).
    { induction m as [|m IH]; intros Hm; [unfold lsum; cbn; ring|]. rewrite !lsum_S, IH, nui by lia. ring. }
    apply G. lia. }
  assert (HN : continuous (fun t => N (axpy t x nu)) 0).
  { unfold N. apply (lsum_continuous n (fun i t => pd i u (axpy t x nu) * pd i phi (axpy t x nu))).
    intros i Hi. apply (continuous_mult (fun t => pd i u (axpy t x nu)) (fun t => pd i phi (axpy t x nu))).
    - apply cont_at_along; [apply (Hu i x Hi Dx)|lia].
    - apply cont_at_along; [apply (Hp i x Hi Dx)|lia]. }
  assert (Hprod : is_derive (fun t => phi (axpy t x nu) * (N (axpy t x nu) + hh (axpy t x nu))) 0
     (-1 * (N (axpy 0 x nu) + hh (axpy 0 x nu)))).
  { apply (is_derive_vanishing (fun t => phi (axpy t x nu)) (fun t => N (axpy t x nu) + hh (axpy t x nu)) 0 (-1)).
    - exact Hw.
    - rewrite E0. exact Hz.
    - apply (continuous_plus (fun t => N (axpy t x nu)) (fun t => hh (axpy t x nu))); auto. }
  rewrite E0 in Hprod.
  assert (Hloc : locally 0 (fun t => D (axpy t x nu))).
  { set (S := lsum n (fun i => Rabs (nth i nu 0))).
    assert (HS : 0 <= S) by (apply lsum_nonneg; intros; apply Rabs_pos).
    assert (Hd : 0 < dl / (1 + S)) by (apply Rdiv_lt_0_compat; lra).
    exists (mkposreal _ Hd). intros t Ht. apply HD. split; [apply axpy_length; lia|].
    assert (Ht' : Rabs t < dl / (1 + S)).
    { change (Rabs (t - 0) < dl / (1 + S)) in Ht. rewrite Rminus_0_r in Ht. exact Ht. }
    intros i. rewrite nth_axpy by lia. replace (_ + _ - _) with (t * nth i nu 0) by ring. rewrite Rabs_mult.
    assert (Hv : Rabs (nth i nu 0) <= S).
    { destruct (Nat.lt_ge_cases i n) as [Hi|Hi].
      - apply (abs_le_lsum nu); auto.
      - rewrite nth_overflow by lia. rewrite Rabs_R0. exact HS. }
    apply Rle_lt_trans with (Rabs t * (1 + S)).
    - apply Rmult_le_compat_l; [apply Rabs_pos|]. lra.
    - apply Rlt_le_trans with (dl / (1 + S) * (1 + S)).
      + apply Rmult_lt_compat_r; [lra|exact Ht'].
      + right. field. lra. }
  apply (is_derive_ext_loc (fun t => u (axpy t x nu) - phi (axpy t x nu) * (N (axpy t x nu) + hh (axpy t x nu)))).
  - revert Hloc. apply filter_imp. intros t Dt. unfold U. rewrite EN by auto.
    change (@eq R (u (axpy t x nu) - phi (axpy t x nu) * (N (axpy t x nu) + hh (axpy t x nu)))
      (u (axpy t x nu) - phi (axpy t x nu) * N (axpy t x nu) - phi (axpy t x nu) * hh (axpy t x nu))). ring.
  - replace (hh x) with (- N x - -1 * (N x + hh x)) by ring.
    apply (is_derive_minus (fun t => u (axpy t x nu)) (fun t => phi (axpy t x nu) * (N (axpy t x nu) + hh (axpy t x nu)))); auto.
Qed.

(** ** MLP *)
Lemma dense_ok features K b x s n : shape x = s ++ [n] -> List.length K = n ->
  Forall (fun r => List.length r = features) K -> List.length b = features ->
  exists y, dense features (K, b) x = Ok y /\ shape y = s ++ [features] /\
    forall p k, (k < features)%nat -> entry y (p ++ [k]) = nth k (affine K b (row x n p)) 0.
Proof.
  intros Sx LK FK Lb. unfold dense. rewrite Sx, rev_app_distr. cbn [rev app].
  rewrite LK, Nat.eqb_refl, Lb, Nat.eqb_refl.
  assert (E : forallb (fun r => Nat.eqb (List.length r) features) K = true).
  { apply forallb_forall. intros r Hr. rewrite Forall_forall in FK. apply Nat.eqb_eq. auto. }
  rewrite E. cbn [andb]. eexists. split; [reflexivity|]. cbn [shape entry]. rewrite rev_involutive. split; [reflexivity|].
  intros p k Hk. rewrite removelast_last, last_last. unfold affine. rewrite Lb.
  rewrite (nth_map_seq (fun k => sumR (map (fun i => nth i (row x n p) 0 * nth k (nth i K []) 0) (seq 0 (List.length K))) + nth k b 0)) by auto.
  rewrite LK. f_equal. apply sumR_map_ext. intros i Hi. apply in_seq in Hi. f_equal.
  unfold row. rewrite (nth_map_seq (fun i => entry x (p ++ [i]))) by lia. reflexivity.
Qed.

Lemma affine_length K b x : List.length (affine K b x) = List.length b.
Proof. unfold affine. rewrite map_length, seq_length. reflexivity. Qed.

Definition act_of (a : option (R -> R)) := match a with None => tanh | Some f => f end.

Lemma mlp_call_ok layers act : layers <> [] -> forall params n x s,
  fits n layers params -> shape x = s ++ [n] ->
  exists y, mlp_call layers act params x = Ok y /\
    shape y = s ++ (if Nat.eqb (last layers 0%nat) 1 then [] else [last layers 0%nat]) /\
    forall p, if Nat.eqb (last layers 0%nat) 1 then entry y p = nth 0 (net (act_of act) params (row x n p)) 0
              else forall k, (k < last layers 0%nat)%nat ->
                     entry y (p ++ [k]) = nth k (net (act_of act) params (row x n p)) 0.
Proof.
  induction layers as [|m layers IH]; intros Hne params n x s F Sx; [congruence|].
  destruct params as [|(K, b) params]; [destruct F|]. destruct F as (LK & FK & Lb & F).
  destruct (dense_ok m K b x s n Sx LK FK Lb) as (y & Ey & Sy & Vy).
  destruct layers as [|m' layers].
  - destruct params; [|destruct F]. cbn [mlp_call]. rewrite Ey. cbn [bind last net].
    destruct (Nat.eqb_spec m 1) as [->|Hm].
    + eexists. split; [reflexivity|]. cbn [shape entry]. rewrite Sy, removelast_last, app_nil_r. split; [reflexivity|].
      intros p. apply Vy. lia.
    + exists y. split; [reflexivity|]. split; [exact Sy|]. intros p k Hk. apply Vy. exact Hk.
  - assert (Hr : forall p, row (tmap (act_of act) y) m p = map (act_of act) (affine K b (row x n p))).
    { intros p. apply nth_ext with (d := 0) (d' := act_of act 0).
      - unfold row. rewrite map_length, map_length, seq_length, affine_length. auto.
      - intros i Hi. unfold row in Hi. rewrite map_length, seq_length in Hi. rewrite map_nth.
        unfold row at 1. rewrite (nth_map_seq (fun i => entry (tmap (act_of act) y) (p ++ [i]))) by auto.
        cbn [entry tmap]. rewrite Vy by auto. reflexivity. }
    destruct (IH ltac:(discriminate) params m (tmap (act_of act) y) s F Sy) as (z & Ez & Sz & Vz).
    exists z. split.
    + cbn [mlp_call]. rewrite Ey. cbn [bind]. exact Ez.
    + change (last (m :: m' :: layers) 0%nat) with (last (m' :: layers) 0%nat). split; [exact Sz|].
      intros p. specialize (Vz p). rewrite Hr in Vz.
      destruct params as [|q params]; [destruct F|].
      change (net (act_of act) ((K, b) :: q :: params) (row x n p))
        with (net (act_of act) (q :: params) (map (act_of act) (affine K b (row x n p)))). exact Vz.
Qed.

Lemma mlp_call_wrong_size layers act params n x s m : fits n layers params -> layers <> [] ->
  shape x = s ++ [m] -> m <> n -> mlp_call layers act params x = Err ValueError.
Proof.
  intros F Hne Sx Hm. destruct layers as [|l layers]; [congruence|]. destruct params as [|(K, b) params]; [destruct F|].
  destruct F as (LK & _). assert (E : dense l (K, b) x = Err ValueError).
  { unfold dense. rewrite Sx, rev_app_distr. cbn [rev app]. destruct (Nat.eqb_spec (List.length K) m); [congruence|]. reflexivity. }
  cbn [mlp_call]. rewrite E. destruct layers; reflexivity.
Qed.

Lemma mlp_call_0d layers act params n x : fits n layers params -> layers <> [] ->
  shape x = [] -> mlp_call layers act params x = Err IndexError.
Proof.
  intros F Hne Sx. destruct layers as [|l layers]; [congruence|]. destruct params as [|(K, b) params]; [destruct F|].
  cbn [mlp_call]. unfold dense. rewrite Sx. cbn. destruct layers; reflexivity.
Qed.

Lemma init_fits init : (forall i n m, List.length (fst (init i n m)) = n /\
    Forall (fun r => List.length r = m) (fst (init i n m)) /\ List.length (snd (init i n m)) = m) ->
  forall layers i n, fits n layers (init_params init i n layers).
Proof.
  intros H layers. induction layers as [|m layers IH]; intros i n; cbn [init_params fits]; auto.
  destruct (H i n m) as (A & B & C). destruct (init i n m) as (K, b). cbn in A, B, C. auto.
Qed.

(** ** assembled statements *)
Lemma neumann_exact_some n D j s adf na nh am model args kw phi u h hh X :
  (j < List.length args)%nat -> am = Z.of_nat j ->
  (exists a, argn na = [a] /\ pyidx (List.length args) j a) ->
  rep0 n (fun t => adf [t]) phi -> repT n s (fun t => model (upd args j t) kw) u ->
  repT n s (fun t => xs <- pick (upd args j t) nh ;; h xs) hh ->
  openset n D -> C1 n D phi -> (forall p, inside s p -> C1 n D (u p)) -> D X ->
  phi X = 0 -> grad_sq n phi X = 1 ->
  (forall p, inside s p -> cont_along (hh p) X (outward n phi X)) ->
  exists U, repT n s (fun t => neumann_model adf (Some h) na am nh model (upd args j t) kw) U /\
    forall p, inside s p -> U p X = u p X /\
      is_derive (fun t => U p (axpy t X (outward n phi X))) 0 (hh p X).
Proof.
  intros Hj Ha Hna Hphi Hu Hh HO Cphi Cu DX Hz Hg Hc.
  exists (neumann_value n phi u (fun p => hh (if list_eqb s [] then [] else p))).
  split; [apply (neumann_rep_gen n j s adf na nh am model args kw phi u Hj Ha Hna Hphi Hu (Some h) s hh); auto|].
  intros p Hp. assert (Ep : (if list_eqb s [] then [] else p) = p).
  { destruct (list_eqb s []) eqn:E; auto. apply list_eqb_eq in E. subst s. inversion Hp. reflexivity. }
  unfold neumann_value. rewrite Ep. split.
  - rewrite Hz. ring.
  - apply (neumann_boundary n D phi (u p) (hh p) X); auto.
Qed.

Lemma neumann_exact_none n D j s adf na nh am model args kw phi u X :
  (j < List.length args)%nat -> am = Z.of_nat j ->
  (exists a, argn na = [a] /\ pyidx (List.length args) j a) ->
  (exists is, Forall2 (fun k i => pyidx (List.length args) i k) (argn nh) is) ->
  rep0 n (fun t => adf [t]) phi -> repT n s (fun t => model (upd args j t) kw) u ->
  openset n D -> C1 n D phi -> (forall p, inside s p -> C1 n D (u p)) -> D X ->
  phi X = 0 -> grad_sq n phi X = 1 ->
  exists U, repT n s (fun t => neumann_model adf None na am nh model (upd args j t) kw) U /\
    forall p, inside s p -> U p X = u p X /\
      is_derive (fun t => U p (axpy t X (outward n phi X))) 0 0.
Proof.
  intros Hj Ha Hna (is & Hnh) Hphi Hu HO Cphi Cu DX Hz Hg.
  exists (neumann_value n phi u (fun p _ => 0)).
  split.
  - assert (R0 : repT n [] (fun t => xs <- pick (upd args j t) nh ;; or_zero None xs) (fun _ _ => 0)).
    { intros t Ht. rewrite (pick_ok _ nh is) by (rewrite upd_length; exact Hnh). cbn [bind or_zero].
      exists (tsc 0). repeat split; auto. }
    apply (neumann_rep_gen n j s adf na nh am model args kw phi u Hj Ha Hna Hphi Hu None [] (fun _ _ => 0)); auto.
  - intros p Hp. unfold neumann_value. split.
    + rewrite Hz. ring.
    + apply (neumann_boundary n D phi (u p) (fun _ => 0) X); auto. apply (continuous_const 0).
Qed.

(** the constrained model everywhere: value - adf * (normal derivative + h) *)
Lemma neumann_formula_some n D j s adf na nh am model args kw phi u h hh :
  (j < List.length args)%nat -> am = Z.of_nat j ->
  (exists a, argn na = [a] /\ pyidx (List.length args) j a) ->
  rep0 n (fun t => adf [t]) phi -> repT n s (fun t => model (upd args j t) kw) u ->
  repT n s (fun t => xs <- pick (upd args j t) nh ;; h xs) hh ->
  openset n D -> (forall p, inside s p -> C1 n D (u p)) ->
  forall t, shape t = [n] -> D (tlist t) ->
  exists y, neumann_model adf (Some h) na am nh model (upd args j t) kw = Ok y /\ shape y = s /\
    forall p, inside s p -> entry y p
      = u p (tlist t) - phi (tlist t) * total n (fun i => pd i (u p) (tlist t) * pd i phi (tlist t))
        - phi (tlist t) * hh p (tlist t).
Proof.
  intros Hj Ha Hna Hphi Hu Hh HO Cu t Ht Dt.
  destruct (neumann_rep_gen n j s adf na nh am model args kw phi u Hj Ha Hna Hphi Hu (Some h) s hh (or_introl eq_refl) Hh t Ht)
    as (y & E & S & V).
  exists y. split; [exact E|]. split; [exact S|]. intros p Hp. rewrite V by auto.
  assert (Ep : (if list_eqb s [] then [] else p) = p).
  { destruct (list_eqb s []) eqn:Es; auto. apply list_eqb_eq in Es. rewrite Es in Hp. inversion Hp. reflexivity. }
  unfold neumann_value. rewrite Ep. do 2 f_equal. f_equal.
  destruct (HO _ Dt) as (Lt & _).
  transitivity (lsum n (fun i => pd i (u p) (tlist t) * nth i (gradv n phi (tlist t)) 0)).
  - apply is_derive_unique. apply (chain_line n D); auto. unfold gradv. rewrite map_length, seq_length. auto.
  - apply lsum_ext. intros i Hi. f_equal. apply (nth_map_seq (fun i => pd i phi (tlist t))). auto.
Qed.

(** with [argnum_model = -1] the model is called with all but the last argument, the
    point, and then all arguments again *)
Lemma slices_minus_one {A} (l : list A) v :
  slice_to l (-1) ++ v :: slice_from l (-1 + 1) = removelast l ++ v :: l.
Proof.
  unfold slice_to, slice_from.
  assert (E0 : clip (List.length l) (-1 + 1) = 0%nat).
  { unfold clip. change (-1 + 1 <? 0)%Z with false. cbv iota. lia. }
  assert (E1 : clip (List.length l) (-1) = (List.length l - 1)%nat).
  { unfold clip. change (-1 <? 0)%Z with true. cbv iota. lia. }
  rewrite E0, E1. cbn [skipn]. f_equal.
  destruct l as [|a l]; [reflexivity|]. rewrite removelast_firstn_len. f_equal. cbn [List.length]. lia.
Qed.

Lemma ic_limit m0 t0 rate nm nt model kw s (args : R -> list tensor) (v v0 : R -> tensor) p B :
  0 < rate -> inside s p ->
  (forall t, exists tt, pyget (args t) nt = Ok tt /\ shape tt = [] /\ entry tt [] = t) ->
  (forall t, model (args t) kw = Ok (v t) /\ shape (v t) = s /\ Rabs (entry (v t) p) <= B) ->
  (forall t, (xs <- pick (args t) nm ;; m0 xs) = Ok (v0 t) /\ shape (v0 t) = s /\ Rabs (entry (v0 t) p) <= B) ->
  exists y : R -> tensor, (forall t, ic_model m0 t0 rate nm nt model (args t) kw = Ok (y t)) /\
    is_lim (fun t => entry (y t) p - entry (v t) p) p_infty 0.
Proof.
  intros Hr Hp Ht Hv H0.
  assert (HY : forall t, exists y, ic_model m0 t0 rate nm nt model (args t) kw = Ok y /\
     entry y p = exp (- rate * (t - t0)) * entry (v0 t) p + (1 - exp (- rate * (t - t0))) * entry (v t) p).
  { intros t. destruct (Ht t) as (tt & E1 & S1 & V1). destruct (Hv t) as (E2 & S2 & _). destruct (H0 t) as (E3 & S3 & _).
    destruct (pick (args t) nm) as [xs|e] eqn:Ep; [|discriminate]. cbn [bind] in E3.
    destruct (ic_ok m0 t0 rate nm nt model (args t) kw tt (v t) xs (v0 t) s E1 E2 Ep E3 S1 S2 S3) as (y & E & _ & V).
    exists y. split; [exact E|]. rewrite V by auto. rewrite V1. reflexivity. }
  exists (fun t => match ic_model m0 t0 rate nm nt model (args t) kw with Ok y => y | Err _ => tsc 0 end).
  split.
  - intros t. destruct (HY t) as (y & -> & _). reflexivity.
  - apply (is_lim_ext (fun t => exp (- rate * (t - t0)) * (entry (v0 t) p - entry (v t) p))).
    { intros t. destruct (HY t) as (y & -> & ->). ring. }
    assert (L : is_lim (fun t => (2 * B) * exp (- rate * (t - t0))) p_infty 0).
    { replace (Finite 0) with (Rbar_mult (2 * B) 0) by (cbn; f_equal; ring).
      apply is_lim_scal_l.
      apply (is_lim_comp exp (fun t => - rate * (t - t0)) p_infty 0 m_infty).
      - apply is_lim_exp_m.
      - apply (is_lim_ext (fun t => - rate * t + rate * t0)); [intros; ring|].
        apply (is_lim_plus (fun t => - rate * t) (fun _ => rate * t0) p_infty m_infty (rate * t0)).
        + replace m_infty with (Rbar_mult (- rate) p_infty).
          * apply is_lim_scal_l. apply is_lim_id.
          * unfold Rbar_mult, Rbar_mult'. destruct (Rle_dec 0 (- rate)) as [H|H]; [exfalso; lra|]. reflexivity.
        + apply is_lim_const.
        + reflexivity.
      - exists 0. intros y _. discriminate. }
    apply (is_lim_le_le_loc (fun t => - (2 * B * exp (- rate * (t - t0)))) (fun t => 2 * B * exp (- rate * (t - t0)))).
    + exists 0. intros t _.
      destruct (Hv t) as (_ & _ & Bv). destruct (H0 t) as (_ & _ & B0).
      pose proof (exp_pos (- rate * (t - t0))) as He. set (E := exp (- rate * (t - t0))) in *.
      assert (Rabs (entry (v0 t) p - entry (v t) p) <= 2 * B) as Hb.
      { unfold Rminus. eapply Rle_trans; [apply Rabs_triang|]. rewrite Rabs_Ropp. lra. }
      apply Rabs_le_between in Hb. split; nra.
    + replace (Finite 0) with (Rbar_opp 0) by (cbn; f_equal; ring). apply is_lim_opp. exact L.
    + exact L.
Qed.

(** ** negative argument numbers *)
Lemma negative_same (args : list tensor) k : (k < List.length args)%nat ->
  pick args (One (Z.of_nat k - Z.of_nat (List.length args))) = pick args (One (Z.of_nat k)) /\
  pyget args (Z.of_nat k - Z.of_nat (List.length args)) = pyget args (Z.of_nat k).
Proof.
  intros H. destruct (nth_error args k) as [x|] eqn:E; [|apply nth_error_None in E; lia].
  destruct (pyget_pos args (Z.of_nat k - Z.of_nat (List.length args)) k x E (or_intror eq_refl)) as (E1 & _).
  destruct (pyget_pos args (Z.of_nat k) k x E (or_introl eq_refl)) as (E2 & _).
  split; [|congruence]. unfold pick. cbn [argn map]. rewrite E1, E2. reflexivity.
Qed.
