(** Proofs about examples/mumag3.py, part 2: constructor, faces, normalisation, ADF. *)
From Coquelicot Require Import Coquelicot.
From Verif Require Import Base BaseFacts P_Vec M_Quat M_RFun S_RFun P_RFun1 P_RFun2 M_Domain M_Tensor M_Calc M_Integrate M_Surface M_Mumag.
From Verif Require Import S_Calc S_Integrate S_Model S_Surface S_Mumag P_Surface1 P_Mumag1.

(** ** constructor *)
Lemma insert_hd a l : nondecreasing l -> (forall b, In b l -> a <= b) -> insert_sorted a l = a :: l.
Proof.
  intros _ H. destruct l as [|b t]; cbn; auto.
  destruct (Rleb a b) eqn:E; auto. apply Rleb_false in E. specialize (H b (or_introl eq_refl)). lra.
Qed.
Lemma nondecreasing_tl a l : nondecreasing (a :: l) -> nondecreasing l.
Proof. destruct l; cbn; tauto. Qed.
Lemma nondecreasing_all a l : nondecreasing (a :: l) -> forall b, In b l -> a <= b.
Proof.
  revert a. induction l as [|c t IH]; cbn [In]; [tauto|]. intros a H b [<-|Hb]; cbn in H; [tauto|].
  apply Rle_trans with c; [tauto|]. apply (IH c); tauto.
Qed.
Lemma jsort_sorted l : nondecreasing l -> jsort l = l.
Proof.
  induction l as [|a t IH]; intros H; cbn [jsort]; auto. rewrite IH by (eapply nondecreasing_tl; eauto).
  apply insert_hd; [eapply nondecreasing_tl; eauto|apply nondecreasing_all; auto].
Qed.
Lemma insert_nondecreasing a l : nondecreasing l -> nondecreasing (insert_sorted a l).
Proof.
  induction l as [|b t IH]; intros H; cbn [insert_sorted]; [cbn; auto|].
  destruct (Rleb a b) eqn:E.
  - apply Rleb_true in E. cbn. split; auto.
  - apply Rleb_false in E. specialize (IH (nondecreasing_tl _ _ H)).
    destruct t as [|c t]; cbn [insert_sorted] in *; [cbn; split; [lra|auto]|].
    destruct (Rleb a c) eqn:E2.
    + split; [lra|]. exact IH.
    + split; [cbn in H; tauto|]. exact IH.
Qed.
Lemma jsort_nondecreasing l : nondecreasing (jsort l).
Proof. induction l; cbn [jsort]; [cbn; auto|]. apply insert_nondecreasing; auto. Qed.
Lemma insert_length a l : length (insert_sorted a l) = S (length l).
Proof. induction l as [|b t IH]; cbn; auto. destruct (Rleb a b); cbn; auto. Qed.
Lemma jsort_length l : length (jsort l) = length l.
Proof. induction l; cbn [jsort]; auto. rewrite insert_length. cbn. auto. Qed.
Lemma all_eq_iff a b : length a = length b -> all_eq a b = true <-> a = b.
Proof.
  revert b. induction a as [|x a IH]; intros [|y b] L; try discriminate; unfold all_eq in *; cbn; [tauto|].
  injection L as L. destruct (Req_EM_T x y) as [->|N]; cbn.
  - rewrite IH by auto. split; congruence.
  - split; [discriminate|]. intros H. injection H. tauto.
Qed.
Lemma validate_iff g : validate g = Ok tt <-> good_grid g.
Proof.
  unfold validate, good_grid. destruct (Nat.ltb_spec 1 (length g)) as [H|H]; cbn [assert_ bind].
  - destruct (all_eq (jsort g) g) eqn:E; cbn.
    + apply all_eq_iff in E; [|apply jsort_length]. split; auto. intros _. split; auto. rewrite <- E. apply jsort_nondecreasing.
    + split; [discriminate|]. intros (_ & N). apply jsort_sorted in N.
      apply (proj2 (all_eq_iff (jsort g) g (jsort_length g))) in N. congruence.
  - split; [discriminate|]. lia.
Qed.
Lemma validate_err g : ~ good_grid g -> validate g = Err AssertionError.
Proof.
  intros H. destruct (validate g) as [[]|e] eqn:E; [exfalso; apply H; apply validate_iff; auto|].
  unfold validate in E. destruct (Nat.ltb 1 (length g)); cbn in E; [|congruence].
  destruct (all_eq (jsort g) g); cbn in E; congruence.
Qed.
Definition box_of (xs ys zs : list R) : hypercube :=
  mkHypercube [first xs; first ys; first zs] [final xs; final ys; final zs].
Lemma Cuboid_ok xs ys zs : good_grid xs -> good_grid ys -> good_grid zs ->
  Cuboid xs ys zs = Ok (mkBrick xs ys zs (box_of xs ys zs) (make_faces xs ys zs)).
Proof.
  intros Hx Hy Hz. unfold Cuboid. rewrite (proj2 (validate_iff xs) Hx), (proj2 (validate_iff ys) Hy), (proj2 (validate_iff zs) Hz).
  reflexivity.
Qed.
Lemma good_grid_dec g : good_grid g \/ ~ good_grid g.
Proof. destruct (validate g) as [[]|e] eqn:E; [left; apply validate_iff; auto|]. right. intros H. apply validate_iff in H. congruence. Qed.
Lemma Cuboid_inv xs ys zs c : Cuboid xs ys zs = Ok c -> good_grid xs /\ good_grid ys /\ good_grid zs /\
  c = mkBrick xs ys zs (box_of xs ys zs) (make_faces xs ys zs).
Proof.
  intros H. destruct (good_grid_dec xs) as [Hx|Hx]; [|unfold Cuboid in H; rewrite (validate_err _ Hx) in H; discriminate].
  destruct (good_grid_dec ys) as [Hy|Hy].
  2:{ unfold Cuboid in H; rewrite (proj2 (validate_iff xs) Hx), (validate_err _ Hy) in H; discriminate. }
  destruct (good_grid_dec zs) as [Hz|Hz].
  2:{ unfold Cuboid in H; rewrite (proj2 (validate_iff xs) Hx), (proj2 (validate_iff ys) Hy), (validate_err _ Hz) in H; discriminate. }
  rewrite Cuboid_ok in H by auto. injection H as <-. auto.
Qed.
Lemma Cuboid_err xs ys zs : ~ (good_grid xs /\ good_grid ys /\ good_grid zs) -> Cuboid xs ys zs = Err AssertionError.
Proof.
  intros H. unfold Cuboid. destruct (good_grid_dec xs) as [Hx|Hx]; [|rewrite (validate_err _ Hx); reflexivity].
  rewrite (proj2 (validate_iff xs) Hx). cbn [bind].
  destruct (good_grid_dec ys) as [Hy|Hy]; [|rewrite (validate_err _ Hy); reflexivity].
  rewrite (proj2 (validate_iff ys) Hy). cbn [bind].
  destruct (good_grid_dec zs) as [Hz|Hz]; [|rewrite (validate_err _ Hz); reflexivity]. tauto.
Qed.

(** ** faces *)
Lemma adjacent_nth {C} (f : R -> R -> C) d : forall u i, (S i < length u)%nat ->
  nth i (adjacent f u) d = f (nth i u 0) (nth (S i) u 0).
Proof.
  intros u. unfold adjacent. induction u as [|a u IH]; intros i Hi; cbn [length] in Hi; [lia|].
  destruct u as [|b u]; cbn [length] in Hi; [lia|]. cbn [tl map2]. destruct i as [|i]; [reflexivity|].
  cbn [nth]. apply (IH i). cbn [length]. lia.
Qed.
Lemma adjacent_length {C} (f : R -> R -> C) u : length (adjacent f u) = (length u - 1)%nat.
Proof.
  unfold adjacent. destruct u as [|a u]; auto. cbn [tl]. revert a. induction u as [|b u IH]; intros a; auto.
  change (S (length (map2 f (b :: u) u)) = (length (a :: b :: u) - 1)%nat). rewrite IH. cbn. lia.
Qed.
Lemma face_midpoints_shape a b k v : shape (face_midpoints a b k v) = [length a - 1; length b - 1; 3]%nat.
Proof. unfold face_midpoints, tinsert. cbn [shape removelast last app]. rewrite !adjacent_length. reflexivity. Qed.
Lemma face_midpoints_row a b k v i j : (k < 3)%nat -> (S i < length a)%nat -> (S j < length b)%nat ->
  tlist (trow (trow (face_midpoints a b k v) i) j) = place k v [middle a i; middle b j].
Proof.
  intros Hk Hi Hj. unfold tlist, trow. cbn [shape]. rewrite face_midpoints_shape. cbn [tl hd seq map].
  unfold face_midpoints, tinsert, middle. cbn [entry removelast last app].
  destruct k as [|[|[|k]]]; try lia; cbn [Nat.ltb Nat.leb Nat.eqb Nat.sub place nth];
    rewrite !adjacent_nth by auto; repeat (f_equal; try lra).
Qed.

(** ** ADF and normal vector *)
Definition cj (a b : R) : R := a + b - sqrt (a ^ 2 + b ^ 2).
Definition box_adf (lo hi : list R) (x : list R) : R :=
  let u i := nth i hi 0 - nth i x 0 in let l i := nth i x 0 - nth i lo 0 in
  cj (cj (cj (cj (cj (u 0%nat) (l 0%nat)) (u 1%nat)) (l 1%nat)) (u 2%nat)) (l 2%nat).

Lemma cj_ok a b : ralpha_conj 0 a b = Ok (cj a b).
Proof.
  unfold ralpha_conj, fdiv, fsqrt, cj. destruct (Req_EM_T (1 + 0) 0); [lra|]. cbn [bind].
  replace (a ^ 2 + b ^ 2 - 2 * 0 * a * b) with (a ^ 2 + b ^ 2) by ring.
  destruct (Rlt_dec (a ^ 2 + b ^ 2) 0) as [H|H].
  { exfalso. pose proof (pow2_ge_0 a). pose proof (pow2_ge_0 b). lra. }
  cbn [bind]. f_equal. field.
Qed.
Lemma r0_sys : exists s, r0 = Ok s /\ (forall a b, conj_ s a b = Ok (cj a b)).
Proof.
  unfold r0, RAlpha. replace (Rltb (-1) 0 && Rleb 0 1)%bool with true.
  2:{ symmetry. apply andb_true_intro. split; [apply Rltb_true; lra|apply Rleb_true; lra]. }
  cbn [assert_ bind]. eexists. split; [reflexivity|]. intros. cbn [conj_]. apply cj_ok.
Qed.
Lemma cub_adf_ok xs ys zs c x : Cuboid xs ys zs = Ok c -> length x = 3%nat ->
  cub_adf c (A1 x) = Ok (box_adf [first xs; first ys; first zs] [final xs; final ys; final zs] x).
Proof.
  intros H Hx. apply Cuboid_inv in H. destruct H as (_ & _ & _ & ->). three x a b d.
  unfold cub_adf. destruct r0_sys as (s & -> & E). cbn [bind dom box_of lb ub map2].
  unfold translate, bop, bcast1. cbn [length Nat.eqb map2 bind]. unfold cuboid, compose.
  cbn [amap map sequence bop bcast1 length Nat.eqb map2 bind ravel interleave concat app].
  unfold bop, bcast1. cbn [length Nat.eqb map2 bind ravel interleave concat app reduce reduce_from].
  rewrite !E. cbn [bind]. rewrite E. cbn [bind]. rewrite E. cbn [bind]. rewrite E. cbn [bind]. rewrite E. cbn [bind].
  unfold box_adf. cbn [nth]. apply f_equal. repeat (apply (f_equal2 cj); [|ring]). ring.
Qed.

(** the value and derivative of an argument along a curve: positive and differentiable,
    or zero with derivative [d] *)
Definition pos_at (f : R -> R) (t : R) : Prop := 0 < f t /\ ex_derive f t.
Definition zero_at (f : R -> R) (t d : R) : Prop := f t = 0 /\ is_derive f t d.
Lemma cj_pos a b : 0 < a -> 0 < b -> 0 < cj a b.
Proof.
  intros Ha Hb. unfold cj. enough (sqrt (a ^ 2 + b ^ 2) < a + b) by lra.
  rewrite <- (sqrt_pow2 (a + b)) by lra. apply sqrt_lt_1_alt. nra.
Qed.
Lemma cj_pos_at f g t : pos_at f t -> pos_at g t -> pos_at (fun s => cj (f s) (g s)) t.
Proof.
  intros (Pf & Df) (Pg & Dg). split; [apply cj_pos; auto|]. destruct Df as (f' & Df), Dg as (g' & Dg).
  exists (f' + g' - (f t * f' + g t * g') / sqrt (f t ^ 2 + g t ^ 2)). unfold cj.
  assert (Q : 0 < f t ^ 2 + g t ^ 2) by nra.
  evar_last.
  - apply (is_derive_minus (fun s => f s + g s) (fun s => sqrt (f s ^ 2 + g s ^ 2))).
    + apply (is_derive_plus f g); eauto.
    + apply (is_derive_sqrt (fun s => f s ^ 2 + g s ^ 2)); [|exact Q].
      apply (is_derive_plus (fun s => f s ^ 2) (fun s => g s ^ 2)); apply is_derive_pow; eauto.
  - unfold minus, plus, opp. cbn. field. apply Rgt_not_eq, sqrt_lt_R0. cbn in Q. exact Q.
Qed.
Lemma cj_zero_at f g t d g' : f t = 0 -> is_derive f t d -> 0 < g t -> is_derive g t g' ->
  zero_at (fun s => cj (f s) (g s)) t d /\ zero_at (fun s => cj (g s) (f s)) t d.
Proof.
  intros Zf Df Pg Dg.
  assert (E : sqrt (f t ^ 2 + g t ^ 2) = g t) by (rewrite Zf; replace (0 ^ 2 + g t ^ 2) with (g t ^ 2) by ring; apply sqrt_pow2; lra).
  assert (Z : zero_at (fun s => cj (f s) (g s)) t d).
  { unfold zero_at, cj. rewrite E. split; [rewrite Zf; ring|]. assert (Q : 0 < f t ^ 2 + g t ^ 2) by nra. evar_last.
    - apply (is_derive_minus (fun s => f s + g s) (fun s => sqrt (f s ^ 2 + g s ^ 2))).
      + apply (is_derive_plus f g); eauto.
      + apply (is_derive_sqrt (fun s => f s ^ 2 + g s ^ 2)); [|exact Q].
        apply (is_derive_plus (fun s => f s ^ 2) (fun s => g s ^ 2)); apply is_derive_pow; eauto.
    - unfold minus, plus, opp. cbn [AbelianGroup.opp]. rewrite E, Zf. cbn. field. lra. }
  split; auto. destruct Z as (Z1 & Z2). split.
  - rewrite <- Z1. unfold cj. f_equal; [ring|f_equal; ring].
  - eapply is_derive_ext; [|exact Z2]. intros s. cbn. unfold cj. rewrite (Rplus_comm (f s ^ 2)). f_equal. ring.
Qed.
Lemma cj_zero_l f g t d : zero_at f t d -> pos_at g t -> zero_at (fun s => cj (f s) (g s)) t d.
Proof. intros (A & B) (C & g' & E). apply (cj_zero_at f g t d g'); auto. Qed.
Lemma cj_zero_r f g t d : zero_at f t d -> pos_at g t -> zero_at (fun s => cj (g s) (f s)) t d.
Proof. intros (A & B) (C & g' & E). apply (cj_zero_at f g t d g'); auto. Qed.

Ltac pos_arg := first
  [ apply cj_pos_at; [pos_arg|pos_arg]
  | split; [cbn beta; lra|auto_derive; auto] ].
Ltac zero_arg := first
  [ apply cj_zero_l; [zero_arg|pos_arg]
  | apply cj_zero_r; [zero_arg|pos_arg]
  | split; [cbn beta; lra|auto_derive; [auto|cbn; ring]] ].
Lemma box_normal xs ys zs k upper x i : side_interior xs ys zs k upper x -> (i < 3)%nat ->
  zero_at (fun t => box_adf [first xs; first ys; first zs] [final xs; final ys; final zs] (upd x i t)) (nth i x 0)
          (- side_normal k upper i).
Proof.
  intros (Hx & Hk & Hv & Hb & Hi') Hi. three x a b d.
  pose proof (Hi' 0%nat ltac:(lia)) as H0. pose proof (Hi' 1%nat ltac:(lia)) as H1. pose proof (Hi' 2%nat ltac:(lia)) as H2.
  clear Hi'. unfold box_adf.
  destruct k as [|[|[|k]]]; try lia; destruct upper; unfold side_value in Hv;
    cbn [axis_grid nth] in Hv, Hb, H0, H1, H2;
    repeat match goal with H : ?n <> ?m -> _ |- _ => first [specialize (H ltac:(discriminate)); destruct H | clear H] end;
    destruct i as [|[|[|i]]]; try lia; unfold side_normal; cbn [upd nth Nat.eqb]; zero_arg.
Qed.

Definition len3 (x : list R) : Prop := length x = 3%nat.
Lemma len3_open : openset 3 len3.
Proof. intros x Hx. split; [exact Hx|]. exists 1. split; [lra|]. intros y (L & _). unfold len3 in *. congruence. Qed.
Lemma cub_adfT_rep xs ys zs c : Cuboid xs ys zs = Ok c ->
  repD 3 len3 [] (cub_adfT c) (fun _ => box_adf [first xs; first ys; first zs] [final xs; final ys; final zs]).
Proof.
  intros H t St Lt. unfold cub_adfT. rewrite St, (cub_adf_ok xs ys zs c) by auto. cbn [bind].
  eexists. split; [reflexivity|]. split; [reflexivity|]. intros. reflexivity.
Qed.
Lemma normal1_ok xs ys zs c x : Cuboid xs ys zs = Ok c -> shape x = [3%nat] ->
  exists N, normal_vec1 c x = Ok N /\ shape N = [3%nat] /\
    forall i, (i < 3)%nat ->
      entry N [i] = - pd i (box_adf [first xs; first ys; first zs] [final xs; final ys; final zs]) (tlist x).
Proof.
  intros H Sx.
  destruct (jacfwd_repD 3 len3 [] _ _ len3_open (cub_adfT_rep xs ys zs c H) x Sx) as (J & E & SJ & V).
  { unfold len3, tlist. rewrite map_length, seq_length, Sx. reflexivity. }
  unfold normal_vec1. rewrite E. cbn [bind]. eexists. split; [reflexivity|]. cbn [tmap shape entry].
  split; [exact SJ|]. intros i Hi. rewrite (V [i]); [reflexivity|]. constructor; auto.
Qed.
Lemma tlist_len3 x : shape x = [3%nat] -> length (tlist x) = 3%nat.
Proof. intros S. unfold tlist. rewrite map_length, seq_length, S. reflexivity. Qed.
Lemma normal_side xs ys zs c x k upper : Cuboid xs ys zs = Ok c -> shape x = [3%nat] ->
  side_interior xs ys zs k upper (tlist x) ->
  exists N, normal_vec1 c x = Ok N /\ shape N = [3%nat] /\
    forall i, (i < 3)%nat -> entry N [i] = side_normal k upper i.
Proof.
  intros H Sx HS. destruct (normal1_ok xs ys zs c x H Sx) as (N & E & SN & V). exists N. split; auto. split; auto.
  intros i Hi. rewrite V by auto. unfold pd. rewrite (is_derive_unique _ _ _ (proj2 (box_normal _ _ _ _ _ _ _ HS Hi))). ring.
Qed.
Lemma normal_batch xs ys zs c X n k upper : Cuboid xs ys zs = Ok c -> shape X = [n; 3%nat] -> (0 < n)%nat ->
  (forall r, (r < n)%nat -> side_interior xs ys zs (k r) (upper r) (tlist (trow X r))) ->
  exists N, cub_normal_vec c X = Ok N /\ shape N = [n; 3%nat] /\
    forall r i, (r < n)%nat -> (i < 3)%nat -> entry N [r; i] = side_normal (k r) (upper r) i.
Proof.
  intros H SX Hn HS. unfold cub_normal_vec. rewrite SX.
  destruct (vmapT_ok (fun r => normal_vec1 c (trow X r)) (seq 0 n) [3%nat]
              (fun r N => forall i, (i < 3)%nat -> entry N [i] = side_normal (k r) (upper r) i)) as (Y & E & SY & V).
  - destruct n; [lia|discriminate].
  - intros r Hr. apply in_seq in Hr. destruct (normal_side xs ys zs c (trow X r) (k r) (upper r)) as (N & EN & SN & VN); auto.
    + unfold trow. cbn [shape]. rewrite SX. reflexivity.
    + apply HS. lia.
    + exists N. auto.
  - exists Y. split; auto. split; [rewrite SY, seq_length; reflexivity|]. intros r i Hr Hi.
    destruct (V r r) as (y & _ & _ & Q & Ent).
    { rewrite (nth_error_nth' _ 0%nat) by (rewrite seq_length; auto). rewrite seq_nth by auto. reflexivity. }
    rewrite Ent. auto.
Qed.

(** ** normalisation *)
Lemma normalize_ok xs ys zs c x : Cuboid xs ys zs = Ok c -> length x = 3%nat ->
  first xs < final xs -> first ys < final ys -> first zs < final zs ->
  exists y, cub_normalize c (A1 x) = Ok (A1 y) /\ length y = 3%nat /\
    forall k, (k < 3)%nat -> nth k y 0 = 2 * (nth k x 0 - first (axis_grid xs ys zs k))
       / (final (axis_grid xs ys zs k) - first (axis_grid xs ys zs k)) - 1.
Proof.
  intros H Hx L1 L2 L3. apply Cuboid_inv in H. destruct H as (_ & _ & _ & ->). three x a b d.
  unfold cub_normalize, bop, bopf, bcast1. cbn [dom box_of lb ub length Nat.eqb map2 bind amap map sequence].
  unfold fdiv. repeat match goal with |- context [Req_EM_T ?d 0] => destruct (Req_EM_T d 0); [exfalso; lra|] end.
  cbn [bind amap map]. eexists. split; [reflexivity|]. split; [reflexivity|].
  intros k Hk. destruct k as [|[|[|k]]]; try lia; reflexivity.
Qed.
Lemma normalize_err xs ys zs c x : Cuboid xs ys zs = Ok c -> length x = 3%nat ->
  first xs = final xs \/ first ys = final ys \/ first zs = final zs -> cub_normalize c (A1 x) = Err NonFinite.
Proof.
  intros H Hx L. apply Cuboid_inv in H. destruct H as (_ & _ & _ & ->). three x a b d.
  unfold cub_normalize, bop, bopf, bcast1. cbn [dom box_of lb ub length Nat.eqb map2 bind amap map sequence].
  unfold fdiv. repeat match goal with |- context [Req_EM_T ?d 0] => destruct (Req_EM_T d 0); cbn [bind]; auto end.
  exfalso. lra.
Qed.
Lemma adf_membership xs ys zs c x : Cuboid xs ys zs = Ok c -> length x = 3%nat ->
  membership (cub_adf c (A1 x)) [first xs; first ys; first zs] [final xs; final ys; final zs] x.
Proof.
  intros H Hx. destruct r0_sys as (s & Es & _).
  assert (SC : sign_correct s) by (eapply RAlpha_sign_correct; exact Es).
  apply Cuboid_inv in H. destruct H as (_ & _ & _ & ->). three x a b d.
  unfold cub_adf. rewrite Es. cbn [bind dom box_of lb ub map2].
  unfold translate, bop, bcast1. cbn [length Nat.eqb map2 bind].
  destruct (cuboid_corner [final xs - first xs; final ys - first ys; final zs - first zs]
             [a - first xs; b - first ys; d - first zs] s SC ltac:(discriminate) eq_refl) as (v & E & P & Z & N).
  exists v. split; [exact E|]. cbn [length repeat] in *.
  assert (SI : strictly_inside [0; 0; 0] [final xs - first xs; final ys - first ys; final zs - first zs] [a - first xs; b - first ys; d - first zs]
     <-> strictly_inside [first xs; first ys; first zs] [final xs; final ys; final zs] [a; b; d]).
  { unfold strictly_inside. cbn [length]. split; intros (A & B & C); repeat split; auto;
      specialize (C i H); destruct i as [|[|[|i]]]; cbn [nth] in *; try lra; lia. }
  assert (IC : inside_closed [0; 0; 0] [final xs - first xs; final ys - first ys; final zs - first zs] [a - first xs; b - first ys; d - first zs]
     <-> inside_closed [first xs; first ys; first zs] [final xs; final ys; final zs] [a; b; d]).
  { unfold inside_closed. cbn [length]. split; intros (A & B & C); repeat split; auto;
      specialize (C i H); destruct i as [|[|[|i]]]; cbn [nth] in *; try lra; lia. }
  rewrite P, N, Z, SI, IC. split; [tauto|]. split; [|tauto].
  split; intros (A & i & Hi & B); (split; [exact A|]); exists i; (split; [exact Hi|]);
    destruct i as [|[|[|i]]]; cbn [nth length] in *; try lia; lra.
Qed.
