(** Proofs for the Hessian vector products of calc.py on several pytrees. *)
From Coquelicot Require Import Coquelicot.
From Verif Require Import Base BaseFacts P_Vec M_Tensor M_Calc M_Jac M_HvpTree S_Calc S_Model S_Jac S_HvpTree.
From Verif Require Import P_AD P_Calc P_Calc2 P_Model P_Surface1 P_Jac P_CalcTree.

(** ** lists *)
Lemma upd_app1 {A} (l m : list A) i v : (i < length l)%nat -> upd (l ++ m) i v = upd l i v ++ m.
Proof.
  revert i. induction l as [|a l IH]; intros [|i] H; cbn in *; try lia; [reflexivity|]. f_equal. apply IH. lia.
Qed.
Lemma upd_app2 {A} (l m : list A) i v : upd (l ++ m) (length l + i) v = l ++ upd m i v.
Proof. induction l as [|a l IH]; [reflexivity|]. cbn [length Nat.add app upd]. f_equal. exact IH. Qed.
Lemma map2_app {A B C} (f : A -> B -> C) l l' m m' : length l = length m ->
  map2 f (l ++ l') (m ++ m') = map2 f l m ++ map2 f l' m'.
Proof.
  revert m. induction l as [|a l IH]; intros [|b m] H; try discriminate H; [reflexivity|]. cbn. f_equal. apply IH. cbn in H. lia.
Qed.
Lemma axpy_app t x v x' v' : length x = length v -> axpy t (x ++ x') (v ++ v') = axpy t x v ++ axpy t x' v'.
Proof. apply map2_app. Qed.

Lemma nth_error_ext_eq {A} (l m : list A) : (forall i, nth_error l i = nth_error m i) -> l = m.
Proof.
  revert m. induction l as [|a l IH]; intros [|b m] H; [reflexivity|specialize (H 0%nat); discriminate H|specialize (H 0%nat); discriminate H|].
  f_equal; [specialize (H 0%nat); cbn in H; congruence|]. apply IH. intros i. exact (H (S i)).
Qed.

(** ** entries of trees *)
Definition off (sh : list (list nat)) (l : nat) : nat := list_sum (map size1 (firstn l sh)).
Lemma flatten_size a : length (flatten a) = size1 (shape a).
Proof. unfold flatten. apply map_length. Qed.
Lemma flats_length p : length (flats p) = size_ (shapes p).
Proof.
  unfold flats, size_, shapes. induction p as [|a p IH]; [reflexivity|]. cbn [map concat list_sum fold_right].
  rewrite app_length, flatten_size. unfold list_sum in IH. lia.
Qed.
Lemma flatss_length ps : length (flatss ps) = sizes_ (map shapes ps).
Proof.
  unfold flatss, sizes_. induction ps as [|a p IH]; [reflexivity|]. cbn [map concat list_sum fold_right].
  rewrite app_length, flats_length. unfold list_sum in IH. lia.
Qed.
Lemma flats_cons a p : flats (a :: p) = flatten a ++ flats p.
Proof. reflexivity. Qed.
Lemma off_S s sh l : off (s :: sh) (S l) = (size1 s + off sh l)%nat.
Proof. reflexivity. Qed.
Lemma flats_nth p l a k q : nth_error p l = Some a -> nth_error (indices (shape a)) k = Some q ->
  nth (off (shapes p) l + k) (flats p) 0 = entry a q /\ (off (shapes p) l + k < size_ (shapes p))%nat.
Proof.
  revert l. induction p as [|b p IH]; intros [|l] Hl Hk; try discriminate Hl.
  - cbn in Hl. injection Hl as ->. cbn [off firstn map list_sum fold_right Nat.add].
    assert (Hk' : (k < size1 (shape a))%nat) by (apply nth_error_Some; congruence).
    rewrite flats_cons. rewrite app_nth1 by (rewrite flatten_size; auto). split; [apply flatten_nth; auto|].
    cbn [shapes map size_ list_sum fold_right]. lia.
  - destruct (IH l Hl Hk) as (E & L). cbn [shapes map]. fold (shapes p). rewrite off_S, flats_cons.
    rewrite app_nth2 by (rewrite flatten_size; lia). rewrite flatten_size. split.
    + rewrite <- E. f_equal. lia.
    + cbn [size_ map list_sum fold_right]. unfold size_, list_sum in L. lia.
Qed.
Lemma flats_split p i : (i < size_ (shapes p))%nat -> exists l a k q, nth_error p l = Some a /\
  nth_error (indices (shape a)) k = Some q /\ i = (off (shapes p) l + k)%nat.
Proof.
  revert i. induction p as [|b p IH]; intros i Hi; [cbn in Hi; lia|].
  cbn [shapes map size_ list_sum fold_right] in Hi.
  destruct (lt_dec i (size1 (shape b))) as [H|H].
  - destruct (nth_error_lt (indices (shape b)) i H) as (q & Eq). exists 0%nat, b, i, q. auto.
  - destruct (IH (i - size1 (shape b))%nat) as (l & a & k & q & El & Ek & Ei).
    { unfold shapes, size_, list_sum. lia. }
    exists (S l), a, k, q. split; [exact El|]. split; [exact Ek|]. cbn [shapes map]. fold (shapes p). rewrite off_S. lia.
Qed.
(** the tree of shapes [sh] with the entries [w 0, w 1, ...] *)
Definition is_list (sh : list (list nat)) (w : nat -> R) (g : list tensor) : Prop :=
  shapes g = sh /\ forall l a k q, nth_error g l = Some a -> nth_error (indices (shape a)) k = Some q -> entry a q = w (off sh l + k)%nat.
Lemma is_list_flats sh w g : is_list sh w g -> flats g = map w (seq 0 (size_ sh)).
Proof.
  intros (S & V). apply vec_ext; [rewrite flats_length, S, map_length, seq_length; reflexivity|].
  intros i Hi. rewrite flats_length in Hi. destruct (flats_split g i Hi) as (l & a & k & q & El & Ek & ->).
  destruct (flats_nth g l a k q El Ek) as (E & L). rewrite E. rewrite S in *. rewrite nth_map_seq by exact L. apply (V l a k q El Ek).
Qed.
Lemma flats_is_list sh w g : shapes g = sh -> flats g = map w (seq 0 (size_ sh)) -> is_list sh w g.
Proof.
  intros S E. split; [exact S|]. intros l a k q El Ek. destruct (flats_nth g l a k q El Ek) as (E1 & L).
  rewrite <- E1, E, S in *. apply nth_map_seq. exact L.
Qed.
Lemma is_list_ext sh w w' g : (forall i, (i < size_ sh)%nat -> w i = w' i) -> is_list sh w g -> is_list sh w' g.
Proof.
  intros H (S & V). split; [exact S|]. intros l a k q El Ek. rewrite (V l a k q El Ek). apply H.
  destruct (flats_nth g l a k q El Ek) as (_ & L). rewrite S in L. exact L.
Qed.
(** moving one entry *)
Lemma flats_unit h p l a q k : nth_error p l = Some a -> nth_error (indices (shape a)) k = Some q ->
  flats (upd p l (taxpy h a (tunit (shape a) q))) =
  upd (flats p) (off (shapes p) l + k) (nth (off (shapes p) l + k) (flats p) 0 + h).
Proof.
  intros El Ek. rewrite (proj1 (flats_nth p l a k q El Ek)). revert l El.
  induction p as [|b p IH]; intros [|l] El; try discriminate El.
  - cbn in El. injection El as ->. cbn [upd]. rewrite !flats_cons, (flatten_unit h a q k Ek), (flatten_nth a k q Ek).
    cbn [off firstn map list_sum fold_right Nat.add]. rewrite upd_app1; [reflexivity|].
    rewrite flatten_size. apply nth_error_Some. congruence.
  - cbn [upd]. rewrite !flats_cons, IH by exact El. cbn [shapes map]. fold (shapes p). rewrite off_S.
    rewrite <- upd_app2, flatten_size. f_equal. lia.
Qed.
Lemma shapes_upd h p l a q : nth_error p l = Some a -> shapes (upd p l (taxpy h a (tunit (shape a) q))) = shapes p.
Proof.
  revert l. induction p as [|b p IH]; intros [|l] El; try discriminate El; cbn [upd shapes map].
  - cbn in El. injection El as ->. reflexivity.
  - f_equal. apply IH. exact El.
Qed.
Lemma flatten_taxpy t a v : shape a = shape v -> flatten (taxpy t a v) = axpy t (flatten a) (flatten v).
Proof.
  intros H. unfold flatten, axpy. cbn [shape taxpy]. rewrite <- H. generalize (indices (shape a)). intros l.
  induction l; [reflexivity|]. cbn [map map2]. f_equal. exact IHl.
Qed.
Lemma flats_move t p v : shapes p = shapes v -> flats (map2 (taxpy t) p v) = axpy t (flats p) (flats v) /\ shapes (map2 (taxpy t) p v) = shapes p.
Proof.
  revert v. induction p as [|a p IH]; intros [|b v] H; try discriminate H; [split; reflexivity|].
  cbn [shapes map] in H. injection H as H1 H2. destruct (IH v H2) as (E & S). cbn [map2]. rewrite !flats_cons. split.
  - rewrite E, flatten_taxpy by exact H1. symmetry. apply axpy_app. rewrite !flatten_size, H1. reflexivity.
  - cbn [shapes map]. f_equal. exact S.
Qed.
Lemma flatss_move t ps vs : map shapes ps = map shapes vs ->
  flatss (move t ps vs) = axpy t (flatss ps) (flatss vs) /\ map shapes (move t ps vs) = map shapes ps.
Proof.
  revert vs. induction ps as [|p ps IH]; intros [|v vs] H; try discriminate H; [split; reflexivity|].
  cbn [map] in H. injection H as H1 H2. destruct (IH vs H2) as (E & S). destruct (flats_move t p v H1) as (E1 & S1).
  unfold move. cbn [map2 map]. fold (move t ps vs). unfold flatss. cbn [map concat]. fold (flatss ps) (flatss vs) (flatss (move t ps vs)).
  split; [|f_equal; auto]. rewrite E, E1. symmetry. apply axpy_app. rewrite !flats_length, H1. reflexivity.
Qed.
Lemma same_trees_ok ps vs : map shapes ps = map shapes vs -> same_trees ps vs = true.
Proof.
  intros H. unfold same_trees. assert (L : length ps = length vs) by (rewrite <- (map_length shapes ps), H, map_length; reflexivity).
  rewrite L, Nat.eqb_refl. cbn [andb]. clear L. revert vs H. induction ps as [|p ps IH]; intros [|v vs] H; try discriminate H; [reflexivity|].
  cbn [map] in H. injection H as H1 H2. cbn [map2 forallb]. rewrite IH by exact H2. rewrite Bool.andb_true_r.
  unfold same_shapes. assert (L : length p = length v). { unfold shapes in H1. rewrite <- (map_length shape p), H1, map_length. reflexivity. }
  rewrite L, Nat.eqb_refl. cbn [andb]. clear L IH. revert v H1. induction p as [|a p IH]; intros [|b v] H; try discriminate H; [reflexivity|].
  cbn [shapes map] in H. injection H as Ha Hb. cbn [map2 forallb]. rewrite Ha, list_eqb_refl. cbn [andb]. apply IH. exact Hb.
Qed.
Lemma same_trees_shapes ps vs : same_trees ps vs = true -> map shapes ps = map shapes vs.
Proof.
  unfold same_trees. intros H. apply andb_prop in H. destruct H as (L & H). apply Nat.eqb_eq in L.
  revert vs L H. induction ps as [|p ps IH]; intros [|v vs] L H; try discriminate L; [reflexivity|].
  cbn [map2 forallb] in H. apply andb_prop in H. destruct H as (H1 & H2). cbn [map]. f_equal; [|apply IH; auto].
  clear -H1. unfold same_shapes in H1. apply andb_prop in H1. destruct H1 as (L & H). apply Nat.eqb_eq in L.
  revert v L H. induction p as [|a p IH]; intros [|b v] L H; try discriminate L; [reflexivity|].
  cbn [map2 forallb] in H. apply andb_prop in H. destruct H as (H1 & H2). apply list_eqb_eq in H1. cbn [shapes map]. f_equal; [exact H1|].
  apply IH; auto.
Qed.

(** ** gradients *)
Lemma near_move D n X V : openset n D -> D X -> length V = n -> exists d, 0 < d /\ forall t, Rabs t < d -> D (axpy t X V).
Proof.
  intros HO DX LV. destruct (HO X DX) as (LX & d & Hd & Hn).
  pose proof (lsum_nonneg n (fun j => Rabs (nth j V 0)) (fun j => Rabs_pos _)) as HS.
  set (S := lsum n (fun j => Rabs (nth j V 0))) in *.
  exists (d / (S + 1)). split; [apply Rdiv_lt_0_compat; lra|]. intros t Ht. apply Hn. split; [rewrite axpy_length; lia|].
  intros i. destruct (lt_dec i n) as [Hi|Hi].
  - rewrite nth_axpy by lia. assert (E : nth i X 0 + t * nth i V 0 - nth i X 0 = t * nth i V 0) by ring. rewrite E, Rabs_mult.
    assert (Hv : Rabs (nth i V 0) <= S) by (apply (abs_le_lsum V n i Hi)).
    pose proof (Rabs_pos t). pose proof (Rabs_pos (nth i V 0)).
    apply Rle_lt_trans with (Rabs t * S). { apply Rmult_le_compat_l; auto. }
    apply Rle_lt_trans with (Rabs t * (S + 1)). { apply Rmult_le_compat_l; lra. }
    apply Rmult_lt_reg_r with (/ (S + 1)); [apply Rinv_0_lt_compat; lra|].
    rewrite Rmult_assoc, Rinv_r by lra. unfold Rdiv in Ht. lra.
  - rewrite !nth_overflow by (try rewrite axpy_length; lia). rewrite Rminus_0_r, Rabs_R0. exact Hd.
Qed.
Lemma shapes_map2 (f : nat -> tensor -> tensor) p s : (forall l a, shape (f l a) = shape a) ->
  shapes (map2 f (seq s (length p)) p) = shapes p.
Proof.
  intros H. revert s. induction p as [|a p IH]; intros s; [reflexivity|]. cbn [length seq map2 shapes map]. rewrite H. f_equal. apply IH.
Qed.
Lemma nth_error_map2_seq {A B} (f : nat -> A -> B) p l b : nth_error (map2 f (seq 0 (length p)) p) l = Some b ->
  exists a, nth_error p l = Some a /\ b = f l a.
Proof.
  intros H. assert (L : (l < length p)%nat).
  { assert (L : (l < length (map2 f (seq 0 (length p)) p))%nat) by (apply nth_error_Some; congruence).
    rewrite map2_length, seq_length in L. lia. }
  destruct (nth_error_lt p l L) as (a & Ea). exists a. split; [exact Ea|].
  rewrite (nth_error_map2 f _ _ l l a (nth_error_seq_0 _ _ L) Ea) in H. congruence.
Qed.
Lemma flatss_cons p rest : flatss (p :: rest) = flats p ++ flatss rest.
Proof. reflexivity. Qed.
Lemma grad_entry sh shs D F phi p rest l a k q : openset (sizes_ (sh :: shs)) D -> computesL (sh :: shs) D F phi ->
  map shapes (p :: rest) = sh :: shs -> D (flatss (p :: rest)) -> nth_error p l = Some a -> nth_error (indices (shape a)) k = Some q ->
  Derive (fun t => entry_of (F (upd p l (taxpy t a (tunit (shape a) q)) :: rest)) []) 0 = pd (off sh l + k) phi (flatss (p :: rest)).
Proof.
  intros HO HC HS DX El Ek. pose proof HS as HS'. cbn [map] in HS'. injection HS' as Hp Hr.
  destruct (flats_nth p l a k q El Ek) as (EN & LN). rewrite Hp in EN, LN. set (i := (off sh l + k)%nat) in *.
  rewrite <- (Derive_unit phi). destruct (HO _ DX) as (L & d & Hd & Hn). apply Derive_ext_loc. exists (mkposreal d Hd).
  intros h Hh. unfold ball in Hh; cbn in Hh. unfold AbsRing_ball, abs, minus, plus, opp in Hh; cbn in Hh.
  rewrite Ropp_0, Rplus_0_r in Hh.
  assert (EF : flatss (upd p l (taxpy h a (tunit (shape a) q)) :: rest) = upd (flatss (p :: rest)) i (nth i (flatss (p :: rest)) 0 + h)).
  { rewrite !flatss_cons, (flats_unit h p l a q k El Ek), Hp. fold i.
    rewrite app_nth1 by (rewrite flats_length, Hp; exact LN). rewrite upd_app1 by (rewrite flats_length, Hp; exact LN). reflexivity. }
  destruct (HC (upd p l (taxpy h a (tunit (shape a) q)) :: rest)) as (z & Ez & _ & Vz).
  - cbn [map]. rewrite (shapes_upd h p l a q El), Hp, Hr. reflexivity.
  - rewrite EF. apply Hn. apply near_upd; [apply near_refl; auto|].
    assert (Eh : forall a b : R, a + b - a = b) by (intros; ring). rewrite Eh. auto.
  - rewrite Ez. cbn [entry_of]. rewrite Vz, EF. reflexivity.
Qed.
Lemma jacfwdL_ok sh shs D F phi p rest : openset (sizes_ (sh :: shs)) D -> computesL (sh :: shs) D F phi ->
  map shapes (p :: rest) = sh :: shs -> D (flatss (p :: rest)) ->
  exists g, jacfwdL (fun p => F (p :: rest)) p = Ok g /\ is_list sh (fun i => pd i phi (flatss (p :: rest))) g.
Proof.
  intros HO HC HS DX. destruct (HC _ HS DX) as (v & Ev & Sv & Vv). unfold jacfwdL. rewrite Ev. cbn [bind].
  pose proof HS as HS'. cbn [map] in HS'. injection HS' as Hp Hr. eexists. split; [reflexivity|]. rewrite Sv. cbn [app length skipn firstn].
  split.
  - rewrite <- Hp. apply shapes_map2. reflexivity.
  - intros l b k q El Ek. apply nth_error_map2_seq in El. destruct El as (a & El & ->). cbn [shape] in Ek. cbn [entry].
    apply (grad_entry sh shs D F phi p rest l a k q); auto.
Qed.
Lemma jgradL_ok sh shs D F phi p rest : openset (sizes_ (sh :: shs)) D -> computesL (sh :: shs) D F phi ->
  map shapes (p :: rest) = sh :: shs -> D (flatss (p :: rest)) ->
  exists g, jgradL (fun p => F (p :: rest)) p = Ok g /\ is_list sh (fun i => pd i phi (flatss (p :: rest))) g.
Proof.
  intros HO HC HS DX. destruct (HC _ HS DX) as (v & Ev & Sv & Vv). unfold jgradL. rewrite Ev. cbn [bind]. rewrite Sv.
  apply (jacfwdL_ok sh shs D F phi); auto.
Qed.

(** ** derivatives of trees *)
Lemma is_list_length sh w g : is_list sh w g -> length g = length sh.
Proof. intros (S & _). rewrite <- S. unfold shapes. rewrite map_length. reflexivity. Qed.
(** [G] computes the functions [W i] of all entries *)
Lemma jvpL_ok sh shs n D (G : list (list tensor) -> res (list tensor)) (W : nat -> list R -> R) ps vs :
  openset n D -> (forall ps, map shapes ps = shs -> D (flatss ps) -> exists g, G ps = Ok g /\ is_list sh (fun i => W i (flatss ps)) g) ->
  map shapes ps = shs -> map shapes vs = shs -> n = sizes_ shs -> D (flatss ps) ->
  exists y d, jvpL G ps vs = Ok (y, d) /\ is_list sh (fun i => W i (flatss ps)) y /\
    is_list sh (fun i => Derive (fun t => W i (axpy t (flatss ps) (flatss vs))) 0) d.
Proof.
  intros HO HG Sp Sv Hn DX. unfold jvpL. rewrite (same_trees_ok ps vs) by congruence.
  destruct (HG ps Sp DX) as (y & Ey & Iy). rewrite Ey. cbn [bind].
  destruct (near_move D n (flatss ps) (flatss vs) HO DX) as (d & Hd & HD); [rewrite flatss_length, Sv; auto|].
  assert (HM : forall t, Rabs t < d -> exists g, G (move t ps vs) = Ok g /\ is_list sh (fun i => W i (axpy t (flatss ps) (flatss vs))) g).
  { intros t Ht. destruct (flatss_move t ps vs) as (E & S); [congruence|].
    destruct (HG (move t ps vs)) as (g & Eg & Ig); [congruence|rewrite E; apply HD; exact Ht|]. exists g. rewrite E in Ig. auto. }
  destruct (sequence_map_ok (fun i => tderive (fun t => leafL (G (move t ps vs)) i)) (seq 0 (length y))
    (fun l b => forall s, nth_error sh l = Some s -> shape b = s /\ forall k q, nth_error (indices s) k = Some q ->
       entry b q = Derive (fun t => W (off sh l + k)%nat (axpy t (flatss ps) (flatss vs))) 0)) as (ds & E & FD).
  - intros l Hl. apply in_seq in Hl. rewrite (is_list_length _ _ _ Iy) in Hl.
    destruct (HM 0) as (g0 & E0 & I0); [rewrite Rabs_R0; auto|].
    destruct (nth_error_lt g0 l) as (a0 & Ea0). { rewrite (is_list_length _ _ _ I0). lia. }
    unfold tderive, leafL. rewrite E0. cbn [bind]. rewrite Ea0. cbn [bind].
    assert (Sa0 : nth_error sh l = Some (shape a0)). { destruct I0 as (S0 & _). rewrite <- S0. unfold shapes. rewrite nth_error_map, Ea0. reflexivity. }
    eexists. split; [reflexivity|]. intros s Es. cbn [shape entry]. split; [congruence|]. intros k q Ek.
    apply Derive_ext_loc. exists (mkposreal d Hd).
    intros h Hh. unfold ball in Hh; cbn in Hh. unfold AbsRing_ball, abs, minus, plus, opp in Hh; cbn in Hh.
    rewrite Ropp_0, Rplus_0_r in Hh. destruct (HM h Hh) as (g & Eg & Ig).
    destruct (nth_error_lt g l) as (a & Ea). { rewrite (is_list_length _ _ _ Ig). lia. }
    rewrite Eg. cbn [bind]. rewrite Ea. cbn [entry_of]. destruct Ig as (Sg & Vg). apply (Vg l a k q Ea).
    assert (Sa : nth_error sh l = Some (shape a)). { rewrite <- Sg. unfold shapes. rewrite nth_error_map, Ea. reflexivity. }
    replace (shape a) with s by congruence. exact Ek.
  - rewrite E. cbn [bind]. exists y, ds. split; [reflexivity|]. split; [exact Iy|].
    apply Forall2_nth_seq in FD. destruct FD as (LD & FD). rewrite (is_list_length _ _ _ Iy) in LD, FD.
    assert (SD : shapes ds = sh).
    { apply nth_error_ext_eq. intros l. unfold shapes. rewrite nth_error_map. destruct (nth_error sh l) as [s|] eqn:Es.
      - destruct (FD l) as (b & Eb & Hb); [apply nth_error_Some; congruence|]. rewrite Eb. cbn [option_map]. f_equal. apply (Hb s Es).
      - apply nth_error_None in Es. destruct (nth_error ds l) as [b|] eqn:Eb; [|reflexivity].
        exfalso. assert (l < length ds)%nat by (apply nth_error_Some; congruence). lia. }
    split; [exact SD|]. intros l b k q Eb Ek.
    assert (Hl : (l < length sh)%nat) by (rewrite <- LD; apply nth_error_Some; congruence).
    destruct (FD l Hl) as (b' & Eb' & Hb). replace b' with b in Hb by congruence.
    assert (Es : nth_error sh l = Some (shape b)). { rewrite <- SD. unfold shapes. rewrite nth_error_map, Eb. reflexivity. }
    destruct (Hb _ Es) as (_ & V). apply (V k q Ek).
Qed.

(** ** Hessian vector products *)
Lemma hv_list sh shs D phi X V g : openset (sizes_ (sh :: shs)) D -> C2 (sizes_ (sh :: shs)) D phi -> D X -> length V = sizes_ (sh :: shs) ->
  is_list sh (fun i => Derive (fun t => pd i phi (axpy t X V)) 0) g ->
  is_list sh (hv_ (sizes_ (sh :: shs)) phi X V) g.
Proof.
  intros HO HC DX LV. apply is_list_ext. intros i Hi. apply (hv_chain _ D); auto.
  unfold sizes_. cbn [map list_sum fold_right]. lia.
Qed.
Lemma hvpL_ok sh shs D F phi ps vs : openset (sizes_ (sh :: shs)) D -> C2 (sizes_ (sh :: shs)) D phi ->
  computesL (sh :: shs) D F phi -> map shapes ps = sh :: shs -> map shapes vs = sh :: shs -> D (flatss ps) ->
  exists a, hvpL F ps vs = Ok a /\ shapes a = sh /\
    flats a = map (hv_ (sizes_ (sh :: shs)) phi (flatss ps) (flatss vs)) (seq 0 (size_ sh)).
Proof.
  intros HO HC2 HC Sp Sv DX.
  destruct (jvpL_ok sh (sh :: shs) _ D (on_first F jacfwdL) (fun i => pd i phi) ps vs HO) as (y & d & E & Iy & Id); auto.
  - intros qs Sq Dq. destruct qs as [|q rest]; [discriminate Sq|]. cbn [on_first]. apply (jacfwdL_ok sh shs D F phi); auto.
  - unfold hvpL. rewrite E. cbn [bind snd]. exists d.
    apply (hv_list sh shs D phi) in Id; auto; [|rewrite flatss_length, Sv; reflexivity].
    split; [reflexivity|]. split; [apply Id|]. apply is_list_flats. exact Id.
Qed.
Lemma objectiveL_val sh shs D phi aux has_aux F : objectiveL sh shs D phi aux false has_aux F ->
  computesL (sh :: shs) D (val_partL F has_aux) phi.
Proof.
  intros H ps Sp Dp. destruct (H ps Sp Dp) as (v & Sv & Vv & E). exists v. unfold val_partL. rewrite E. cbn [bind].
  destruct has_aux; auto.
Qed.
Lemma grad_fL_ok sh shs D phi aux vag (has_aux : bool) F ps : openset (sizes_ (sh :: shs)) D -> objectiveL sh shs D phi aux vag has_aux F ->
  map shapes ps = sh :: shs -> D (flatss ps) ->
  exists v g, grad_fL F vag has_aux ps = Ok ((v, if has_aux then Some (aux (flatss ps)) else None), g) /\
    shape v = [] /\ entry v [] = phi (flatss ps) /\ is_list sh (fun i => pd i phi (flatss ps)) g.
Proof.
  intros HO H Sp Dp. destruct (H ps Sp Dp) as (v & Sv & Vv & E). unfold grad_fL. destruct vag.
  - destruct E as (g & Sg & Fg & E). rewrite E. cbn [bind]. exists v, g. split; [destruct has_aux; reflexivity|].
    split; [exact Sv|]. split; [exact Vv|]. apply flats_is_list; auto.
  - rewrite E. cbn [bind]. destruct ps as [|p rest]; [discriminate Sp|]. cbn [on_first].
    destruct (jgradL_ok sh shs D (val_partL F has_aux) phi p rest HO (objectiveL_val _ _ _ _ _ _ _ H) Sp Dp) as (g & Eg & Ig).
    rewrite Eg. cbn [bind]. exists v, g. split; [destruct has_aux; reflexivity|]. auto.
Qed.
Lemma grad_onlyL_ok sh shs D phi aux vag has_aux F ps : openset (sizes_ (sh :: shs)) D -> objectiveL sh shs D phi aux vag has_aux F ->
  map shapes ps = sh :: shs -> D (flatss ps) ->
  exists g, grad_onlyL F vag has_aux ps = Ok g /\ is_list sh (fun i => pd i phi (flatss ps)) g.
Proof.
  intros HO H Sp Dp. destruct (grad_fL_ok sh shs D phi aux vag has_aux F ps HO H Sp Dp) as (v & g & E & _ & _ & I).
  unfold grad_onlyL. rewrite E. exists g. split; [reflexivity|exact I].
Qed.
Lemma hvp_jvp_ok sh shs D phi aux vag has_aux F ps vs : openset (sizes_ (sh :: shs)) D -> C2 (sizes_ (sh :: shs)) D phi ->
  objectiveL sh shs D phi aux vag has_aux F -> map shapes ps = sh :: shs -> map shapes vs = sh :: shs -> D (flatss ps) ->
  exists y d, jvpL (grad_onlyL F vag has_aux) ps vs = Ok (y, d) /\ is_list sh (hv_ (sizes_ (sh :: shs)) phi (flatss ps) (flatss vs)) d.
Proof.
  intros HO HC2 H Sp Sv DX.
  destruct (jvpL_ok sh (sh :: shs) _ D (grad_onlyL F vag has_aux) (fun i => pd i phi) ps vs HO) as (y & d & E & Iy & Id); auto.
  - intros qs Sq Dq. exact (grad_onlyL_ok sh shs D phi aux vag has_aux F qs HO H Sq Dq).
  - exists y, d. split; [exact E|]. apply (hv_list sh shs D phi) in Id; auto. rewrite flatss_length, Sv. reflexivity.
Qed.
Lemma map2_combine {A B C} (f : A -> B -> C) l m : map2 f l m = map (fun ab => f (fst ab) (snd ab)) (combine l m).
Proof. revert m. induction l as [|a l IH]; intros [|b m]; cbn; auto. f_equal. apply IH. Qed.
Lemma nth_error_combine {A B} (l : list A) (m : list B) i ab : nth_error (combine l m) i = Some ab ->
  nth_error l i = Some (fst ab) /\ nth_error m i = Some (snd ab).
Proof.
  revert m i. induction l as [|a l IH]; intros [|b m] [|i] H; cbn in H; try discriminate.
  - injection H as <-. auto.
  - apply IH in H. exact H.
Qed.
Lemma shape_at p l a : nth_error p l = Some a -> nth_error (shapes p) l = Some (shape a).
Proof. intros H. unfold shapes. rewrite nth_error_map, H. reflexivity. Qed.
Lemma tree_add_ok sh w d v r : is_list sh w d -> shapes v = sh ->
  exists c, sequence (map2 (fun h v => tbop Rplus h (tmap (fun s => r * s) v)) d v) = Ok c /\
    is_list sh (fun i => w i + r * nth i (flats v) 0) c.
Proof.
  intros (Sd & Vd) Sv. rewrite map2_combine.
  assert (LL : length d = length v). { rewrite <- (map_length shape d), <- (map_length shape v). fold (shapes d) (shapes v). congruence. }
  destruct (sequence_forall (fun ab => tbop Rplus (fst ab) (tmap (fun s => r * s) (snd ab))) (combine d v)) as (c & Ec & FC).
  - apply Forall_forall. intros ab Hab. apply In_nth_error in Hab. destruct Hab as (l & El).
    apply nth_error_combine in El. destruct El as (Ea & Eb).
    apply shape_at in Ea, Eb. rewrite Sd in Ea. rewrite Sv in Eb.
    destruct (tbop_same Rplus (fst ab) (tmap (fun s => r * s) (snd ab)) (shape (fst ab)) eq_refl) as (y & Ey & _); [cbn [tmap shape]; congruence|]. eauto.
  - rewrite Ec. exists c. split; [reflexivity|].
    assert (HC : forall l y, nth_error c l = Some y -> exists a b, nth_error d l = Some a /\ nth_error v l = Some b /\
      shape a = shape b /\ tbop Rplus a (tmap (fun s => r * s) b) = Ok y).
    { intros l y Ey. destruct (Forall2_nth_error_r _ _ _ _ _ FC Ey) as (ab & Eab & E). apply nth_error_combine in Eab. destruct Eab as (Ea & Eb).
      exists (fst ab), (snd ab). split; [exact Ea|]. split; [exact Eb|]. split; [|exact E].
      apply shape_at in Ea, Eb. rewrite Sd in Ea. rewrite Sv in Eb. congruence. }
    assert (SC : shapes c = sh).
    { apply nth_error_ext_eq. intros l. destruct (nth_error c l) as [y|] eqn:Ey.
      - rewrite (shape_at _ _ _ Ey). destruct (HC l y Ey) as (a & b & Ea & Eb & Es & E).
        destruct (tbop_same Rplus a (tmap (fun s => r * s) b) (shape a) eq_refl) as (z & Ez & Sz & _); [cbn [tmap shape]; congruence|].
        apply shape_at in Ea. rewrite Sd in Ea. rewrite Ea. congruence.
      - unfold shapes at 1. rewrite nth_error_map, Ey. cbn [option_map]. symmetry. apply nth_error_None. apply nth_error_None in Ey.
        rewrite <- (Forall2_len _ _ _ FC), combine_length in Ey. rewrite <- Sd. unfold shapes. rewrite map_length. lia. }
    split; [exact SC|]. intros l y k q Ey Ek. destruct (HC l y Ey) as (a & b & Ea & Eb & Es & E).
    destruct (tbop_same Rplus a (tmap (fun s => r * s) b) (shape a) eq_refl) as (z & Ez & Sz & Vz); [cbn [tmap shape]; congruence|].
    assert (z = y) by congruence. subst z. rewrite Sz in Ek. rewrite Vz by (apply (indices_nth_error _ _ _ Ek)). cbn [tmap entry].
    rewrite (Vd l a k q Ea Ek). f_equal. f_equal. rewrite Es in Ek. destruct (flats_nth v l b k q Eb Ek) as (EN & _). rewrite Sv in EN. congruence.
Qed.
Lemma hvp_forL_ok sh shs D phi aux vag has_aux F ps vs (alpha : option R) : openset (sizes_ (sh :: shs)) D -> C2 (sizes_ (sh :: shs)) D phi ->
  objectiveL sh shs D phi aux vag has_aux F -> map shapes ps = sh :: shs -> map shapes vs = sh :: shs -> D (flatss ps) ->
  exists a, hvp_forL F ps vs alpha vag has_aux = Ok a /\ shapes a = sh /\
    flats a = map (fun i => hv_ (sizes_ (sh :: shs)) phi (flatss ps) (flatss vs) i
                            + match alpha with Some r => r * nth i (flatss vs) 0 | None => 0 end) (seq 0 (size_ sh)).
Proof.
  intros HO HC2 H Sp Sv DX. destruct (hvp_jvp_ok sh shs D phi aux vag has_aux F ps vs HO HC2 H Sp Sv DX) as (y & d & E & Id).
  unfold hvp_forL. rewrite E. cbn [bind snd]. destruct alpha as [r|].
  - destruct vs as [|v vs]; [discriminate Sv|]. cbn [map] in Sv. injection Sv as S1 S2.
    destruct (tree_add_ok sh _ d v r Id S1) as (c & Ec & Ic). rewrite Ec. exists c. split; [reflexivity|]. split; [apply Ic|].
    apply is_list_flats. eapply is_list_ext; [|exact Ic]. intros i Hi. cbv beta. rewrite flatss_cons, app_nth1; [reflexivity|].
    rewrite flats_length, S1. exact Hi.
  - exists d. split; [reflexivity|]. split; [apply Id|]. apply is_list_flats. eapply is_list_ext; [|exact Id]. intros i Hi. cbv beta. ring.
Qed.

(** ** reverse over reverse *)
Lemma sumR_app l m : sumR (l ++ m) = sumR l + sumR m.
Proof. induction l as [|a l IH]; cbn [app]; [cbn; ring|]. change (sumR (a :: ?x)) with (a + sumR x). rewrite IH. ring. Qed.
Lemma vdotN_ok a b : shape a = shape b -> vdotN a b = Ok (sumR (map2 Rmult (flatten a) (flatten b))).
Proof.
  intros H. unfold vdotN. rewrite <- H, Nat.eqb_refl. f_equal. f_equal. unfold flatten. rewrite <- H, !indices_unravel, !map_map.
  assert (G : forall l, map (fun k => entry (travel a) [k] * entry (travel b) [k]) l =
    map2 Rmult (map (fun x => entry a (unravel (shape a) x)) l) (map (fun x => entry b (unravel (shape a) x)) l)).
  { induction l as [|k l IH]; [reflexivity|]. cbn [map map2]. rewrite IH. f_equal. cbn [travel entry hd]. rewrite H. reflexivity. }
  apply G.
Qed.
Lemma tree_vdotL_ok g v : shapes g = shapes v -> g <> [] ->
  tree_vdotL g v = Ok (tsc (sumR (map2 Rmult (flats g) (flats v)))).
Proof.
  intros H Hg. unfold tree_vdotL.
  assert (LL : length g = length v). { rewrite <- (map_length shape g), <- (map_length shape v). fold (shapes g) (shapes v). congruence. }
  rewrite LL, Nat.eqb_refl.
  assert (G : exists ds, sequence (map2 vdotN g v) = Ok ds /\ length ds = length g /\ sumR ds = sumR (map2 Rmult (flats g) (flats v))).
  { clear Hg LL. revert v H. induction g as [|a g IH]; intros [|b v] H; try discriminate H; [exists []; auto|].
    cbn [shapes map] in H. injection H as H1 H2. destruct (IH v H2) as (ds & E & L & V). cbn [map2 sequence]. rewrite vdotN_ok by exact H1. cbn [bind].
    rewrite E. cbn [bind]. eexists. split; [reflexivity|]. split; [cbn; lia|]. rewrite !flats_cons, map2_app by (rewrite !flatten_size, H1; reflexivity).
    rewrite sumR_app, <- V. reflexivity. }
  destruct G as (ds & E & L & V). rewrite E. cbn [bind]. destruct ds as [|x ds]; [|rewrite V; reflexivity].
  destruct g; [congruence|discriminate L].
Qed.
Lemma dot_seq w V s : sumR (map2 Rmult (map w (seq s (length V))) V) = sumR (map (fun i => w (s + i)%nat * nth i V 0) (seq 0 (length V))).
Proof.
  revert s. induction V as [|v V IH]; intros s; [reflexivity|]. cbn [length seq map map2].
  change (sumR (?a :: ?x)) with (a + sumR x). rewrite <- (seq_shift (length V) 0), map_map, IH. cbn [nth]. rewrite Nat.add_0_r. f_equal.
  apply sumR_map_ext. intros i Hi. replace (s + S i)%nat with (S s + i)%nat by lia. reflexivity.
Qed.
Lemma hvp_rorL_ok sh D phi aux vag has_aux F x v : openset (size_ sh) D -> C2 (size_ sh) D phi -> sh <> [] ->
  objectiveL sh [] D phi aux vag has_aux F -> shapes x = sh -> shapes v = sh -> D (flats x) ->
  exists a, hvp_rorL F [x] [v] vag has_aux = Ok a /\ shapes a = sh /\
    flats a = map (hv_ (size_ sh) phi (flats x) (flats v)) (seq 0 (size_ sh)).
Proof.
  intros HO HC2 Hne H Sx Sv DX. assert (EN : sizes_ [sh] = size_ sh) by (unfold sizes_; cbn; lia).
  assert (EX : forall x, flatss [x] = flats x) by (intros; unfold flatss; cbn [map concat]; apply app_nil_r).
  unfold hvp_rorL.
  assert (HC : computesL [sh] D (fun ps => match ps with [x] => g <- grad_onlyL F vag has_aux [x] ;; tree_vdotL g v | _ => Err TypeError end)
     (fun X => lsum (size_ sh) (fun i => pd i phi X * nth i (flats v) 0))).
  { intros ps Sp Dp. destruct ps as [|p [|q ps]]; try discriminate Sp.
    destruct (grad_onlyL_ok sh [] D phi aux vag has_aux F [p]) as (g & Eg & Ig); [rewrite EN; exact HO|exact H|exact Sp|exact Dp|].
    rewrite Eg. cbn [bind]. rewrite tree_vdotL_ok.
    - eexists. split; [reflexivity|]. split; [reflexivity|]. cbn [entry tsc]. rewrite (is_list_flats _ _ _ Ig).
      assert (LV : length (flats v) = size_ sh) by (rewrite flats_length, Sv; reflexivity). rewrite <- LV.
      rewrite dot_seq. reflexivity.
    - destruct Ig as (Sg & _). congruence.
    - intros ->. destruct Ig as (Sg & _). cbn in Sg. congruence. }
  assert (HO' : openset (sizes_ [sh]) D) by (rewrite EN; exact HO).
  assert (Sx' : map shapes [x] = [sh]) by (cbn [map]; congruence).
  assert (DX' : D (flatss [x])) by (rewrite EX; exact DX).
  destruct (jgradL_ok sh [] D _ _ x [] HO' HC Sx' DX') as (a & Ea & Ia).
  cbv beta iota in Ea. rewrite Ea. exists a. split; [reflexivity|]. split; [apply Ia|]. apply is_list_flats. rewrite EX in Ia.
  eapply is_list_ext; [|exact Ia]. intros i Hi. cbv beta.
  destruct (pd_lsum (size_ sh) (fun j => pd j phi) (fun j => nth j (flats v) 0) i (flats x)) as (-> & _).
  - intros j Hj. apply (proj2 HC2 j Hj i (flats x) Hi DX).
  - reflexivity.
Qed.
Lemma value_grad_hvpL_ok sh D phi aux vag (has_aux : bool) F x : openset (size_ sh) D -> C2 (size_ sh) D phi ->
  objectiveL sh [] D phi aux vag has_aux F -> shapes x = sh -> D (flats x) ->
  exists v g lin, value_grad_hvpL F x vag has_aux = Ok ((v, None), g, lin, if has_aux then Some (aux (flats x)) else None) /\
    shape v = [] /\ entry v [] = phi (flats x) /\ shapes g = sh /\ flats g = map (fun i => pd i phi (flats x)) (seq 0 (size_ sh)) /\
    forall w, shapes w = sh -> exists a, lin w = Ok a /\ shapes a = sh /\
      flats a = map (hv_ (size_ sh) phi (flats x) (flats w)) (seq 0 (size_ sh)).
Proof.
  intros HO HC2 H Sx DX. assert (EN : sizes_ [sh] = size_ sh) by (unfold sizes_; cbn; lia).
  assert (EX : forall x, flatss [x] = flats x) by (intros; unfold flatss; cbn [map concat]; apply app_nil_r).
  unfold value_grad_hvpL.
  destruct (grad_fL_ok sh [] D phi aux vag has_aux F [x]) as (v & g & E & Sv & Vv & Ig); [rewrite EN; exact HO|exact H|cbn [map]; congruence|rewrite EX; exact DX|].
  rewrite E. cbn [bind]. rewrite EX in *.
  set (lin := fun v0 => yd <- jvpL _ [x] [v0] ;; _).
  assert (HL : forall w, shapes w = sh -> exists a, lin w = Ok a /\ shapes a = sh /\ flats a = map (hv_ (size_ sh) phi (flats x) (flats w)) (seq 0 (size_ sh))).
  { intros w Sw. destruct (hvp_jvp_ok sh [] D phi aux vag has_aux F [x] [w]) as (y & d & Ed & Id);
      try rewrite EN; try rewrite EX; auto; try (cbn [map]; congruence).
    exists d. unfold lin. rewrite Ed. split; [reflexivity|]. rewrite EN, !EX in Id. split; [apply Id|apply is_list_flats; exact Id]. }
  exists v, g, lin. split; [destruct has_aux; reflexivity|]. split; [exact Sv|]. split; [exact Vv|]. split; [apply Ig|].
  split; [apply is_list_flats; exact Ig|exact HL].
Qed.
Lemma hvp_other_shapes F G ps vs alpha vag has_aux : map shapes ps <> map shapes vs ->
  hvpL F ps vs = Err TypeError /\ hvp_forL G ps vs alpha vag has_aux = Err TypeError.
Proof.
  intros H. assert (E : same_trees ps vs = false).
  { apply Bool.not_true_iff_false. intros E. apply H. apply same_trees_shapes. exact E. }
  unfold hvpL, hvp_forL, jvpL. rewrite E. auto.
Qed.

Lemma misfit F x v alpha vag has_aux o : shapes x = shapes v -> F [x] = Ok o ->
  (exists y, o = LVal y /\ (vag = true \/ has_aux = true)) \/ (exists y a, o = LAux y a /\ vag = false /\ has_aux = false) ->
  hvp_forL F [x] [v] alpha vag has_aux = Err TypeError /\ hvp_rorL F [x] [v] vag has_aux = Err TypeError /\
  value_grad_hvpL F x vag has_aux = Err TypeError.
Proof.
  intros Sh E H. assert (G : grad_fL F vag has_aux [x] = Err TypeError).
  { unfold grad_fL, on_first, jgradL, val_partL. rewrite E.
    destruct H as [(y & -> & [-> | ->])|(y & a & -> & -> & ->)]; [reflexivity|destruct vag; reflexivity|reflexivity]. }
  split; [|split].
  - unfold hvp_forL, jvpL. rewrite same_trees_ok by (cbn [map]; congruence). unfold grad_onlyL. rewrite G. reflexivity.
  - unfold hvp_rorL, jgradL, grad_onlyL. rewrite G. reflexivity.
  - unfold value_grad_hvpL. rewrite G. reflexivity.
Qed.
