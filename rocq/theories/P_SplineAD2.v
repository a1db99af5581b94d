(** Forward and reverse derivatives of the spline basis, grid included. *)
From Coquelicot Require Import Coquelicot.
From Verif Require Import Base BaseFacts P_Vec M_Spline S_Spline P_Spline1 P_Spline2 P_Spline3 M_SplineAD S_SplineAD P_SplineAD1.

Definition jb (x dx : R) (k i : nat) (t dt : list R) : R * R := base_num (dual real_num) (x, dx) k i (combine t dt).

Lemma gnode_pair (t dt : list R) i : length dt = length t -> gnode (dual real_num) (combine t dt) i = (node t i, node dt i).
Proof.
  intros H. change (nth (Nat.min i (length (combine t dt) - 1)) (combine t dt) (0, 0) = (node t i, node dt i)).
  rewrite combine_length, combine_nth by auto. unfold node. rewrite H, Nat.min_id. reflexivity.
Qed.
Lemma jb_fst x dx t dt : length dt = length t -> forall k i, fst (jb x dx k i t dt) = base_fun x k i t.
Proof.
  intros H. induction k as [|k IH]; intros i; unfold jb in *; cbn [base_num base_fun]; rewrite !gnode_pair by auto.
  - cbn [value dual fst real_num]. destruct (andb _ _); reflexivity.
  - cbn [value nadd nmul ndiv nsub dual fst snd real_num]. f_equal; (destruct (Reqb _ _); [reflexivity|]); cbn [fst]; rewrite IH; reflexivity.
Qed.
Lemma jb_snd x dx t dt : length dt = length t -> forall k i,
  snd (jb x dx (S k) i t dt) =
  (if Reqb (node t (i + S k)) (node t i) then 0
   else ((dx - node dt i) / (node t (i + S k) - node t i) - (node dt (i + S k) - node dt i) * (x - node t i) / ((node t (i + S k) - node t i) * (node t (i + S k) - node t i))) * base_fun x k i t
        + (x - node t i) / (node t (i + S k) - node t i) * snd (jb x dx k i t dt)) +
  (if Reqb (node t (i + S k + 1)) (node t (i + 1)) then 0
   else ((node dt (i + S k + 1) - dx) / (node t (i + S k + 1) - node t (i + 1)) - (node dt (i + S k + 1) - node dt (i + 1)) * (node t (i + S k + 1) - x) / ((node t (i + S k + 1) - node t (i + 1)) * (node t (i + S k + 1) - node t (i + 1)))) * base_fun x k (i + 1) t
        + (node t (i + S k + 1) - x) / (node t (i + S k + 1) - node t (i + 1)) * snd (jb x dx k (i + 1) t dt)).
Proof.
  intros H k i. rewrite <- !(jb_fst x dx t dt H). unfold jb. cbn [base_num]. rewrite !gnode_pair by auto.
  cbn [value nadd nmul ndiv nsub dual fst snd real_num]. f_equal; (destruct (Reqb _ _); [reflexivity|]); cbn [snd]; reflexivity.
Qed.

(** *** stability of the comparisons *)
Lemma stable a da b db : a <> b -> locally 0 (fun s => (a + s * da < b + s * db <-> a < b) /\ a + s * da <> b + s * db).
Proof.
  intros N. set (M := Rabs (db - da) + 1). assert (PM : 0 < M) by (unfold M; pose proof (Rabs_pos (db - da)); lra).
  assert (P : 0 < Rabs (b - a)) by (apply Rabs_pos_lt; lra).
  exists (mkposreal _ (Rdiv_lt_0_compat _ _ P PM)). intros s Hs. change (Rabs (s - 0) < Rabs (b - a) / M) in Hs. rewrite Rminus_0_r in Hs.
  assert (L : Rabs (s * (db - da)) < Rabs (b - a)).
  { rewrite Rabs_mult. apply Rle_lt_trans with (Rabs s * M).
    - apply Rmult_le_compat_l; [apply Rabs_pos|]. unfold M. lra.
    - replace (Rabs (b - a)) with (Rabs (b - a) / M * M) by (field; lra). apply Rmult_lt_compat_r; auto. }
  assert (E : b + s * db - (a + s * da) = (b - a) + s * (db - da)) by ring.
  unfold Rabs in L. destruct (Rcase_abs (s * (db - da))), (Rcase_abs (b - a)); split; [split|..]; intros; lra.
Qed.
Lemma node_moved t dt s i : length dt = length t -> node (moved t dt s) i = node t i + s * node dt i.
Proof.
  intros H. unfold node, moved. rewrite map_length, combine_length, H, Nat.min_id.
  set (n := Nat.min i (length t - 1)). transitivity (nth n (map (fun p : R * R => fst p + s * snd p) (combine t dt)) ((fun p : R * R => fst p + s * snd p) (0, 0))).
  - f_equal. simpl. ring.
  - rewrite (map_nth (fun p : R * R => fst p + s * snd p)), combine_nth by auto. reflexivity.
Qed.
Lemma quot p dp q dq : q <> 0 -> is_derive (fun s => (p + s * dp) / (q + s * dq)) 0 (dp / q - dq * p / (q * q)).
Proof. intros N. auto_derive; [replace (q + 0 * dq) with q by ring; auto|]. field. auto. Qed.

Definition window (t : list R) (k i : nat) : Prop :=
  forall a b, (i <= a < b)%nat -> (b <= a + k)%nat -> (b <= i + k + 1)%nat -> node t a <> node t b.
Lemma window_l t k i : window t (S k) i -> window t k i.
Proof. intros H a b A B C. apply H; lia. Qed.
Lemma window_r t k i : window t (S k) i -> window t k (i + 1).
Proof. intros H a b A B C. apply H; lia. Qed.
Lemma jb_derive x dx t dt : length dt = length t -> (forall j, node t j <> x) -> forall k i, window t k i ->
  is_derive (fun s => base_fun (x + s * dx) k i (moved t dt s)) 0 (snd (jb x dx k i t dt)).
Proof.
  intros H O. induction k as [|k IH]; intros i W.
  - apply (is_derive_ext_loc (fun _ => base_fun x 0 i t)).
    + generalize (filter_and _ _ (stable (node t i) (node dt i) x dx (O i)) (stable (node t (i + 1)) (node dt (i + 1)) x dx (O (i + 1)%nat))).
      apply filter_imp. intros s [[A1 A2] [B1 B2]]. cbn [base_fun]. rewrite !node_moved by auto.
      pose proof (O i). pose proof (O (i + 1)%nat).
      replace (Rleb (node t i + s * node dt i) (x + s * dx)) with (Rleb (node t i) x).
      2:{ unfold Rleb. destruct (Rle_dec (node t i) x), (Rle_dec (node t i + s * node dt i) (x + s * dx)); auto; exfalso; lra. }
      replace (Rltb (x + s * dx) (node t (i + 1) + s * node dt (i + 1))) with (Rltb x (node t (i + 1))); [reflexivity|].
      unfold Rltb. destruct (Rlt_dec x (node t (i + 1))), (Rlt_dec (x + s * dx) (node t (i + 1) + s * node dt (i + 1))); auto; exfalso; lra.
    + evar_last; [apply @is_derive_const|]. unfold jb. cbn [base_num]. destruct (andb _ _); reflexivity.
  - assert (N1 : node t (i + S k) <> node t i) by (apply not_eq_sym, W; lia).
    assert (N2 : node t (i + S k + 1) <> node t (i + 1)) by (apply not_eq_sym, W; lia).
    rewrite jb_snd by auto.
    destruct (Reqb (node t (i + S k)) (node t i)) eqn:E1; [apply Reqb_true in E1; congruence|].
    destruct (Reqb (node t (i + S k + 1)) (node t (i + 1))) eqn:E2; [apply Reqb_true in E2; congruence|].
    set (a := node t i) in *. set (b := node t (i + S k)) in *. set (a' := node t (i + 1)) in *. set (b' := node t (i + S k + 1)) in *.
    set (da := node dt i) in *. set (db := node dt (i + S k)) in *. set (da' := node dt (i + 1)) in *. set (db' := node dt (i + S k + 1)) in *.
    apply (is_derive_ext_loc (fun s =>
      plus (mult (((x - a) + s * (dx - da)) / ((b - a) + s * (db - da))) (base_fun (x + s * dx) k i (moved t dt s)))
           (mult (((b' - x) + s * (db' - dx)) / ((b' - a') + s * (db' - da'))) (base_fun (x + s * dx) k (i + 1) (moved t dt s))))).
    + generalize (filter_and _ _ (stable b db a da N1) (stable b' db' a' da' N2)).
      apply filter_imp. intros s [[_ A] [_ B]]. cbn [base_fun]. rewrite !node_moved by auto. fold a b a' b' da db da' db'.
      destruct (Reqb (b + s * db) (a + s * da)) eqn:F1; [apply Reqb_true in F1; congruence|].
      destruct (Reqb (b' + s * db') (a' + s * da')) eqn:F2; [apply Reqb_true in F2; congruence|].
      unfold plus, mult; simpl. f_equal; f_equal; f_equal; ring.
    + evar_last.
      * apply (is_derive_plus (V := R_NormedModule)).
        -- apply (is_derive_mult (fun s => ((x - a) + s * (dx - da)) / ((b - a) + s * (db - da))) (fun s => base_fun (x + s * dx) k i (moved t dt s)));
           [apply quot; lra|apply IH; apply window_l; auto|intros; apply Rmult_comm].
        -- apply (is_derive_mult (fun s => ((b' - x) + s * (db' - dx)) / ((b' - a') + s * (db' - da'))) (fun s => base_fun (x + s * dx) k (i + 1) (moved t dt s)));
           [apply quot; lra|apply IH; apply window_r; auto|intros; apply Rmult_comm].
      * unfold plus, mult; simpl.
        assert (Z : forall j, base_fun (x + 0 * dx) k j (moved t dt 0) = base_fun x k j t).
        { intros j. replace (x + 0 * dx) with x by ring. apply base_fun_local. intros m _. rewrite node_moved by auto. ring. }
        rewrite !Z. unfold Rdiv. rewrite !Rmult_0_l, !Rplus_0_r. reflexivity.
Qed.
Lemma window_of t k i : separated t k -> (i + k + 1 < length t)%nat -> window t k i.
Proof. intros S Hi a b A B C. rewrite !node_nth by lia. apply S; lia. Qed.
Lemma jvp_ok x dx t dt k : t <> [] -> length dt = length t ->
  basis_jvp x dx t dt k = Ok (map (fun i => jb x dx k i t dt) (seq 0 (length t - k - 1))).
Proof.
  intros N H. unfold basis_jvp, basis_num. pose proof (combine_length t dt) as L. rewrite H, Nat.min_id in L.
  destruct (combine t dt) as [|p l] eqn:E; [destruct t; simpl in L; [congruence|discriminate]|].
  rewrite <- L. unfold jb. rewrite E. reflexivity.
Qed.
Lemma basis_jvp_spec x dx t dt k : t <> [] -> length dt = length t ->
  exists b, basis_jvp x dx t dt k = Ok b /\ spline_basis x t k = Ok (map fst b) /\
  (separated t k -> ~ In x t -> forall i, (i + k + 1 < length t)%nat ->
   is_derive (fun s => ith i (spline_basis (x + s * dx) (moved t dt s) k)) 0 (snd (nth i b (0, 0)))).
Proof.
  intros N H. eexists. split; [apply jvp_ok; auto|]. split.
  - unfold spline_basis. destruct t as [|a t]; [congruence|]. f_equal. rewrite map_map. apply map_ext. intros i. symmetry. apply jb_fst. auto.
  - intros S O i Hi. rewrite nth_map_seq by lia.
    apply (is_derive_ext (fun s => base_fun (x + s * dx) k i (moved t dt s))).
    + intros s. symmetry. apply basis_entry. unfold moved. rewrite map_length, combine_length, H, Nat.min_id. auto.
    + apply jb_derive; auto; [|apply window_of; auto]. intros j E. apply O. rewrite <- E. apply node_in. auto.
Qed.

(** *** reverse mode *)
Definition pairing (g : R) (gt : nat -> R) (dx : R) (dt : list R) : R := g * dx + sumn (length dt) (fun j => gt j * nth j dt 0).
(** the cotangents are finite and represent the linear form L on tangents of n nodes *)
Definition finite_form (n : nat) (c : cotan) (L : R -> list R -> R) : Prop :=
  exists g gt, fst c = Ok g /\ (forall j, snd c j = Ok (gt j)) /\ forall dx dt, length dt = n -> pairing g gt dx dt = L dx dt.

Lemma form_ext n c L M : (forall dx dt, length dt = n -> L dx dt = M dx dt) -> finite_form n c L -> finite_form n c M.
Proof. intros E (g & gt & A & B & C). exists g, gt. refine (conj A (conj B _)). intros. rewrite <- E by auto. auto. Qed.
Lemma form_add n a b L M : finite_form n a L -> finite_form n b M -> finite_form n (ct_add a b) (fun dx dt => L dx dt + M dx dt).
Proof.
  intros (g & gt & A & B & C) (h & ht & D & E & F). exists (g + h), (fun j => gt j + ht j). unfold ct_add. cbn [fst snd].
  split; [rewrite A, D; reflexivity|]. split; [intros j; rewrite B, E; reflexivity|].
  intros dx dt Hd. rewrite <- C, <- F by auto. unfold pairing.
  rewrite (sumn_ext _ (fun j => (gt j + ht j) * nth j dt 0) (fun j => gt j * nth j dt 0 + ht j * nth j dt 0)) by (intros; ring).
  rewrite sumn_plus. ring.
Qed.
Lemma form_zero n : finite_form n ct_zero (fun _ _ => 0).
Proof.
  exists 0, (fun _ => 0). refine (conj eq_refl (conj (fun _ => eq_refl) _)). intros dx dt _. unfold pairing.
  rewrite sumn_0 by (intros; ring). ring.
Qed.
Lemma form_x n c : finite_form n (to_x (Ok c)) (fun dx _ => c * dx).
Proof.
  exists c, (fun _ => 0). refine (conj eq_refl (conj (fun _ => eq_refl) _)). intros dx dt _. unfold pairing.
  rewrite sumn_0 by (intros; ring). ring.
Qed.
Lemma sumn_single n m (v : R) f : (m < n)%nat -> sumn n (fun j => (if Nat.eqb j m then v else 0) * f j) = v * f m.
Proof.
  intros H. induction n as [|n IH]; [lia|]. cbn [sumn]. destruct (Nat.eqb_spec n m) as [->|N].
  - rewrite sumn_0; [ring|]. intros j Hj. destruct (Nat.eqb_spec j m); [lia|ring].
  - rewrite IH by lia. ring.
Qed.
Lemma form_node t i c : t <> [] -> finite_form (length t) (to_node t i (Ok c)) (fun _ dt => c * node dt i).
Proof.
  intros N. exists 0, (fun j => if Nat.eqb j (Nat.min i (length t - 1)) then c else 0).
  refine (conj eq_refl (conj _ _)).
  - intros j. cbn [to_node snd]. destruct (Nat.eqb j _); reflexivity.
  - intros dx dt Hd. unfold pairing, node. rewrite sumn_single; [rewrite Hd; ring|].
    rewrite Hd. destruct t; [congruence|]. cbn [length]. lia.
Qed.
Lemma fdiv_ok a b : b <> 0 -> fdiv a b = Ok (a / b).
Proof. intros N. unfold fdiv. destruct (Req_EM_T b 0); [congruence|reflexivity]. Qed.
Lemma rev_form x t : t <> [] -> forall k i c, window t k i ->
  finite_form (length t) (base_rev x k i t (Ok c)) (fun dx dt => c * snd (jb x dx k i t dt)).
Proof.
  intros N. induction k as [|k IH]; intros i c W.
  - apply (form_ext _ _ (fun _ _ => 0)); [|apply form_zero]. intros dx dt Hd. unfold jb. cbn [base_num]. destruct (andb _ _); simpl; ring.
  - assert (N1 : node t (i + S k) <> node t i) by (apply not_eq_sym, W; lia).
    assert (N2 : node t (i + S k + 1) <> node t (i + 1)) by (apply not_eq_sym, W; lia).
    cbn [base_rev].
    destruct (Reqb (node t (i + S k)) (node t i)) eqn:E1; [apply Reqb_true in E1; congruence|].
    destruct (Reqb (node t (i + S k + 1)) (node t (i + 1))) eqn:E2; [apply Reqb_true in E2; congruence|].
    assert (M1 : node t (i + S k) - node t i <> 0) by lra. assert (M2 : node t (i + S k + 1) - node t (i + 1) <> 0) by lra.
    unfold mul_ct, div_num, div_den. cbn [bind]. rewrite !fdiv_ok by (auto; apply Rmult_integral_contrapositive; auto). cbn [bind rneg].
    eapply form_ext; [|apply form_add; (apply form_add; [apply form_add; first [apply form_x|apply form_node; auto]|];
      apply form_add; [apply form_add; apply form_node; auto|apply IH; first [apply window_l; auto; fail|apply window_r; auto]])].
    intros dx dt Hd. cbn beta. rewrite jb_snd by auto. rewrite E1, E2. field. auto.
Qed.

Definition nf (r : res R) : Prop := r = Err NonFinite.
Definition okf (r : res R) : Prop := (exists v, r = Ok v) \/ nf r.
Lemma radd_ok a b : okf a -> okf b -> okf (radd a b).
Proof. intros [[u ->]| ->] [[v ->]| ->]; simpl; unfold okf, nf; eauto. Qed.
Lemma radd_l a b : nf a -> nf (radd a b).
Proof. intros ->. reflexivity. Qed.
Lemma radd_r a b : okf a -> nf b -> nf (radd a b).
Proof. intros [[u ->]| ->] ->; reflexivity. Qed.
Lemma ok_val v : okf (Ok v). Proof. left. eauto. Qed.
Lemma fdiv_okf a b : okf (fdiv a b).
Proof. unfold fdiv. destruct (Req_EM_T b 0); [right; reflexivity|apply ok_val]. Qed.
Lemma mul_okf c a : okf c -> okf a -> okf (mul_ct c a).
Proof. intros [[u ->]| ->] [[v ->]| ->]; simpl; unfold okf, nf; eauto. Qed.
Lemma div_num_okf c b : okf c -> okf (div_num c b).
Proof. intros [[u ->]| ->]; simpl; [apply fdiv_okf|right; reflexivity]. Qed.
Lemma rneg_okf c : okf c -> okf (rneg c).
Proof. intros [[u ->]| ->]; simpl; unfold okf, nf; eauto. Qed.
Lemma rev_okf x t : forall k i c, okf c -> okf (fst (base_rev x k i t c)).
Proof.
  induction k as [|k IH]; intros i c Hc; [apply ok_val|]. cbn [base_rev]. unfold ct_add, to_x, to_node. cbn [fst snd].
  assert (O : forall b : bool, okf (if b then Ok 0 else c)) by (intros []; [apply ok_val|auto]).
  apply radd_ok; (apply radd_ok; [apply radd_ok; repeat first [apply ok_val|apply rneg_okf|apply div_num_okf|apply mul_okf|apply O]|]);
  (apply radd_ok; [apply radd_ok; apply ok_val|]); apply IH; apply mul_okf; auto; apply fdiv_okf.
Qed.
(** the cotangent of x if two nodes of the window coincide *)
Lemma rev_nf x t : forall k i c a b, okf c -> (i <= a < b)%nat -> (b <= a + k)%nat -> (b <= i + k + 1)%nat -> node t a = node t b ->
  nf (fst (base_rev x k i t c)).
Proof.
  induction k as [|k IH]; intros i c a b Hc A B C E; [lia|]. cbn [base_rev]. unfold ct_add, to_x, to_node. cbn [fst snd].
  assert (O : forall b : bool, okf (if b then Ok 0 else c)) by (intros []; [apply ok_val|auto]).
  assert (D : forall u, nf (div_num (mul_ct (Ok 0) (Ok u)) 0)).
  { intros u. unfold div_num, mul_ct. simpl. unfold fdiv. destruct (Req_EM_T 0 0); [reflexivity|congruence]. }
  assert (okl : forall j u num den, okf (radd (radd (Ok 0) (Ok 0)) (fst (base_rev x k j t (mul_ct (if (u : bool) then Ok 0 else c) (fdiv num den)))))).
  { intros. apply radd_ok; [apply radd_ok; apply ok_val|]. apply rev_okf, mul_okf; auto. apply fdiv_okf. }
  assert (okq : forall (u : bool) v den, okf (div_num (mul_ct (if u then Ok 0 else c) (Ok v)) den)).
  { intros. apply div_num_okf, mul_okf; auto. apply ok_val. }
  destruct (Nat.eq_dec b (a + S k)) as [F|F].
  - destruct (Nat.eq_dec a i) as [G|G].
    + subst a b. assert (Q : Reqb (node t (i + S k)) (node t i) = true) by (apply Reqb_true; auto). rewrite Q.
      apply radd_l. apply radd_l. apply radd_l. rewrite <- E. rewrite Rminus_eq_0. apply D.
    + assert (a = (i + 1)%nat) by lia. subst a. replace b with (i + S k + 1)%nat in * by lia.
      assert (Q : Reqb (node t (i + S k + 1)) (node t (i + 1)) = true) by (apply Reqb_true; auto). rewrite Q.
      apply radd_r; [apply radd_ok; [apply radd_ok; [auto|apply ok_val]|apply okl]|].
      apply radd_l. apply radd_r; [apply ok_val|]. rewrite <- E, Rminus_eq_0. rewrite (D _). reflexivity.
  - destruct (Nat.le_gt_cases b (i + k + 1)) as [G|G].
    + apply radd_l. apply radd_r; [apply radd_ok; [auto|apply ok_val]|]. apply radd_r; [apply radd_ok; apply ok_val|].
      apply (IH i _ a b); auto; try lia. apply mul_okf; auto. apply fdiv_okf.
    + apply radd_r; [apply radd_ok; [apply radd_ok; [auto|apply ok_val]|apply okl]|].
      apply radd_r; [apply radd_ok; [apply ok_val|apply rneg_okf; auto]|]. apply radd_r; [apply radd_ok; apply ok_val|].
      apply (IH (i + 1)%nat _ a b); auto; try lia. apply mul_okf; auto. apply fdiv_okf.
Qed.

Lemma basis_form x t k cts : t <> [] -> length cts = (length t - k - 1)%nat -> separated t k ->
  exists c, basis_vjp x t k cts = Ok c /\
  finite_form (length t) c (fun dx dt => sumR (map (fun i => nth i cts 0 * snd (jb x dx k i t dt)) (seq 0 (length t - k - 1)))).
Proof.
  intros N L S. unfold basis_vjp. destruct t as [|a0 t0]; [congruence|]. set (t := a0 :: t0) in *. rewrite L, Nat.eqb_refl.
  eexists. split; [reflexivity|].
  assert (Q : forall l, (forall i, In i l -> (i + k + 1 < length t)%nat) ->
    finite_form (length t) (fold_right ct_add ct_zero (map (fun i => base_rev x k i t (Ok (nth i cts 0))) l))
      (fun dx dt => sumR (map (fun i => nth i cts 0 * snd (jb x dx k i t dt)) l))).
  { induction l as [|i l IH]; intros Hl; [apply form_zero|]. cbn [map fold_right].
    eapply form_ext; [|apply form_add; [apply rev_form; auto; apply window_of; auto; apply Hl; left; auto|apply IH; intros; apply Hl; right; auto]].
    intros dx dt _. reflexivity. }
  apply Q. intros i Hi. apply in_seq in Hi. lia.
Qed.
Lemma basis_vjp_spec x t k cts : t <> [] -> length cts = (length t - k - 1)%nat -> separated t k ->
  exists c gx gt, basis_vjp x t k cts = Ok c /\ fst c = Ok gx /\ length gt = length t /\
  (forall j, (j < length t)%nat -> snd c j = Ok (nth j gt 0)) /\
  forall dx dt b, length dt = length t -> basis_jvp x dx t dt k = Ok b ->
    gx * dx + sumR (map2 Rmult gt dt) = sumR (map2 Rmult cts (map snd b)).
Proof.
  intros N L Sep. destruct (basis_form x t k cts N L Sep) as (c & A & g & gt & B & C & D).
  exists c, g, (map gt (seq 0 (length t))). split; [auto|]. split; [auto|]. split; [rewrite map_length, seq_length; auto|].
  split; [intros j Hj; rewrite nth_map_seq by auto; apply C|].
  intros dx dt b Hd Hb. specialize (D dx dt Hd). rewrite jvp_ok in Hb by auto. injection Hb as <-.
  unfold pairing in D. rewrite map_map.
  assert (E : forall (f : nat -> R) (l : list R) n s, n = length l -> sumR (map2 Rmult (map f (seq s n)) l) = sumR (map (fun j => f (s + j)%nat * nth j l 0) (seq 0 n))).
  { intros f l. induction l as [|a l IH]; intros n s ->; [reflexivity|]. cbn [length seq map map2 sumR fold_right]. fold (sumR (map2 Rmult (map f (seq (S s) (length l))) l)).
    rewrite IH by auto. rewrite <- seq_shift, map_map. unfold sumR. cbn [nth]. rewrite Nat.add_0_r. f_equal. f_equal. apply map_ext. intros j. rewrite Nat.add_succ_r. reflexivity. }
  rewrite E by auto. rewrite sumn_seq. rewrite Hd in D. cbn [Nat.add]. rewrite D.
  clear - L. revert L. generalize (length t - k - 1)%nat. intros n L. subst n.
  assert (F : forall (f : nat -> R) l s, sumR (map (fun i => nth (i - s) l 0 * f i) (seq s (length l))) = sumR (map2 Rmult l (map f (seq s (length l))))).
  { intros f l. induction l as [|a l IH]; intros s; [reflexivity|]. cbn [length seq map map2 sumR fold_right]. rewrite Nat.sub_diag. cbn [nth]. f_equal.
    fold (sumR (map2 Rmult l (map f (seq (S s) (length l))))). rewrite <- IH. unfold sumR. f_equal. apply map_ext_in. intros i Hi. apply in_seq in Hi.
    replace (i - s)%nat with (S (i - S s)) by lia. reflexivity. }
  transitivity (sumR (map (fun i => nth (i - 0) cts 0 * snd (jb x dx k i t dt)) (seq 0 (length cts)))); [|apply F].
  f_equal. apply map_ext. intros i. rewrite Nat.sub_0_r. reflexivity.
Qed.
Lemma basis_vjp_nan x t k cts a b : length cts = (length t - k - 1)%nat -> (k + 1 < length t)%nat ->
  (a < b <= a + k)%nat -> (b < length t)%nat -> nth a t 0 = nth b t 0 ->
  exists c, basis_vjp x t k cts = Ok c /\ fst c = Err NonFinite.
Proof.
  intros L Hk A B E. unfold basis_vjp. destruct t as [|a0 t0]; [simpl in B; lia|]. set (t := a0 :: t0) in *. rewrite L, Nat.eqb_refl.
  eexists. split; [reflexivity|].
  assert (Q : forall l, (exists i, In i l /\ (i <= a)%nat /\ (b <= i + k + 1)%nat) ->
    nf (fst (fold_right ct_add ct_zero (map (fun i => base_rev x k i t (Ok (nth i cts 0))) l)))).
  { assert (K : forall l, okf (fst (fold_right ct_add ct_zero (map (fun i => base_rev x k i t (Ok (nth i cts 0))) l)))).
    { induction l as [|i l IH]; [apply ok_val|]. cbn [map fold_right ct_add fst]. apply radd_ok; auto. apply rev_okf, ok_val. }
    induction l as [|i l IH]; [intros (i' & [] & _)|]. intros (i' & [->|Hi] & P1 & P2); cbn [map fold_right ct_add fst].
    - apply radd_l. apply (rev_nf x t k i' _ a b); auto; try lia; [apply ok_val|]. rewrite !node_nth by lia. auto.
    - apply radd_r; [apply rev_okf, ok_val|]. apply IH. eauto. }
  apply Q. exists (Nat.min a (length t - k - 2)). split; [apply in_seq; lia|lia].
Qed.

Lemma sum_zero g n : sumR (map2 Rmult g (repeat 0 n)) = 0.
Proof. revert n. induction g as [|a g IH]; intros [|n]; try reflexivity. cbn [repeat map2 sumR fold_right]. fold (sumR (map2 Rmult g (repeat 0 n))). rewrite IH. ring. Qed.
Lemma const_grid (t : list R) : map (const (dual real_num)) t = combine t (repeat 0 (length t)).
Proof. induction t as [|a t IH]; [reflexivity|]. cbn [map length repeat combine]. rewrite IH. reflexivity. Qed.
Lemma deriv_jvp x t k : exists b, t <> [] -> basis_jvp x 1 t (repeat 0 (length t)) k = Ok b /\ basis_deriv 1 x t k = Ok (map snd b).
Proof.
  destruct t as [|a t]; [exists []; congruence|]. eexists. intros N. split; [apply jvp_ok; [auto|apply repeat_length]|].
  unfold basis_deriv, basis_num. cbn [tower seed]. rewrite const_grid. pose proof (jvp_ok x 1 (a :: t) (repeat 0 (length (a :: t))) k N (repeat_length _ _)) as J.
  unfold basis_jvp, basis_num in J. cbn [combine repeat length] in *. cbn [bind]. injection J as J.
  change (const real_num 1) with 1. f_equal. etransitivity; [|apply (f_equal (map snd) J)]. apply map_ext. reflexivity.
Qed.
Lemma vjp_input x t k cts d : t <> [] -> length cts = (length t - k - 1)%nat -> separated t k -> basis_deriv 1 x t k = Ok d ->
  exists c, basis_vjp x t k cts = Ok c /\ fst c = Ok (sumR (map2 Rmult cts d)).
Proof.
  intros N L Sep Hd. destruct (basis_vjp_spec x t k cts N L Sep) as (c & g & gt & A & B & C & _ & D).
  exists c. split; [auto|]. rewrite B. f_equal. destruct (deriv_jvp x t k) as (b & J). destruct (J N) as [J1 J2].
  specialize (D 1 (repeat 0 (length t)) b (repeat_length _ _) J1). rewrite sum_zero in D.
  rewrite J2 in Hd. injection Hd as <-. lra.
Qed.
Lemma strict_separated t k : strictly_sorted t -> separated t k.
Proof. intros H a b A B. apply Rlt_not_eq. apply H. lia. Qed.
Lemma reverse_refuted : exists x t k cts d, sorted t /\ length cts = (length t - k - 1)%nat /\ basis_deriv 1 x t k = Ok d /\
  ~ exists c, basis_vjp x t k cts = Ok c /\ fst c = Ok (sumR (map2 Rmult cts d)).
Proof.
  destruct (basis_deriv_defined 1 (/ 2) [0; 0; 1] 1 ltac:(discriminate)) as (d & Hd & _).
  exists (/ 2), [0; 0; 1], 1%nat, [1], d. split; [|split; [reflexivity|split; [exact Hd|]]].
  - intros i j [H1 H2]. simpl in H2. destruct i as [|[|[|i]]], j as [|[|[|j]]]; try lia; simpl; lra.
  - destruct (basis_vjp_nan (/ 2) [0; 0; 1] 1 [1] 0 1 eq_refl ltac:(simpl; lia) ltac:(lia) ltac:(simpl; lia) eq_refl) as (c & A & B).
    intros (c' & A' & B'). congruence.
Qed.
Lemma make_grid_separated start stop power num t k : start < stop -> 0 < power -> (2 <= num)%nat ->
  make_grid start stop power num = Ok t -> separated t k.
Proof.
  intros H P N E. apply strict_separated. destruct (grid_spec start stop power num ltac:(lra) P N) as (t' & E' & _ & _ & _ & _ & Q & _).
  rewrite E in E'. injection E' as <-. apply Q. auto.
Qed.
Lemma basis_vjp_shape x t k cts : t <> [] -> length cts <> (length t - k - 1)%nat -> basis_vjp x t k cts = Err ValueError.
Proof. intros N L. unfold basis_vjp. destruct t; [congruence|]. destruct (Nat.eqb_spec (length cts) (length (r :: t) - k - 1)); [contradiction|reflexivity]. Qed.
