(** Nested forward derivatives of the spline basis with respect to the input. *)
From Coquelicot Require Import Coquelicot.
From Verif Require Import Base BaseFacts P_Vec M_Spline S_Spline P_Spline1 P_Spline2 M_SplineAD S_SplineAD.
Require Import Ring.

(** *** the numbers are a ring with division by constants *)
Record lawful (A : num) : Prop := {
  l_ring : ring_theory (const A 0) (const A 1) (nadd A) (nmul A) (nsub A) (fun a => nsub A (const A 0) a) eq;
  l_add : forall a b, const A (a + b) = nadd A (const A a) (const A b);
  l_sub : forall a b, const A (a - b) = nsub A (const A a) (const A b);
  l_mul : forall a b, const A (a * b) = nmul A (const A a) (const A b);
  l_val : forall a, value A (const A a) = a;
  l_div : forall a b, b <> 0 -> ndiv A a (const A b) = nmul A a (const A (/ b)) }.

Lemma real_lawful : lawful real_num.
Proof.
  constructor; simpl; auto. constructor; intros; simpl; ring.
Qed.
Section DualRing.
  Variable A : num.
  Hypothesis LA : lawful A.
  Let RA := l_ring A LA.
  Add Ring ringA : RA.
  Lemma dual_lawful : lawful (dual A).
  Proof.
    constructor; simpl.
    - constructor; repeat intros []; simpl; intros; f_equal; try ring.
    - intros a b. f_equal; [apply l_add; auto|ring].
    - intros a b. f_equal; [apply l_sub; auto|ring].
    - intros a b. f_equal; [apply l_mul; auto|ring].
    - intros a. apply l_val; auto.
    - intros [a a'] b Hb. simpl. rewrite <- l_mul by auto.
      rewrite !l_div by (auto; apply Rmult_integral_contrapositive; auto). f_equal. ring.
  Qed.
End DualRing.
Lemma tower_lawful n : lawful (tower n).
Proof. induction n; [apply real_lawful|apply dual_lawful; auto]. Qed.

(** *** polynomials *)
Fixpoint peval (A : num) (p : list R) (x : car A) : car A :=
  match p with [] => const A 0 | a :: p' => nadd A (const A a) (nmul A x (peval A p' x)) end.
Fixpoint padd (p q : list R) : list R :=
  match p, q with [], _ => q | _, [] => p | a :: p', b :: q' => a + b :: padd p' q' end.
Definition pscal (c : R) (p : list R) := map (Rmult c) p.
Definition plin (c0 c1 : R) (p : list R) := padd (pscal c0 p) (0 :: pscal c1 p).
Fixpoint dpoly (p : list R) : list R := match p with [] => [] | _ :: p' => match p' with [] => [] | _ => padd p' (0 :: dpoly p') end end.

Section Poly.
  Variable A : num.
  Hypothesis LA : lawful A.
  Let RA := l_ring A LA.
  Add Ring ringA2 : RA.
  Lemma peval_padd p : forall q x, peval A (padd p q) x = nadd A (peval A p x) (peval A q x).
  Proof.
    induction p as [|a p IH]; intros [|b q] x; simpl; try ring. rewrite IH, l_add by auto. ring.
  Qed.
  Lemma peval_pscal c p x : peval A (pscal c p) x = nmul A (const A c) (peval A p x).
  Proof. induction p as [|a p IH]; simpl; [ring|]. rewrite IH, l_mul by auto. ring. Qed.
  Lemma peval_plin c0 c1 p x : peval A (plin c0 c1 p) x = nmul A (nadd A (const A c0) (nmul A (const A c1) x)) (peval A p x).
  Proof. unfold plin. rewrite peval_padd. simpl. rewrite !peval_pscal. ring. Qed.
  Lemma peval_dpoly a p x : peval A (dpoly (a :: p)) x = nadd A (peval A p x) (nmul A x (peval A (dpoly p) x)).
  Proof. destruct p as [|b p]; [simpl; ring|]. change (dpoly (a :: b :: p)) with (padd (b :: p) (0 :: dpoly (b :: p))). rewrite peval_padd. generalize (dpoly (b :: p)). intros d. cbn [peval]. ring. Qed.
  Lemma peval_dual p x : peval (dual A) p (x, const A 1) = (peval A p x, peval A (dpoly p) x).
  Proof.
    induction p as [|a p IH]; [reflexivity|]. rewrite peval_dpoly. cbn [peval]. rewrite IH. simpl. f_equal. ring.
  Qed.
End Poly.

(** the polynomial that is active at the value x *)
Fixpoint piece (x : R) (k i : nat) (t : list R) : list R :=
  match k with
  | O => if andb (Rleb (node t i) x) (Rltb x (node t (i + 1))) then [1] else []
  | S k' =>
      let a := node t i in let b := node t (i + k) in
      let a' := node t (i + 1) in let b' := node t (i + k + 1) in
      padd (if Reqb b a then [] else plin (- a * / (b - a)) (/ (b - a)) (piece x k' i t))
           (if Reqb b' a' then [] else plin (b' * / (b' - a')) (- / (b' - a')) (piece x k' (i + 1) t))
  end.

Lemma gnode_const A (t : list R) i : gnode A (map (const A) t) i = const A (node t i).
Proof. unfold gnode, node. rewrite map_length. apply map_nth. Qed.
Section Piece.
  Variable A : num.
  Hypothesis LA : lawful A.
  Let RA := l_ring A LA.
  Add Ring ringA3 : RA.
  Lemma opp_sub a b : const A (- a * b) = nsub A (const A 0) (nmul A (const A a) (const A b)).
  Proof. rewrite <- l_mul, <- l_sub by auto. f_equal. lra. Qed.
  Lemma opp_const b : const A (- b) = nsub A (const A 0) (const A b).
  Proof. rewrite <- l_sub by auto. f_equal. lra. Qed.
  Lemma base_piece t x : forall k i, base_num A x k i (map (const A) t) = peval A (piece (value A x) k i t) x.
  Proof.
    induction k as [|k IH]; intros i; cbn [base_num piece]; rewrite !gnode_const, !l_val by auto.
    - destruct (andb _ _); simpl; ring.
    - rewrite peval_padd by auto. rewrite !IH. f_equal.
      + destruct (Reqb _ _) eqn:E; [reflexivity|]. rewrite peval_plin by auto.
        assert (N : node t (i + S k) - node t i <> 0).
        { intros Z. assert (node t (i + S k) = node t i) by lra. apply Reqb_true in H. congruence. }
        rewrite <- l_sub by auto. rewrite l_div by auto. rewrite opp_sub. ring.
      + destruct (Reqb _ _) eqn:E; [reflexivity|]. rewrite peval_plin by auto.
        assert (N : node t (i + S k + 1) - node t (i + 1) <> 0).
        { intros Z. assert (node t (i + S k + 1) = node t (i + 1)) by lra. apply Reqb_true in H. congruence. }
        rewrite <- l_sub by auto. rewrite l_div by auto. rewrite l_mul, opp_const by auto. ring.
  Qed.
End Piece.

Lemma seed_value n x : value (tower n) (seed n x) = x.
Proof. induction n; simpl; auto. Qed.
Lemma iter_r n : forall p, Nat.iter (S n) dpoly p = Nat.iter n dpoly (dpoly p).
Proof. induction n as [|n IH]; intros p; [reflexivity|]. cbn [Nat.iter nat_rect]. f_equal. apply IH. Qed.
Definition reval (p : list R) (x : R) : R := peval real_num p x.
Lemma top_peval n : forall p x, top n (peval (tower n) p (seed n x)) = reval (Nat.iter n dpoly p) x.
Proof.
  induction n as [|n IH]; intros p x; [reflexivity|].
  rewrite iter_r.
  rewrite <- IH. cbn [seed tower top]. rewrite (peval_dual (tower n) (tower_lawful n)). reflexivity.
Qed.

(** n-th derivative of one basis function *)
Definition dn (n : nat) (t : list R) (k i : nat) (x : R) : R := reval (Nat.iter n dpoly (piece x k i t)) x.
Lemma deriv_ok n x t k : t <> [] -> basis_deriv n x t k = Ok (map (fun i => dn n t k i x) (seq 0 (length t - k - 1))).
Proof.
  intros H. unfold basis_deriv, basis_num. destruct t as [|a t]; [congruence|]. cbn [map].
  change (const (tower n) a :: map (const (tower n)) t) with (map (const (tower n)) (a :: t)). rewrite map_length.
  simpl. f_equal. rewrite map_map. apply map_ext. intros i.
  change (const (tower n) a :: map (const (tower n)) t) with (map (const (tower n)) (a :: t)).
  rewrite (base_piece (tower n) (tower_lawful n)), seed_value, top_peval. reflexivity.
Qed.
Lemma deriv_ith n x t k i : (i + k + 1 < length t)%nat -> ith i (basis_deriv n x t k) = dn n t k i x.
Proof.
  intros H. rewrite deriv_ok by (intros ->; simpl in H; lia). unfold ith. rewrite nth_map_seq by lia. reflexivity.
Qed.
Lemma dn_0 t k i x : dn 0 t k i x = base_fun x k i t.
Proof.
  unfold dn. cbn [Nat.iter nat_rect]. unfold reval.
  transitivity (base_num real_num x k i (map (const real_num) t)); [symmetry; apply (base_piece real_num real_lawful t x k i)|].
  simpl. rewrite map_id.
  revert i. induction k as [|k IH]; intros i; [reflexivity|]. simpl. rewrite <- !IH. reflexivity.
Qed.

(** *** the active polynomial is constant to the right *)
Lemma piece_right t x : exists delta, 0 < delta /\ forall y k i, x <= y < x + delta -> piece y k i t = piece x k i t.
Proof.
  destruct (isolated (0 :: t) x) as [eps He]. exists eps. split; [apply eps|]. intros y k i Hy. revert i.
  assert (N : forall j, In (node t j) (0 :: t)).
  { intros j. destruct t as [|a t]; [left; unfold node; simpl; destruct (Nat.min j 0); reflexivity|right; apply node_in; discriminate]. }
  assert (C : forall j, Rleb (node t j) y = Rleb (node t j) x /\ Rltb y (node t j) = Rltb x (node t j)).
  { intros j. specialize (He (node t j) (N j)). unfold Rleb, Rltb.
    destruct (Req_dec (node t j) x) as [E|D].
    - rewrite E. destruct (Rle_dec x y), (Rle_dec x x), (Rlt_dec y x), (Rlt_dec x x); split; try reflexivity; exfalso; lra.
    - specialize (He D). unfold Rabs in He. destruct (Rcase_abs _);
      destruct (Rle_dec (node t j) y), (Rle_dec (node t j) x), (Rlt_dec y (node t j)), (Rlt_dec x (node t j)); split; try reflexivity; exfalso; lra. }
  induction k as [|k IH]; intros i; cbn [piece].
  - destruct (C i) as [-> _]. destruct (C (i + 1)%nat) as [_ ->]. reflexivity.
  - rewrite !IH. reflexivity.
Qed.
Lemma reval_derive p x : is_derive (reval p) x (reval (dpoly p) x).
Proof.
  revert x. induction p as [|a p IH]; intros x; unfold reval in *.
  - apply (is_derive_ext (fun _ => 0)); [reflexivity|]. evar_last; [apply @is_derive_const|reflexivity].
  - rewrite (peval_dpoly real_num real_lawful).
    evar_last; [apply (is_derive_plus (V := R_NormedModule) (fun _ => a) (fun y => y * peval real_num p y) x);
      [apply is_derive_const|apply (is_derive_mult (fun y => y) (peval real_num p)); [apply is_derive_id|apply IH|intros; apply Rmult_comm]]|].
    simpl. unfold plus, mult, one, zero; simpl. ring.
Qed.
Lemma derive_right f x d : is_derive f x d -> right_derive f x d.
Proof.
  intros H eps He. apply is_derive_Reals in H. destruct (H eps He) as [delta Hd]. exists delta. split; [apply delta|].
  intros h Hh. apply Hd; [lra|]. rewrite Rabs_right; lra.
Qed.
Lemma right_ext f g x d delta : 0 < delta -> (forall y, x <= y < x + delta -> f y = g y) -> right_derive f x d -> right_derive g x d.
Proof.
  intros Hd E H eps He. destruct (H eps He) as (d2 & P & Q). exists (Rmin delta d2). split; [apply Rmin_glb_lt; auto|].
  intros h Hh. pose proof (Rmin_l delta d2). pose proof (Rmin_r delta d2). rewrite <- !E by lra. apply Q. lra.
Qed.
Lemma right_unique f x d e : right_derive f x d -> right_derive f x e -> d = e.
Proof.
  intros H K. destruct (Req_dec d e) as [|N]; auto. exfalso.
  assert (P : 0 < Rabs (d - e) / 2). { assert (0 < Rabs (d - e)) by (apply Rabs_pos_lt; lra). lra. }
  destruct (H _ P) as (a & A1 & A2). destruct (K _ P) as (b & B1 & B2).
  assert (M : 0 < Rmin a b) by (apply Rmin_glb_lt; auto). pose proof (Rmin_l a b). pose proof (Rmin_r a b).
  specialize (A2 (Rmin a b / 2) ltac:(lra)). specialize (B2 (Rmin a b / 2) ltac:(lra)).
  set (q := (_ - _) / _) in *. clearbody q. unfold Rabs in *. repeat destruct (Rcase_abs _); lra.
Qed.
Lemma dn_right n t k i x : right_derive (dn n t k i) x (dn (S n) t k i x).
Proof.
  destruct (piece_right t x) as (delta & Hd & E).
  apply (right_ext (reval (Nat.iter n dpoly (piece x k i t))) _ x _ delta Hd).
  - intros y Hy. unfold dn. rewrite (E y k i Hy). reflexivity.
  - apply derive_right. apply reval_derive.
Qed.
Lemma basis_deriv_right n t k i x : (i + k + 1 < length t)%nat ->
  right_derive (fun y => ith i (basis_deriv n y t k)) x (ith i (basis_deriv (S n) x t k)).
Proof.
  intros H. rewrite deriv_ith by auto. apply (right_ext (dn n t k i) _ x _ 1 Rlt_0_1); [|apply dn_right].
  intros y _. symmetry. apply deriv_ith. auto.
Qed.

(** *** two-sided derivatives *)
Lemma right_lin f g x d e a b : right_derive f x d -> right_derive g x e -> right_derive (fun y => a * f y + b * g y) x (a * d + b * e).
Proof.
  intros H K eps He. set (M := Rabs a + Rabs b + 1).
  assert (PM : 0 < M) by (unfold M; pose proof (Rabs_pos a); pose proof (Rabs_pos b); lra).
  assert (Q : 0 < eps / M) by (apply Rdiv_lt_0_compat; auto).
  destruct (H _ Q) as (d1 & P1 & Q1). destruct (K _ Q) as (d2 & P2 & Q2).
  exists (Rmin d1 d2). split; [apply Rmin_glb_lt; auto|]. intros h Hh. pose proof (Rmin_l d1 d2). pose proof (Rmin_r d1 d2).
  specialize (Q1 h ltac:(lra)). specialize (Q2 h ltac:(lra)).
  replace ((a * f (x + h) + b * g (x + h) - (a * f x + b * g x)) / h - (a * d + b * e))
    with (a * ((f (x + h) - f x) / h - d) + b * ((g (x + h) - g x) / h - e)) by (field; lra).
  eapply Rle_lt_trans; [apply Rabs_triang|]. rewrite !Rabs_mult.
  pose proof (Rabs_pos a). pose proof (Rabs_pos b).
  set (u := Rabs ((f (x + h) - f x) / h - d)) in *. set (v := Rabs ((g (x + h) - g x) / h - e)) in *.
  assert (Rabs a * u <= Rabs a * (eps / M)) by (apply Rmult_le_compat_l; lra).
  assert (Rabs b * v <= Rabs b * (eps / M)) by (apply Rmult_le_compat_l; lra).
  assert (E : eps = (Rabs a + Rabs b + 1) * (eps / M)) by (unfold M; field; fold M; lra).
  set (q := eps / M) in *. lra.
Qed.
Lemma dn_down t : strictly_sorted t -> forall n k i x, (i + k + 3 < length t)%nat ->
  dn (S n) t (S (S k)) i x = INR (S (S k)) / wd t (S (S k)) i * dn n t (S k) i x + (- (INR (S (S k)) / wd t (S (S k)) (i + 1))) * dn n t (S k) (i + 1) x.
Proof.
  intros H n. induction n as [|n IH]; intros k i x Hi.
  - apply (right_unique (dn 0 t (S (S k)) i) x); [apply dn_right|]. apply derive_right.
    apply (is_derive_ext (fun y => base_fun y (S (S k)) i t)); [intros y; symmetry; apply dn_0|].
    evar_last; [apply base_fun_derive; auto|]. unfold dbase. rewrite !dn_0. unfold Rdiv. ring.
  - apply (right_unique (dn (S n) t (S (S k)) i) x); [apply dn_right|].
    eapply (right_ext (fun y => INR (S (S k)) / wd t (S (S k)) i * dn n t (S k) i y + (- (INR (S (S k)) / wd t (S (S k)) (i + 1))) * dn n t (S k) (i + 1) y) _ x _ 1 Rlt_0_1).
    + intros y _. symmetry. apply IH. auto.
    + apply right_lin; apply dn_right.
Qed.
Lemma dn_derive t : strictly_sorted t -> forall n k i x, (n + 2 <= k)%nat -> (i + k + 1 < length t)%nat ->
  is_derive (dn n t k i) x (dn (S n) t k i x).
Proof.
  intros H n. induction n as [|n IH]; intros k i x Hk Hi.
  - destruct k as [|[|k]]; try lia. rewrite dn_down by (auto; lia).
    apply (is_derive_ext (fun y => base_fun y (S (S k)) i t)); [intros y; symmetry; apply dn_0|].
    evar_last; [apply base_fun_derive; auto; lia|]. unfold dbase. rewrite !dn_0. unfold Rdiv. ring.
  - destruct k as [|[|k]]; try lia. rewrite dn_down by (auto; lia).
    apply (is_derive_ext (fun y => INR (S (S k)) / wd t (S (S k)) i * dn n t (S k) i y + (- (INR (S (S k)) / wd t (S (S k)) (i + 1))) * dn n t (S k) (i + 1) y)).
    { intros y. symmetry. apply dn_down; auto; lia. }
    apply (is_derive_plus (V := R_NormedModule)); apply (is_derive_scal (dn n t (S k) _)); apply IH; lia.
Qed.
Lemma basis_deriv_derive t n k i x : strictly_sorted t -> (n + 2 <= k)%nat -> (i + k + 1 < length t)%nat ->
  is_derive (fun y => ith i (basis_deriv n y t k)) x (ith i (basis_deriv (S n) x t k)).
Proof.
  intros H Hk Hi. rewrite deriv_ith by auto. apply (is_derive_ext (dn n t k i)); [|apply dn_derive; auto].
  intros y. symmetry. apply deriv_ith. auto.
Qed.
Lemma basis_deriv_0 x t k : basis_deriv 0 x t k = spline_basis x t k.
Proof.
  destruct t as [|a t]; [reflexivity|]. rewrite deriv_ok by discriminate. unfold spline_basis. f_equal.
  apply map_ext. intros i. apply dn_0.
Qed.
Lemma basis_deriv_defined n x t k : t <> [] -> exists b, basis_deriv n x t k = Ok b /\ length b = (length t - k - 1)%nat.
Proof. intros H. rewrite deriv_ok by auto. eexists. split; [reflexivity|]. rewrite map_length, seq_length. auto. Qed.

(** *** derivatives of order above the degree *)
Lemma padd_length p : forall q, length (padd p q) = Nat.max (length p) (length q).
Proof. induction p as [|a p IH]; intros [|b q]; simpl; auto. Qed.
Lemma plin_length c d p : (length (plin c d p) <= S (length p))%nat.
Proof. unfold plin. rewrite padd_length. simpl. unfold pscal. rewrite !map_length. lia. Qed.
Lemma piece_length x t : forall k i, (length (piece x k i t) <= S k)%nat.
Proof.
  induction k as [|k IH]; intros i; cbn [piece].
  - destruct (andb _ _); simpl; lia.
  - rewrite padd_length. apply Nat.max_lub; destruct (Reqb _ _); try (simpl; lia);
    (eapply Nat.le_trans; [apply plin_length|]; apply le_n_S; apply IH).
Qed.
Lemma dpoly_length p : length (dpoly p) = (length p - 1)%nat.
Proof.
  induction p as [|a p IH]; [reflexivity|]. cbn [dpoly]. destruct p as [|b p]; [reflexivity|]. rewrite padd_length.
  cbn [length] in *. rewrite IH. lia.
Qed.
Lemma iter_length n p : length (Nat.iter n dpoly p) = (length p - n)%nat.
Proof. induction n as [|n IH]; [simpl; lia|]. change (Nat.iter (S n) dpoly p) with (dpoly (Nat.iter n dpoly p)). rewrite dpoly_length, IH. lia. Qed.
Lemma basis_deriv_high n x t k b : basis_deriv n x t k = Ok b -> (k < n)%nat -> b = repeat 0 (length t - k - 1).
Proof.
  intros H Hk. destruct t as [|a t]; [discriminate|]. rewrite deriv_ok in H by discriminate. injection H as <-.
  transitivity (repeat 0 (length (seq 0 (length (a :: t) - k - 1)))); [|rewrite seq_length; reflexivity].
  induction (seq 0 _) as [|i l IH]; [reflexivity|]. cbn [map length repeat]. f_equal; [|apply IH].
  unfold dn. pose proof (piece_length x (a :: t) k i) as L. pose proof (iter_length n (piece x k i (a :: t))) as E.
  destruct (Nat.iter n dpoly (piece x k i (a :: t))) as [|c p]; [reflexivity|]. cbn [length] in E. lia.
Qed.
