(** Facts about Base.v. *)
From Verif Require Import Base.

Lemma bind_ok {A B} (r : res A) (k : A -> res B) b :
  bind r k = Ok b <-> exists a, r = Ok a /\ k a = Ok b.
Proof.
  destruct r as [a|e]; simpl; split.
  - intros H; exists a; auto.
  - intros (a' & H & H'). injection H as ->; auto.
  - discriminate.
  - intros (a' & H & _); discriminate.
Qed.

Lemma ok_inj {A} (a b : A) : Ok a = Ok b -> a = b.
Proof. intros H; injection H; auto. Qed.

Lemma sequence_ok_map {A B} (f : A -> B) (l : list A) :
  sequence (map (fun x => Ok (f x)) l) = Ok (map f l).
Proof. induction l as [|x l IH]; simpl; [reflexivity|]. rewrite IH. reflexivity. Qed.

Lemma sequence_map_ext {A B} (f : A -> res B) (g : A -> B) (l : list A) :
  (forall x, In x l -> f x = Ok (g x)) -> sequence (map f l) = Ok (map g l).
Proof.
  induction l as [|x l IH]; intros H; simpl; [reflexivity|].
  rewrite H by (left; auto). cbn [bind]. rewrite IH by (intros; apply H; right; auto). reflexivity.
Qed.

Lemma sequence_app {A} (l m : list (res A)) :
  sequence (l ++ m) = (a <- sequence l ;; b <- sequence m ;; Ok (a ++ b)).
Proof.
  induction l as [|[x|e] l IH]; simpl.
  - destruct (sequence m); reflexivity.
  - rewrite IH. destruct (sequence l); simpl; [|reflexivity]. destruct (sequence m); reflexivity.
  - reflexivity.
Qed.

Lemma sequence_length {A} (l : list (res A)) r : sequence l = Ok r -> length r = length l.
Proof.
  revert r; induction l as [|[x|e] l IH]; simpl; intros r H.
  - injection H as <-; reflexivity.
  - apply bind_ok in H as (t & Ht & H). injection H as <-. simpl. rewrite (IH t); auto.
  - discriminate.
Qed.

Lemma Rltb_true a b : Rltb a b = true <-> a < b.
Proof. unfold Rltb. destruct (Rlt_dec a b); split; intros; auto; discriminate || contradiction. Qed.
Lemma Rltb_false a b : Rltb a b = false <-> b <= a.
Proof. unfold Rltb. destruct (Rlt_dec a b); split; intros; auto; try discriminate; lra. Qed.
Lemma Rleb_true a b : Rleb a b = true <-> a <= b.
Proof. unfold Rleb. destruct (Rle_dec a b); split; intros; auto; discriminate || contradiction. Qed.
Lemma Rleb_false a b : Rleb a b = false <-> b < a.
Proof. unfold Rleb. destruct (Rle_dec a b); split; intros; auto; try discriminate; lra. Qed.
Lemma Reqb_true a b : Reqb a b = true <-> a = b.
Proof. unfold Reqb. destruct (Req_EM_T a b); split; intros; auto; discriminate || contradiction. Qed.

Lemma fdiv_ok a b : b <> 0 -> fdiv a b = Ok (a / b).
Proof. intros H. unfold fdiv. destruct (Req_EM_T b 0); [contradiction|reflexivity]. Qed.
Lemma fdiv_0 a b : b = 0 -> fdiv a b = Err NonFinite.
Proof. intros H. unfold fdiv. destruct (Req_EM_T b 0); [reflexivity|contradiction]. Qed.
Lemma pydiv_ok a b : b <> 0 -> pydiv a b = Ok (a / b).
Proof. intros H. unfold pydiv. destruct (Req_EM_T b 0); [contradiction|reflexivity]. Qed.
Lemma fsqrt_ok a : 0 <= a -> fsqrt a = Ok (sqrt a).
Proof. intros H. unfold fsqrt. destruct (Rlt_dec a 0); [lra|reflexivity]. Qed.

(** map2 *)
Lemma map2_length {A B C} (f : A -> B -> C) l m :
  length (map2 f l m) = Nat.min (length l) (length m).
Proof. revert m; induction l as [|a l IH]; intros [|b m]; simpl; auto. Qed.

Lemma map2_length_eq {A B C} (f : A -> B -> C) l m :
  length l = length m -> length (map2 f l m) = length l.
Proof. intros H. rewrite map2_length, H. apply Nat.min_id. Qed.

Lemma map2_map {A B} (f : A -> A -> B) l : map2 f l l = map (fun a => f a a) l.
Proof. induction l; simpl; f_equal; auto. Qed.

Lemma bcast1_eq {C} (f : R -> R -> C) l m : length l = length m -> bcast1 f l m = Ok (map2 f l m).
Proof. intros H. unfold bcast1. rewrite H, Nat.eqb_refl. reflexivity. Qed.

Lemma sumR_app l m : sumR (l ++ m) = sumR l + sumR m.
Proof. unfold sumR. induction l as [|a l IH]; simpl; [ring|rewrite IH; ring]. Qed.

Lemma sumR_map_scal {A} c (f : A -> R) l : sumR (map (fun x => c * f x) l) = c * sumR (map f l).
Proof. unfold sumR. induction l as [|a l IH]; simpl; [ring|rewrite IH; ring]. Qed.
Lemma sumR_map_add {A} (f g : A -> R) l :
  sumR (map (fun x => f x + g x) l) = sumR (map f l) + sumR (map g l).
Proof. unfold sumR. induction l as [|a l IH]; simpl; [ring|rewrite IH; ring]. Qed.
Lemma sumR_map_0 {A} (f : A -> R) l : (forall x, In x l -> f x = 0) -> sumR (map f l) = 0.
Proof.
  unfold sumR. induction l as [|a l IH]; simpl; intros H; [reflexivity|].
  rewrite H by auto. rewrite IH by auto. ring.
Qed.
Lemma sumR_map_ext {A} (f g : A -> R) l : (forall x, In x l -> f x = g x) ->
  sumR (map f l) = sumR (map g l).
Proof. intros H. f_equal. apply map_ext_in. auto. Qed.
Lemma sumR_nonneg l : Forall (fun x => 0 <= x) l -> 0 <= sumR l.
Proof. unfold sumR. induction 1; simpl; lra. Qed.
Lemma sumR_rev l : sumR (rev l) = sumR l.
Proof. induction l as [|a l IH]; simpl; [reflexivity|]. rewrite sumR_app, IH. unfold sumR; simpl. ring. Qed.
Lemma sumR_repeat x n : sumR (repeat x n) = INR n * x.
Proof. unfold sumR. induction n; simpl repeat; simpl fold_right; [simpl; ring|]. rewrite S_INR, IHn. ring. Qed.

Definition sumsq (l : list R) : R := sumR (map (fun x => x * x) l).
Lemma sumsq_nonneg l : 0 <= sumsq l.
Proof. apply sumR_nonneg. apply Forall_map. apply Forall_forall. intros; nra. Qed.
Lemma sumsq_cons a l : sumsq (a :: l) = a * a + sumsq l.
Proof. reflexivity. Qed.
Lemma normR_sumsq l : normR l = sqrt (sumsq l).
Proof. reflexivity. Qed.
Lemma normR_sq l : normR l * normR l = sumsq l.
Proof. unfold normR. apply sqrt_sqrt, sumsq_nonneg. Qed.
Lemma normR_pow2 l : normR l ^ 2 = sumsq l.
Proof. simpl. rewrite Rmult_1_r. apply normR_sq. Qed.
Lemma normR_nonneg l : 0 <= normR l.
Proof. apply sqrt_pos. Qed.
Lemma sumsq_0 l : sumsq l = 0 <-> Forall (fun x => x = 0) l.
Proof.
  split.
  - induction l as [|a l IH]; intros H; constructor; rewrite sumsq_cons in H;
      pose proof (sumsq_nonneg l).
    + nra.
    + apply IH. nra.
  - induction 1 as [|a l Ha _ IH]; [reflexivity|]. rewrite sumsq_cons, IH, Ha. ring.
Qed.
Lemma normR_0 l : normR l = 0 <-> Forall (fun x => x = 0) l.
Proof.
  rewrite <- sumsq_0. split; intros H.
  - rewrite <- normR_sq, H. ring.
  - unfold normR. fold (sumsq l). rewrite H. apply sqrt_0.
Qed.
Lemma dotR_self l : dotR l l = sumsq l.
Proof. unfold dotR, sumsq. rewrite map2_map. reflexivity. Qed.
Lemma sumsq_scal c l : sumsq (map (fun x => c * x) l) = c * c * sumsq l.
Proof. unfold sumsq. rewrite map_map, <- sumR_map_scal. apply sumR_map_ext. intros; ring. Qed.
Lemma normR_scal c l : normR (map (fun x => c * x) l) = Rabs c * normR l.
Proof.
  rewrite !normR_sumsq, sumsq_scal. rewrite sqrt_mult; [|nra|apply sumsq_nonneg].
  f_equal. apply sqrt_Rsqr_abs.
Qed.
Lemma dotR_cons a b l m : dotR (a :: l) (b :: m) = a * b + dotR l m.
Proof. reflexivity. Qed.
Lemma dotR_comm l m : dotR l m = dotR m l.
Proof.
  revert m; induction l as [|a l IH]; intros [|b m]; try reflexivity.
  rewrite !dotR_cons, IH. ring.
Qed.

Lemma upd_length {A} (l : list A) i v : length (upd l i v) = length l.
Proof. revert i; induction l as [|a l IH]; intros [|i]; simpl; auto. Qed.
Lemma upd_nth_same {A} (l : list A) i v d : (i < length l)%nat -> nth i (upd l i v) d = v.
Proof. revert i; induction l as [|a l IH]; intros [|i] H; simpl in *; try lia; auto. apply IH. lia. Qed.
Lemma upd_nth_other {A} (l : list A) i j v d : i <> j -> nth j (upd l i v) d = nth j l d.
Proof.
  revert i j; induction l as [|a l IH]; intros [|i] [|j] H; simpl; auto; try congruence; try lia.
Qed.
Lemma upd_self {A} (l : list A) i d : upd l i (nth i l d) = l.
Proof. revert i; induction l as [|a l IH]; intros [|i]; simpl; auto. f_equal; auto. Qed.

Lemma list_eq_nth {A} (l m : list A) d : length l = length m ->
  (forall i, (i < length l)%nat -> nth i l d = nth i m d) -> l = m.
Proof.
  revert m; induction l as [|a l IH]; intros [|b m] H Hn; simpl in *; try lia; auto.
  f_equal; [apply (Hn 0%nat); lia|]. apply IH; [lia|]. intros i Hi. apply (Hn (S i)). lia.
Qed.

Lemma reduce_from_app {A} (f : A -> A -> res A) acc l m :
  reduce_from f acc (l ++ m) = (a <- reduce_from f acc l ;; reduce_from f a m).
Proof.
  revert acc; induction l as [|x l IH]; intros acc; simpl; [reflexivity|].
  destruct (f acc x); simpl; auto.
Qed.

Lemma mod1_range x : 0 <= mod1 x < 1.
Proof.
  unfold mod1. pose proof (base_Int_part x) as [H1 H2]. lra.
Qed.
