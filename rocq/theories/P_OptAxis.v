(** Proofs about axis_size with any axis. *)
From Coq Require Import Lia.
From Coquelicot Require Import Coquelicot.
From Verif Require Import Base BaseFacts M_Tensor M_Opt M_OptAxis S_Calc.
Import ListNotations.

Lemma pyget_ok {A} (l : list A) i a : pyget l i = Ok a <-> exists k, pyidx (length l) k i /\ nth_error l k = Some a.
Proof.
  unfold pyget, pyidx. split.
  - intros E. set (j := if Z.ltb i 0 then (i + Z.of_nat (length l))%Z else i) in *.
    destruct (Z.ltb_spec j 0) as [J|J]; [discriminate|].
    destruct (nth_error l (Z.to_nat j)) eqn:N; [|discriminate]. injection E as <-.
    exists (Z.to_nat j). split; [|exact N]. split; [apply nth_error_Some; congruence|].
    unfold j in *. destruct (Z.ltb_spec i 0); [right|left]; lia.
  - intros (k & (K & E) & N). destruct E as [-> | ->].
    + destruct (Z.ltb_spec (Z.of_nat k) 0); [lia|]. destruct (Z.ltb_spec (Z.of_nat k) 0); [lia|].
      now rewrite Nat2Z.id, N.
    + destruct (Z.ltb_spec (Z.of_nat k - Z.of_nat (length l)) 0); [|lia].
      replace (Z.of_nat k - Z.of_nat (length l) + Z.of_nat (length l))%Z with (Z.of_nat k) by lia.
      destruct (Z.ltb_spec (Z.of_nat k) 0); [lia|]. now rewrite Nat2Z.id, N.
Qed.
Lemma pyget_exn {A} (l : list A) i e : pyget l i = Err e -> e = IndexError.
Proof.
  unfold pyget. set (j := if Z.ltb i 0 then _ else _). destruct (Z.ltb j 0); [congruence|].
  destruct (nth_error l (Z.to_nat j)); congruence.
Qed.
Lemma pyget_err {A} (l : list A) i e : pyget l i = Err e <-> e = IndexError /\ forall k, ~ pyidx (length l) k i.
Proof.
  split.
  - intros E. split; [exact (pyget_exn _ _ _ E)|].
    intros k K. destruct (nth_error l k) as [a|] eqn:N; [|apply nth_error_None in N; destruct K; lia].
    assert (pyget l i = Ok a) by (apply pyget_ok; eauto). congruence.
  - intros (-> & K). destruct (pyget l i) as [a|e] eqn:E.
    + apply pyget_ok in E. destruct E as (k & P & _). now destruct (K k).
    + now rewrite (pyget_exn _ _ _ E).
Qed.

Lemma sizes_ok : forall shapes axis ss, axis_sizes shapes axis = Ok ss <-> Forall2 (fun s n => pyget s axis = Ok n) shapes ss.
Proof.
  unfold axis_sizes. induction shapes as [|s l IH]; intros axis ss; cbn [map sequence].
  - split; intros E; [injection E as <-; constructor|inversion E; reflexivity].
  - destruct (pyget s axis) as [n|e] eqn:P; cbn [bind].
    + split.
      * destruct (sequence _) as [r|e] eqn:Q; [|discriminate]. intros E. injection E as <-.
        constructor; [exact P|]. now apply IH.
      * intros E. inversion E as [|? m ? r A B]; subst. apply IH in B. rewrite B. rewrite P in A. injection A as ->. reflexivity.
    + split; [discriminate|]. intros E. inversion E; congruence.
Qed.
Lemma sizes_err : forall shapes axis e, axis_sizes shapes axis = Err e <-> e = IndexError /\ exists s, In s shapes /\ forall k, ~ pyidx (length s) k axis.
Proof.
  unfold axis_sizes. induction shapes as [|s l IH]; intros axis e; cbn [map sequence].
  - split; [discriminate|]. intros (_ & s & [] & _).
  - destruct (pyget s axis) as [n|e'] eqn:P; cbn [bind].
    + split.
      * destruct (sequence _) as [r|e'] eqn:Q; [discriminate|]. intros E. injection E as ->.
        destruct (proj1 (IH axis e) Q) as (-> & t & T & K). split; [reflexivity|]. exists t. split; [now right|exact K].
      * intros (-> & t & [<-|T] & K).
        -- assert (X : pyget s axis = Err IndexError) by now apply pyget_err. congruence.
        -- rewrite (proj2 (IH axis IndexError)); [reflexivity|]. split; [reflexivity|]. now exists t.
    + apply pyget_err in P. destruct P as (-> & K). split.
      * intros E. injection E as <-. split; [reflexivity|]. exists s. split; [now left|exact K].
      * intros (-> & _). reflexivity.
Qed.

Lemma at_unfold shapes axis : axis_size_at shapes axis =
  match axis_sizes shapes axis with
  | Ok (s :: ss) => if forallb (fun s' => Nat.eqb s' s) ss then Ok s else Err AssertionError
  | Ok [] => Err IndexError
  | Err e => Err e
  end.
Proof.
  unfold axis_size_at, check_axis_size_at. destruct (axis_sizes shapes axis) as [[|s ss]|e]; try reflexivity.
  cbn [bind first_of forallb]. rewrite Nat.eqb_refl. cbn [andb]. destruct (forallb _ ss); reflexivity.
Qed.
Lemma axis_size_at_ok shapes axis n : axis_size_at shapes axis = Ok n <->
  shapes <> [] /\ forall s, In s shapes -> exists k, pyidx (length s) k axis /\ nth_error s k = Some n.
Proof.
  rewrite at_unfold. split.
  - destruct (axis_sizes shapes axis) as [[|m ss]|e] eqn:E; try discriminate.
    destruct (forallb _ ss) eqn:F; [|discriminate]. intros H; injection H as ->.
    apply sizes_ok in E. split; [intros ->; inversion E|]. intros s S.
    rewrite forallb_forall in F.
    assert (X : pyget s axis = Ok n); [|now apply pyget_ok].
    apply In_nth_error in S. destruct S as (i & S).
    assert (N : exists m, nth_error (n :: ss) i = Some m /\ pyget s axis = Ok m).
    { clear F. revert i S. induction E as [|a b l1 l2 A B IH]; intros [|i] S; try discriminate.
      - injection S as <-. exists b. now split.
      - apply (IH i S). }
    destruct N as (m & N1 & N2). destruct i as [|i]; cbn in N1.
    + congruence.
    + apply nth_error_In in N1. apply F in N1. apply Nat.eqb_eq in N1. congruence.
  - intros (NE & H).
    assert (E : axis_sizes shapes axis = Ok (repeat n (length shapes))).
    { apply sizes_ok. clear NE. induction shapes as [|s l IH]; cbn; constructor.
      - apply pyget_ok. apply H. now left.
      - apply IH. intros t T. apply H. now right. }
    rewrite E. destruct shapes as [|s l]; [congruence|]. cbn.
    assert (F : forallb (fun s' => Nat.eqb s' n) (repeat n (length l)) = true).
    { apply forallb_forall. intros x X. apply repeat_spec in X. subst. apply Nat.eqb_refl. }
    now rewrite F.
Qed.
Lemma axis_size_at_err shapes axis e : axis_size_at shapes axis = Err e <->
  (e = AssertionError /\ (forall s, In s shapes -> exists k n, pyidx (length s) k axis /\ nth_error s k = Some n) /\
     exists s t k l a b, In s shapes /\ In t shapes /\ pyidx (length s) k axis /\ pyidx (length t) l axis /\
       nth_error s k = Some a /\ nth_error t l = Some b /\ a <> b) \/
  (e = IndexError /\ (shapes = [] \/ exists s, In s shapes /\ forall k, ~ pyidx (length s) k axis)).
Proof.
  rewrite at_unfold. destruct (axis_sizes shapes axis) as [[|m ss]|e'] eqn:E.
  - apply sizes_ok in E. inversion E; subst. split.
    + intros H. injection H as <-. right. auto.
    + intros [(-> & _ & s & t & k & l & a & b & [] & _)|(-> & _)]. reflexivity.
  - apply sizes_ok in E.
    assert (All : forall s, In s shapes -> exists n, In n (m :: ss) /\ pyget s axis = Ok n).
    { intros s S. clear -E S. revert S. induction E as [|a b l1 l2 A B IH]; intros S; [destruct S|].
      destruct S as [<-|S]; [exists b; split; [now left|exact A]|]. destruct (IH S) as (n & N1 & N2). exists n. split; [now right|exact N2]. }
    assert (Back : forall n, In n (m :: ss) -> exists s, In s shapes /\ pyget s axis = Ok n).
    { intros n S. clear -E S. revert S. induction E as [|a b l1 l2 A B IH]; intros S; [destruct S|].
      destruct S as [<-|S]; [exists a; split; [now left|exact A]|]. destruct (IH S) as (s & N1 & N2). exists s. split; [now right|exact N2]. }
    destruct (forallb _ ss) eqn:F.
    + split; [discriminate|]. rewrite forallb_forall in F.
      assert (Same : forall s n, In s shapes -> pyget s axis = Ok n -> n = m).
      { intros s n S P. destruct (All s S) as (n' & [<-|N] & P'); [congruence|]. apply F in N. apply Nat.eqb_eq in N. congruence. }
      intros [(-> & _ & s & t & k & l & a & b & S & T & K & L & A & B & AB)|(-> & [-> |(s & S & K)])].
      * assert (pyget s axis = Ok a) by (apply pyget_ok; eauto). assert (pyget t axis = Ok b) by (apply pyget_ok; eauto).
        apply Same in H; trivial. apply Same in H0; trivial. congruence.
      * inversion E.
      * destruct (All s S) as (n & _ & P). apply pyget_ok in P. destruct P as (k & P & _). now destruct (K k).
    + split.
      * intros H. injection H as <-. left. split; [reflexivity|]. split.
        { intros s S. destruct (All s S) as (n & _ & P). apply pyget_ok in P. destruct P as (k & P1 & P2). now exists k, n. }
        assert (X : exists n, In n ss /\ n <> m).
        { clear -F. induction ss as [|n ss IH]; [discriminate|]. cbn in F. destruct (Nat.eqb_spec n m) as [-> |N].
          - destruct IH as (x & X1 & X2); [exact F|]. exists x. split; [now right|exact X2].
          - exists n. split; [now left|exact N]. }
        destruct X as (n & N1 & N2). destruct (Back n (or_intror N1)) as (s & S & P). destruct (Back m (or_introl eq_refl)) as (t & T & Q).
        apply pyget_ok in P, Q. destruct P as (k & P1 & P2), Q as (l & Q1 & Q2). exists s, t, k, l, n, m. repeat split; trivial; try apply P1; try apply Q1.
      * intros [(-> & _)|(-> & [-> |(s & S & K)])]; [reflexivity|inversion E|].
        destruct (All s S) as (n & _ & P). apply pyget_ok in P. destruct P as (k & P & _). now destruct (K k).
  - split.
    + intros H. injection H as ->. apply sizes_err in E. destruct E as (-> & s & S & K). right. split; [reflexivity|]. right. now exists s.
    + apply sizes_err in E. destruct E as (-> & s & S & K). intros [(-> & A & _)|(-> & _)]; [|reflexivity].
      destruct (A s S) as (k & n & P & _). now destruct (K k).
Qed.
Lemma axis_size_at_0 {A} (t : ptree A) (rest : leaf A -> list nat) :
  axis_size_at (map (fun p => match p with Scalar _ => [] | Rows l => length l :: rest p end) t) 0 = axis_size t.
Proof.
  assert (E : axis_sizes (map (fun p => match p with Scalar _ => [] | Rows l => length l :: rest p end) t) 0 = sequence (map shape0 t)).
  { unfold axis_sizes. f_equal. rewrite map_map. apply map_ext. intros [a|l]; reflexivity. }
  unfold axis_size_at, axis_size, check_axis_size_at, check_axis_size. now rewrite E.
Qed.
