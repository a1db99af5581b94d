(** Proofs about utils.py. *)
From Coquelicot Require Import Coquelicot.
From Verif Require Import Base BaseFacts M_Opt S_Opt P_Opt M_Utils S_Utils.

Lemma gradR_ext f g x : (forall y, f y = g y) -> gradR f x = gradR g x.
Proof. intros H. unfold gradR. apply map_ext. intros i. apply Derive_ext. intros t. apply H. Qed.

Lemma funs_spec {K} (f : pyfun1 (K := K)) vag aux k (v : list R -> R) (a : list R -> pyval)
  (g : list R -> list R) p :
  (forall p, f p k = Ok (returned vag aux (v p) (a p) (g p))) ->
  let A := if aux then a p else VNone in
  let G := if vag then g p else gradR v p in
  let '(fun_, grad_fun, value_and_grad_fun) := make_funs_with_aux f vag aux in
  fun_ p k = Ok (VTup [VNum (v p); A]) /\
  grad_fun p k = Ok (VTup [VArr G; A]) /\
  value_and_grad_fun p k = Ok (VTup [VTup [VNum (v p); A]; VArr G]).
Proof.
  intros H. cbn zeta. unfold make_funs_with_aux.
  destruct vag; cbn in H.
  - destruct aux; cbn in H; unfold grad_fun, value_and_grad_fun, fun_; rewrite H; cbn; auto.
  - assert (E : gradR (fun q => num_of (fun_ f false aux q k)) p = gradR v p).
    { apply gradR_ext. intros q. unfold fun_. destruct aux; cbn in H; rewrite H; reflexivity. }
    unfold grad_fun, value_and_grad_fun, jax_value_and_grad. rewrite E.
    destruct aux; cbn in H; unfold fun_; rewrite H; cbn; auto.
Qed.

Lemma funs_agree {K} (f1 f2 f3 f4 : pyfun1 (K := K)) k (v : list R -> R) (a : list R -> pyval) p :
  (forall p, f1 p k = Ok (returned false true (v p) (a p) (gradR v p))) ->
  (forall p, f2 p k = Ok (returned true true (v p) (a p) (gradR v p))) ->
  (forall p, f3 p k = Ok (returned false false (v p) (a p) (gradR v p))) ->
  (forall p, f4 p k = Ok (returned true false (v p) (a p) (gradR v p))) ->
  (grad_fun f1 false true p k = grad_fun f2 true true p k /\
   value_and_grad_fun f1 false true p k = value_and_grad_fun f2 true true p k /\
   fun_ f1 false true p k = fun_ f2 true true p k) /\
  (grad_fun f3 false false p k = grad_fun f4 true false p k /\
   value_and_grad_fun f3 false false p k = value_and_grad_fun f4 true false p k /\
   fun_ f3 false false p k = fun_ f4 true false p k).
Proof.
  intros H1 H2 H3 H4.
  pose proof (funs_spec f1 false true k v a (gradR v) p H1) as (A1 & A2 & A3).
  pose proof (funs_spec f2 true true k v a (gradR v) p H2) as (B1 & B2 & B3).
  pose proof (funs_spec f3 false false k v a (gradR v) p H3) as (C1 & C2 & C3).
  pose proof (funs_spec f4 true false k v a (gradR v) p H4) as (D1 & D2 & D3).
  cbn in *. repeat split; congruence.
Qed.

Lemma missing_aux {K} (f : pyfun1 (K := K)) p k r : f p k = Ok (VNum r) ->
  value_and_grad_fun f false true p k = Err TypeError /\
  grad_fun f false true p k = Err TypeError /\
  fun_ f true true p k = Err TypeError.
Proof.
  intros H. unfold grad_fun, value_and_grad_fun, jax_value_and_grad, fun_. rewrite H. cbn. auto.
Qed.

(** ** tree_dim and tree_single_dtype *)
Lemma nodup_single (l : list nat) d : nodup Nat.eq_dec l = [d] <-> l <> [] /\ forall x, In x l -> x = d.
Proof.
  split.
  - intros H. split.
    + intros ->. discriminate.
    + intros x Hx. apply (nodup_In Nat.eq_dec) in Hx. rewrite H in Hx. destruct Hx as [->|[]]; auto.
  - intros (Hne & H). induction l as [|a l IH]; [congruence|].
    assert (a = d) by (apply H; left; auto). subst a. cbn.
    destruct (in_dec Nat.eq_dec d l) as [Hi|Hi].
    + apply IH; [intros ->; destruct Hi|]. intros; apply H; right; auto.
    + destruct l as [|b l]; [reflexivity|]. exfalso. apply Hi.
      assert (b = d) by (apply H; right; left; auto). subst. left; auto.
Qed.

Lemma nodup_nil (l : list nat) : nodup Nat.eq_dec l = [] <-> l = [].
Proof.
  split; [|intros ->; reflexivity]. intros H. destruct l as [|a l]; auto.
  assert (In a []) as []. rewrite <- H. apply nodup_In. left; auto.
Qed.

Lemma tree_dim_spec {A} (t : ptree A) n : tree_dim t = Ok n <-> t <> [] /\ all_rows n t.
Proof.
  split.
  - unfold tree_dim. intros H.
    destruct (sequence (map shape0 t)) as [ss|e] eqn:E; cbn in H; [|discriminate].
    assert (Hn : nodup Nat.eq_dec ss = [n]).
    { destruct (nodup Nat.eq_dec ss) as [|d [|]]; congruence. }
    apply nodup_single in Hn. destruct Hn as (Hne & Hall).
    apply shapes_inv in E. split.
    + intros ->. inversion E; subst. congruence.
    + intros p Hp. clear - E Hall Hp. induction E as [|q s X ss (l & -> & L) F IH]; [destruct Hp|].
      destruct Hp as [<-|Hp].
      * exists l. split; auto. rewrite L. apply Hall. left; auto.
      * apply IH; auto. intros; apply Hall; right; auto.
  - intros (Hne & H). unfold tree_dim. rewrite (shapes_rows n t H). cbn.
    assert (nodup Nat.eq_dec (repeat n (length t)) = [n]) as ->; [|reflexivity].
    apply nodup_single. split.
    + destruct t; cbn; congruence.
    + intros x Hx. eapply repeat_spec, Hx.
Qed.

Lemma tree_dim_axis_size {A} (t : ptree A) n : tree_dim t = Ok n <-> axis_size t = Ok n.
Proof.
  rewrite tree_dim_spec. split.
  - intros (H1 & H2). apply axis_size_ok; auto.
  - apply axis_size_inv.
Qed.

Lemma tree_dim_mismatch {A} (t : ptree A) : (forall p, In p t -> exists l, p = Rows l) ->
  (forall n, ~ all_rows n t) \/ t = [] -> tree_dim t = Err AssertionError.
Proof.
  intros HR H.
  destruct (tree_dim t) as [n|e] eqn:E.
  - apply tree_dim_spec in E. destruct E as (Hne & Ha).
    destruct H as [H|H]; [exfalso; eapply H, Ha|congruence].
  - unfold tree_dim in E.
    assert (exists ss, sequence (map shape0 t) = Ok ss) as (ss & Es).
    { clear - HR. induction t as [|p t IH]; [exists []; reflexivity|].
      destruct (HR p (or_introl eq_refl)) as (l & ->).
      destruct IH as (ss & E); [intros; apply HR; right; auto|].
      exists (length l :: ss). cbn. rewrite E. reflexivity. }
    rewrite Es in E. cbn in E. destruct (nodup Nat.eq_dec ss) as [|d [|]]; congruence.
Qed.

Lemma in_dtypes (leaves : list (option nat)) x :
  In x (flat_map (fun d => match d with Some d => [d] | None => [] end) leaves) <-> In (Some x) leaves.
Proof.
  rewrite in_flat_map. split.
  - intros ([d|] & H1 & H2); [destruct H2 as [->|[]]; auto|destruct H2].
  - intros H. exists (Some x). split; auto. left; auto.
Qed.

Lemma dtype_spec (leaves : list (option nat)) :
  (tree_single_dtype leaves = Ok None <-> forall x, ~ In (Some x) leaves) /\
  (forall d, tree_single_dtype leaves = Ok (Some d) <->
     In (Some d) leaves /\ forall x, In (Some x) leaves -> x = d) /\
  (tree_single_dtype leaves = Err ValueError <->
     exists x y, In (Some x) leaves /\ In (Some y) leaves /\ x <> y).
Proof.
  unfold tree_single_dtype.
  set (l := flat_map _ leaves).
  assert (HI : forall x, In x l <-> In (Some x) leaves) by (intros; apply in_dtypes).
  destruct (nodup Nat.eq_dec l) as [|d [|e q]] eqn:E.
  - apply (proj1 (nodup_nil l)) in E.
    assert (HN : forall x, ~ In (Some x) leaves) by (intros x Hx; apply HI in Hx; rewrite E in Hx; destruct Hx).
    repeat split; intros; auto; try discriminate.
    + destruct H as (H & _). exfalso. eapply HN, H.
    + destruct H as (x & _ & H & _). exfalso. eapply HN, H.
  - apply nodup_single in E. destruct E as (Hne & Hall).
    assert (Hd : In d l).
    { destruct l as [|b l']; [congruence|]. assert (b = d) by (apply Hall; left; auto). subst. left; auto. }
    split; [|split].
    + split; [discriminate|]. intros H. exfalso. eapply H. apply HI, Hd.
    + intros d'. split.
      * intros H. assert (d' = d) by congruence. subst. split; [apply HI, Hd|].
        intros x Hx. apply Hall, HI, Hx.
      * intros (H1 & H2). f_equal. f_equal. apply H2, HI, Hd.
    + split; [discriminate|]. intros (x & y & H1 & H2 & H3). exfalso. apply H3.
      rewrite (Hall x), (Hall y); auto; apply HI; auto.
  - pose proof (NoDup_nodup Nat.eq_dec l) as ND. rewrite E in ND.
    assert (Hd : In d l) by (apply (nodup_In Nat.eq_dec); rewrite E; left; auto).
    assert (He : In e l) by (apply (nodup_In Nat.eq_dec); rewrite E; right; left; auto).
    assert (Hde : d <> e).
    { inversion ND as [|? ? Hnin ?]; subst. intros ->. apply Hnin. left; auto. }
    split; [|split].
    + split; [discriminate|]. intros H. exfalso. eapply H, HI, Hd.
    + intros d'. split; [discriminate|]. intros (_ & H). exfalso. apply Hde.
      rewrite (H d), (H e); auto; apply HI; auto.
    + split; [|reflexivity]. intros _. exists d, e. repeat split; auto; apply HI; auto.
Qed.

Lemma unpack2_wrong l : length l <> 2%nat -> unpack2 (VTup l) = Err ValueError.
Proof. destruct l as [|a [|b [|c l]]]; simpl; auto; lia. Qed.
Lemma wrong_tuple {K} (f : pyfun1 (K := K)) p k l : f p k = Ok (VTup l) -> length l <> 2%nat ->
  grad_fun f true true p k = Err ValueError /\ grad_fun f true false p k = Err ValueError /\
  value_and_grad_fun f true false p k = Err ValueError /\
  (forall v m, l = v :: m -> fun_ f true true p k = Ok v /\ fun_ f true false p k = Ok (VTup [v; VNone])).
Proof.
  intros E H. unfold grad_fun, value_and_grad_fun, fun_. rewrite E. cbn [bind]. rewrite unpack2_wrong by auto.
  split; [|split; [|split]]; auto. intros v m ->. auto.
Qed.
Lemma wrong_aux {K} (f : pyfun1 (K := K)) p k l g : f p k = Ok (VTup [VTup l; g]) -> length l <> 2%nat ->
  grad_fun f true true p k = Err ValueError.
Proof.
  intros E H. unfold grad_fun, value_and_grad_fun. rewrite E. cbn [bind].
  change (unpack2 (VTup [VTup l; g])) with (Ok (VTup l, g)). cbn [bind fst]. rewrite unpack2_wrong by auto. reflexivity.
Qed.
