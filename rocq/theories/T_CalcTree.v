(** Property theorems for the operators of calc.py on functions with pytree results (C110). *)
From Coq Require Import String.
From Coquelicot Require Import Coquelicot.
From Verif Require Import Base BaseFacts P_Vec M_Tensor M_Calc M_Jac M_CalcTree S_Calc S_Model S_CalcTree P_Calc P_CalcTree.
Import ListNotations.
Open Scope R_scope.

Theorem laplace_of_tree n D F td us : openset n D -> computes_tree n D F td us ->
  computes_tree n D (laplaceP F) td (map (lap_field n) us).
Proof. exact (laplaceP_ok n D F td us). Qed.
Print Assumptions laplace_of_tree.

Theorem laplace_of_tree_at_0d_point F td us : computes_tree0 F td us ->
  computes_tree0 (laplaceP F) td (map (fun u => (fst u, fun p => Derive (Derive (snd u p)))) us).
Proof. exact (laplaceP0_ok F td us). Qed.
Print Assumptions laplace_of_tree_at_0d_point.

Theorem divergence_of_tree n (D : list R -> Prop) F td us args k j x :
  pyidx (List.length args) k j -> nth_error args k = Some x -> shape x = [n] -> D (tlist x) -> openset n D ->
  computes_tree n D (fun t => F (upd args k t)) td us -> Forall (fun u : field => (List.length (fst u) <= 2)%nat) us ->
  exists y d, value_and_divergenceP F (JOne j) args = Ok (y, d) /\ divergenceP F (JOne j) args = Ok d /\
    F args = Ok y /\ tree_of td (map (div_field n) us) (tlist x) d.
Proof. exact (divergence_tree_one n D F td us args k j x). Qed.
Print Assumptions divergence_of_tree.

Theorem divergence_of_tree_with_tensor_leaf n (D : list R -> Prop) F td us args k j x u :
  pyidx (List.length args) k j -> nth_error args k = Some x -> shape x = [n] -> D (tlist x) -> openset n D ->
  computes_tree n D (fun t => F (upd args k t)) td us -> In u us -> (2 < List.length (fst u))%nat ->
  divergenceP F (JOne j) args = Err ValueError.
Proof. exact (divergence_tree_bad n D F td us args k j x u). Qed.
Print Assumptions divergence_of_tree_with_tensor_leaf.

Theorem divergence_of_several_arguments F args td js ks (N : nat -> nat) (D : nat -> list R -> Prop) X us :
  NoDup ks -> Forall2 (fun j k => pyidx (List.length args) k j) js ks -> ks <> [] ->
  (forall k, In k ks -> nth_error args k = Some (X k) /\ shape (X k) = [N k] /\ D k (tlist (X k)) /\
     openset (N k) (D k) /\ computes_tree (N k) (D k) (fun t => F (upd args k t)) td (us k)) ->
  (forall k, In k ks -> Forall (fun u : field => (List.length (fst u) <= 2)%nat) (us k)) ->
  exists y d, value_and_divergenceP F (JMany js) args = Ok (y, d) /\ divergenceP F (JMany js) args = Ok d /\ F args = Ok y /\
    tdef d = TTuples td (List.length ks) /\ List.length (leaves d) = (List.length (leaves y) * List.length ks)%nat /\
    forall i c k u, nth_error ks c = Some k -> nth_error (us k) i = Some u ->
      exists a, nth_error (leaves d) (i * List.length ks + c) = Some a /\ value_of (tlist (X k)) a (div_field (N k) u).
Proof. exact (fun _ Hjs Hne HK => divergence_tree_many F args td js ks N D X us Hjs Hne HK). Qed.
Print Assumptions divergence_of_several_arguments.

Theorem curl_of_tree_in_3d D F td us : openset 3 D -> computes_tree 3 D F td us -> Forall (last_axis 3) us ->
  computes_tree 3 D (curlP F) td (map curl3_field us).
Proof. exact (curl3_ok D F td us). Qed.
Print Assumptions curl_of_tree_in_3d.

Theorem curl_of_tree_in_2d D F td us : openset 2 D -> computes_tree 2 D F td us -> Forall (last_axis 2) us ->
  computes_tree 2 D (curlP F) td (map curl2_field us).
Proof. exact (curl2_ok D F td us). Qed.
Print Assumptions curl_of_tree_in_2d.

Theorem curl_of_tree_with_wrong_leaf n D F td us x u m s : (n = 2 \/ n = 3)%nat -> openset n D -> computes_tree n D F td us ->
  shape x = [n] -> D (tlist x) -> Forall (fun v : field => fst v <> []) us -> In u us -> fst u = s ++ [m] -> m <> n ->
  curlP F x = Err AssertionError.
Proof. exact (curl_tree_bad n D F td us x u m s). Qed.
Print Assumptions curl_of_tree_with_wrong_leaf.

Theorem curl_of_tree_with_scalar_leaf n D F td us x u : (n = 2 \/ n = 3)%nat -> openset n D -> computes_tree n D F td us ->
  shape x = [n] -> D (tlist x) -> In u us -> fst u = [] -> curlP F x = Err IndexError.
Proof. exact (curl_tree_0d n D F td us x u). Qed.
Print Assumptions curl_of_tree_with_scalar_leaf.

(** ** a dictionary with a scalar field, a vector field and a matrix field *)
Definition len (n : nat) (X : list R) : Prop := List.length X = n.
Lemma len_open n : openset n (len n).
Proof. intros x Hx. split; [exact Hx|]. exists 1. split; [lra|]. intros y (L & _). unfold len in *. lia. Qed.
Definition sc_ : field := ([], fun _ X => nth 0 X 0 * nth 0 X 0 * nth 1 X 0).
Definition ve_ : field := ([3%nat], fun p X => match p with [0%nat] => nth 0 X 0 * nth 1 X 0 | [1%nat] => nth 1 X 0 * nth 1 X 0 | _ => nth 0 X 0 end).
Definition ma_ : field := ([2; 3]%nat, fun p X => match p with [a; i] => INR a * nth i X 0 | _ => 0 end).
Definition eval_ (us : list field) (t : tensor) : res ptree :=
  Ok (mkP (TDef "dict") (map (fun u : field => mkT (fst u) (fun p => snd u p (tlist t))) us)).
Lemma eval_ok n D us : computes_tree n D (eval_ us) (TDef "dict") us.
Proof.
  intros t St Dt. eexists. split; [reflexivity|]. split; [reflexivity|]. cbn [leaves].
  induction us as [|u us IH]; cbn [map]; constructor; auto. split; [reflexivity|]. intros p Hp. reflexivity.
Qed.
Example laplace_of_tree_case : computes_tree 3 (len 3) (laplaceP (eval_ [sc_; ve_; ma_])) (TDef "dict") (map (lap_field 3) [sc_; ve_; ma_]).
Proof. apply laplace_of_tree; [apply len_open|apply eval_ok]. Qed.
(** the Laplacian of the scalar leaf is [2 y] *)
Example laplace_of_scalar_leaf : snd (lap_field 3 sc_) [] [1; 5; 2] = 10.
Proof.
  cbn [lap_field snd]. unfold lap_, total. cbn [seq map sumR fold_right].
  assert (E0 : forall a b c, pd 0 (snd sc_ []) [a; b; c] = 2 * a * b).
  { intros a b c. unfold pd. cbn. apply is_derive_unique. auto_derive; [exact I|ring]. }
  assert (E1 : forall a b c, pd 1 (snd sc_ []) [a; b; c] = a * a).
  { intros a b c. unfold pd. cbn. apply is_derive_unique. auto_derive; [exact I|ring]. }
  assert (E2 : forall a b c, pd 2 (snd sc_ []) [a; b; c] = 0).
  { intros a b c. unfold pd. cbn. apply is_derive_unique. auto_derive; [exact I|ring]. }
  assert (F0 : pd 0 (pd 0 (snd sc_ [])) [1; 5; 2] = 10).
  { unfold pd at 1. cbn [upd nth]. transitivity (Derive (fun t => 2 * t * 5) 1); [apply Derive_ext; intros; apply E0|].
    apply is_derive_unique. auto_derive; [exact I|ring]. }
  assert (F1 : pd 1 (pd 1 (snd sc_ [])) [1; 5; 2] = 0).
  { unfold pd at 1. cbn [upd nth]. transitivity (Derive (fun _ => 1 * 1) 5); [apply Derive_ext; intros; apply E1|]. apply Derive_const. }
  assert (F2 : pd 2 (pd 2 (snd sc_ [])) [1; 5; 2] = 0).
  { unfold pd at 1. cbn [upd nth]. transitivity (Derive (fun _ => 0) 2); [apply Derive_ext; intros; apply E2|]. apply Derive_const. }
  change (pd 0 (pd 0 (snd sc_ [])) [1; 5; 2] + (pd 1 (pd 1 (snd sc_ [])) [1; 5; 2] + (pd 2 (pd 2 (snd sc_ [])) [1; 5; 2] + 0)) = 10).
  rewrite F0, F1, F2. ring.
Qed.
Example divergence_of_tree_case : exists y d,
  value_and_divergenceP (fun l => match l with [x; _] => eval_ [sc_; ve_; ma_] x | _ => Err TypeError end) (JOne (-2))
    [tvec [1; 5; 2]; tsc 4] = Ok (y, d) /\
  tree_of (TDef "dict") (map (div_field 3) [sc_; ve_; ma_]) [1; 5; 2] d.
Proof.
  destruct (divergence_of_tree 3 (len 3) (fun l => match l with [x; _] => eval_ [sc_; ve_; ma_] x | _ => Err TypeError end)
    (TDef "dict") [sc_; ve_; ma_] [tvec [1; 5; 2]; tsc 4] 0 (-2) (tvec [1; 5; 2])) as (y & d & E & _ & _ & T).
  - split; [cbn; lia|]. right. reflexivity.
  - reflexivity.
  - reflexivity.
  - reflexivity.
  - apply len_open.
  - cbn [upd]. apply eval_ok.
  - repeat constructor.
  - exists y, d. split; [exact E|exact T].
Qed.
Example divergence_of_vector_leaf : snd (div_field 3 ve_) [] [1; 5; 2] = 15.
Proof.
  cbn [div_field ve_ fst snd last removelast app]. unfold total. cbn [seq map sumR fold_right Nat.min].
  assert (E0 : pd 0 (snd ve_ [0%nat]) [1; 5; 2] = 5). { unfold pd. cbn. apply is_derive_unique. auto_derive; [exact I|ring]. }
  assert (E1 : pd 1 (snd ve_ [1%nat]) [1; 5; 2] = 10). { unfold pd. cbn. apply is_derive_unique. auto_derive; [exact I|ring]. }
  assert (E2 : pd 2 (snd ve_ [2%nat]) [1; 5; 2] = 0). { unfold pd. cbn. apply Derive_const. }
  change (pd 0 (snd ve_ [0%nat]) [1; 5; 2] + (pd 1 (snd ve_ [1%nat]) [1; 5; 2] + (pd 2 (snd ve_ [2%nat]) [1; 5; 2] + 0)) = 15).
  rewrite E0, E1, E2. ring.
Qed.
(** two arguments: the leaves are x and the product of all entries of x and y *)
Definition two_ (l : list tensor) : res ptree :=
  match l with [x; y] => Ok (mkP (TDef "list") [x; tsc (entry x [0%nat] * entry y [1%nat])]) | _ => Err TypeError end.
Definition two_us (k : nat) : list field :=
  match k with
  | O => [([2%nat], fun p X => nth (hd 0%nat p) X 0); ([], fun _ X => nth 0 X 0 * 7)]
  | _ => [([2%nat], fun p _ => nth (hd 0%nat p) [3; 4] 0); ([], fun _ X => 3 * nth 1 X 0)]
  end.
Example divergence_of_several_arguments_case : exists d, divergenceP two_ (JMany [1%Z; 0%Z]) [tvec [3; 4]; tvec [6; 7]] = Ok d /\
  tdef d = TTuples (TDef "list") 2 /\ List.length (leaves d) = 4%nat /\
  (exists a, nth_error (leaves d) 1 = Some a /\ value_of [3; 4] a (div_field 2 ([2%nat], fun p X => nth (hd 0%nat p) X 0))) /\
  (exists a, nth_error (leaves d) 2 = Some a /\ value_of [6; 7] a (div_field 2 ([], fun _ X => 3 * nth 1 X 0))).
Proof.
  destruct (divergence_of_several_arguments two_ [tvec [3; 4]; tvec [6; 7]] (TDef "list") [1%Z; 0%Z] [1%nat; 0%nat]
    (fun _ => 2%nat) (fun _ => len 2) (fun k => match k with O => tvec [3; 4] | _ => tvec [6; 7] end) two_us) as (y & d & _ & E & Ey & T & L & H).
  - repeat constructor; cbn; intuition congruence.
  - constructor; [|constructor; [|constructor]]; split; cbn; auto; lia.
  - discriminate.
  - intros k [<-|[<-|[]]]; (split; [reflexivity|]); (split; [reflexivity|]); (split; [reflexivity|]); (split; [apply len_open|]);
      intros t St Dt; (eexists; split; [reflexivity|]); (split; [reflexivity|]); cbn [leaves two_us];
      (constructor; [|constructor; [|constructor]]); (split; [try exact St; reflexivity|]); cbn [fst snd]; intros p Hp.
    + inversion Hp as [|i ? q ? Hi Hq]; subst. inversion Hq; subst. reflexivity.
    + cbn [entry tsc upd tvec nth hd]. rewrite (tlist_nth _ 2) by (auto; lia). reflexivity.
    + inversion Hp as [|i ? q ? Hi Hq]; subst. inversion Hq; subst. cbn [hd]. symmetry. apply (tlist_nth _ 2); auto.
    + cbn [entry tsc upd tvec nth hd]. rewrite (tlist_nth _ 2) by (auto; lia). reflexivity.
  - intros k [<-|[<-|[]]]; repeat constructor.
  - exists d. split; [exact E|]. split; [exact T|]. cbn in Ey. injection Ey as <-. split; [exact L|]. split.
    + exact (H 0%nat 1%nat 0%nat _ eq_refl eq_refl).
    + exact (H 1%nat 0%nat 1%nat _ eq_refl eq_refl).
Qed.
Example curl_of_tree_case : computes_tree 3 (len 3) (curlP (eval_ [ve_; ma_])) (TDef "dict") (map curl3_field [ve_; ma_]).
Proof.
  apply curl_of_tree_in_3d; [apply len_open|apply eval_ok|].
  constructor; [exists []; reflexivity|]. constructor; [exists [2%nat]; reflexivity|constructor].
Qed.
Example curl_of_vector_leaf : snd (curl3_field ve_) [1%nat] [1; 5; 2] = -1.
Proof.
  cbn [curl3_field snd fst ve_ removelast last app]. unfold curl3_.
  assert (E0 : pd 2 (snd ve_ [0%nat]) [1; 5; 2] = 0). { unfold pd. cbn. apply is_derive_unique. auto_derive; [exact I|ring]. }
  assert (E1 : pd 0 (snd ve_ [2%nat]) [1; 5; 2] = 1). { unfold pd. cbn. apply is_derive_unique. auto_derive; [exact I|ring]. }
  change (pd 2 (snd ve_ [0%nat]) [1; 5; 2] - pd 0 (snd ve_ [2%nat]) [1; 5; 2] = -1). rewrite E0, E1. ring.
Qed.
Example curl_of_tree_with_wrong_leaf_case : curlP (eval_ [ve_; ([2%nat], fun _ _ => 1)]) (tvec [1; 5; 2]) = Err AssertionError /\
  curlP (eval_ [ve_; sc_]) (tvec [1; 5; 2]) = Err IndexError.
Proof.
  split.
  - apply (curl_of_tree_with_wrong_leaf 3 (len 3) _ (TDef "dict") [ve_; ([2%nat], fun _ _ => 1)] _ ([2%nat], fun _ _ => 1) 2 []);
      auto using len_open, eval_ok; [reflexivity| |right; left; reflexivity].
    repeat constructor; discriminate.
  - apply (curl_of_tree_with_scalar_leaf 3 (len 3) _ (TDef "dict") [ve_; sc_] _ sc_);
      auto using len_open, eval_ok; [reflexivity|right; left; reflexivity].
Qed.
Example divergence_of_tree_with_tensor_leaf_case : divergenceP (fun l => match l with [x] => eval_ [ve_; ([1; 1; 1]%nat, fun _ _ => 1)] x | _ => Err TypeError end)
  (JOne 0) [tvec [1; 5; 2]] = Err ValueError.
Proof.
  apply (divergence_of_tree_with_tensor_leaf 3 (len 3) _ (TDef "dict") [ve_; ([1; 1; 1]%nat, fun _ _ => 1)] _ 0 0 (tvec [1; 5; 2]) ([1; 1; 1]%nat, fun _ _ => 1));
    auto using len_open.
  - split; [cbn; lia|left; reflexivity].
  - reflexivity.
  - apply eval_ok.
  - right; left; reflexivity.
Qed.
Example laplace_of_tree_at_0d_point_case : exists y,
  laplaceP (fun t => Ok (mkP (TDef "tuple") [tsc (entry t [] * entry t []); mkT [2%nat] (fun p => INR (hd 0%nat p) * entry t [] ^ 3)])) (tsc 2) = Ok y /\
  tree_of0 (TDef "tuple") [([], fun _ => Derive (Derive (fun x => x * x))); ([2%nat], fun p => Derive (Derive (fun x => INR (hd 0%nat p) * x ^ 3)))] 2 y.
Proof.
  apply (laplace_of_tree_at_0d_point _ (TDef "tuple") [([], fun _ x => x * x); ([2%nat], fun p x => INR (hd 0%nat p) * x ^ 3)]); [|reflexivity].
  intros t St. eexists. split; [reflexivity|]. split; [reflexivity|]. cbn [leaves].
  constructor; [|constructor; [|constructor]]; (split; [reflexivity|]); intros p Hp; reflexivity.
Qed.
