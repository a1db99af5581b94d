(** Property theorems for Jacobians and derivatives of functions with pytree results (C119). *)
From Coq Require Import String.
From Coquelicot Require Import Coquelicot.
From Verif Require Import Base BaseFacts P_Vec M_Tensor M_Calc M_Jac M_CalcTree M_CalcTree2 S_Calc S_Model S_Jac S_CalcTree S_CalcTree2 P_Calc P_Jac P_CalcTree P_CalcTree2.
Import ListNotations.
Open Scope R_scope.

(** both modes, one argument of any shape *)
Theorem jacobians_of_tree F args k j x (D : list R -> Prop) td us :
  pyidx (List.length args) k j -> nth_error args k = Some x ->
  openset (List.length (indices (shape x))) D -> D (flatten x) ->
  computes_fields (shape x) D (fun t => F (upd args k t)) td us ->
  exists y, F args = Ok y /\
    (exists J, value_and_jacfwdP F (JOne j) args = Ok (y, J) /\ tdef J = td /\ jacobians_at x us (leaves J)) /\
    (exists J, value_and_jacrevP F (JOne j) args = Ok (y, J) /\ tdef J = td /\ jacobians_at x us (leaves J)).
Proof. exact (value_and_jac_tree F args k j x D td us). Qed.
Print Assumptions jacobians_of_tree.

(** several arguments: a tuple in place of every leaf *)
Theorem jacobians_of_tree_for_several_arguments F args td js ks (D : nat -> list R -> Prop) X us y :
  NoDup ks -> Forall2 (fun j k => pyidx (List.length args) k j) js ks -> F args = Ok y ->
  (forall k, In k ks -> nth_error args k = Some (X k) /\ openset (List.length (indices (shape (X k)))) (D k) /\
     D k (flatten (X k)) /\ computes_fields (shape (X k)) (D k) (fun t => F (upd args k t)) td (us k)) ->
  let good J := tdef J = TTuples (tdef y) (List.length ks) /\
    List.length (leaves J) = (List.length (leaves y) * List.length ks)%nat /\
    forall i c k u, nth_error ks c = Some k -> nth_error (us k) i = Some u ->
      exists a, nth_error (leaves J) (i * List.length ks + c) = Some a /\ is_jacobian (fst u) (snd u) (X k) a in
  (exists J, value_and_jacfwdP F (JMany js) args = Ok (y, J) /\ good J) /\
  (exists J, value_and_jacrevP F (JMany js) args = Ok (y, J) /\ good J).
Proof. exact (fun _ Hjs Ey HK => conj (jacfwd_many F args td js ks D X us y Hjs Ey HK) (jacrev_many F args td js ks D X us y Hjs Ey HK)). Qed.
Print Assumptions jacobians_of_tree_for_several_arguments.

Theorem derivative_of_tree_at_positions n f kw td us l : computes_scalars n (fun a => callP f a kw) td us ->
  Forall (fun i => (i < n)%nat) l ->
  exists df, derivativeP (WSeq (map (fun i => SInt (Z.of_nat i)) l)) ANone f = Ok df /\ paramsP df = paramsP f /\
    computes_scalars n (fun a => callP df a kw) td (map (fun u : field => (fst u, fun p => pds l (snd u p))) us).
Proof. exact (derivative_tree_positions n f kw td us l). Qed.
Print Assumptions derivative_of_tree_at_positions.

Theorem derivative_of_tree_by_names f ss is : NoDup (paramsP f) -> Forall2 (fun s i => nth_error (paramsP f) i = Some s) ss is ->
  derivativeP (WSeq (map SStr ss)) ANone f = derivativeP (WSeq (map (fun i => SInt (Z.of_nat i)) is)) ANone f.
Proof. exact (derivative_tree_names f ss is). Qed.
Print Assumptions derivative_of_tree_by_names.

(** derivative(f), derivative(f, i) and derivative(i)(f) agree; several positions are rejected *)
Theorem derivative_of_tree_called_directly f i l :
  derivative_funP f ANone = derivativeP (WInt 0) ANone f /\
  derivative_funP f (AInt i) = derivativeP (WInt i) ANone f /\
  derivative_funP f (ASeq l) = Err AssertionError.
Proof. exact (derivative_direct f i l). Qed.
Print Assumptions derivative_of_tree_called_directly.

Theorem derivative_of_tree_components ns f kw td us ks js jis : computes_vectors ns (fun a => callP f a kw) td us ->
  Forall2 (fun k ji => pyidx (nth (fst ji) ns 0%nat) (snd ji) k) ks jis ->
  Forall2 (fun a ji => pyidx (List.length ns) (fst ji) a) js jis ->
  exists df, derivativeP (WSeq (map SInt ks)) (ASeq (map Some js)) f = Ok df /\ paramsP df = paramsP f /\
    computes_vectors ns (fun a => callP df a kw) td
      (map (fun u : fieldL => (fst u, fun p => fold_left (fun h ji => pdL ji h) jis (snd u p))) us).
Proof. exact (derivative_tree_components ns f kw td us ks js jis). Qed.
Print Assumptions derivative_of_tree_components.

(** ** cases *)
(** a dictionary with the determinant and the transpose of a matrix times a number *)
Definition mat_F (l : list tensor) : res ptree :=
  match l with
  | [x; c] => Ok (mkP (TDef "dict") [tsc (entry c [] * (entry x [0; 0]%nat * entry x [1; 1]%nat - entry x [0; 1]%nat * entry x [1; 0]%nat));
                                      mkT [2; 2]%nat (fun p => entry c [] * entry x (rev p))])
  | _ => Err TypeError
  end.
Definition mat_x : tensor := mkT [2; 2]%nat (fun p => INR (2 * hd 0%nat p + last p 0%nat)).
Definition mat_us (c : R) : list field :=
  [([], fun _ X => c * (nth 0 X 0 * nth 3 X 0 - nth 1 X 0 * nth 2 X 0));
   ([2; 2]%nat, fun p X => match p with [a; b] => c * nth (2 * b + a) X 0 | _ => 0 end)].
Lemma mat_computes c : computes_fields [2; 2]%nat (fun X => List.length X = 4%nat) (fun t => mat_F (upd [mat_x; tsc c] 0 t)) (TDef "dict") (mat_us c).
Proof.
  intros t St _. eexists. split; [reflexivity|]. split; [reflexivity|]. cbn [leaves mat_us].
  unfold flatten. rewrite St. cbn [indices flat_map seq map app].
  constructor; [|constructor; [|constructor]]; (split; [reflexivity|]); cbn [fst snd]; intros p Hp.
  - reflexivity.
  - inversion Hp as [|a ? q ? Ha Hq]; subst. inversion Hq as [|b ? q' ? Hb Hq']; subst. inversion Hq'; subst.
    destruct a as [|[|a]]; [| |lia]; (destruct b as [|[|b]]; [| |lia]); reflexivity.
Qed.
Lemma mat_open : openset 4 (fun X => List.length X = 4%nat).
Proof. intros x Hx. split; [exact Hx|]. exists 1. split; [lra|]. intros y (L & _). lia. Qed.
Example jacobians_of_tree_case : exists y J,
  value_and_jacrevP mat_F (JOne (-2)) [mat_x; tsc 5] = Ok (y, J) /\ tdef J = TDef "dict" /\ List.length (leaves J) = 2%nat /\
  (exists a, nth_error (leaves J) 0 = Some a /\ shape a = [2; 2]%nat /\ entry a [0; 1]%nat = -10) /\
  (exists a, nth_error (leaves J) 1 = Some a /\ shape a = [2; 2; 2; 2]%nat /\ entry a [0; 1; 1; 0]%nat = 5).
Proof.
  destruct (jacobians_of_tree mat_F [mat_x; tsc 5] 0 (-2) mat_x (fun X => List.length X = 4%nat) (TDef "dict") (mat_us 5)) as (y & Ey & _ & J & E & T & H).
  - split; [cbn; lia|]. right. reflexivity.
  - reflexivity.
  - exact mat_open.
  - reflexivity.
  - exact (mat_computes 5).
  - exists y, J. split; [exact E|]. split; [exact T|]. inversion H as [|a u l m Pa F2 El]; subst.
    inversion F2 as [|b u' l' m' Pb F3]; subst. inversion F3; subst. cbn [List.length nth_error]. split; [reflexivity|]. split.
    + exists a. destruct Pa as (S & V). split; [reflexivity|]. split; [exact S|].
      etransitivity; [exact (V [] [0; 1]%nat 1%nat ltac:(repeat constructor) eq_refl)|]. unfold pd, flatten. cbn. apply is_derive_unique.
      auto_derive; [exact I|]. ring.
    + exists b. destruct Pb as (S & V). split; [reflexivity|]. split; [exact S|].
      etransitivity; [exact (V [0; 1]%nat [1; 0]%nat 2%nat ltac:(repeat constructor) eq_refl)|]. unfold pd, flatten. cbn. apply is_derive_unique.
      auto_derive; [exact I|]. ring.
Qed.
(** with respect to the number and the matrix, in this order *)
Example jacobians_of_tree_for_several_arguments_case : exists y J,
  value_and_jacrevP mat_F (JMany [1; 0]%Z) [mat_x; tsc 5] = Ok (y, J) /\ tdef J = TTuples (TDef "dict") 2 /\
  (exists a, nth_error (leaves J) 0 = Some a /\ shape a = [] /\ entry a [] = -2) /\
  (exists a, nth_error (leaves J) 1 = Some a /\ shape a = [2; 2]%nat /\ entry a [0; 1]%nat = -10).
Proof.
  set (us := fun k => match k with O => mat_us 5 | _ =>
     [([], fun (_ : list nat) X => nth 0 X 0 * (0 * 3 - 1 * 2)); ([2; 2]%nat, fun p X => nth 0 X 0 * entry mat_x (rev p))] end : list field).
  set (Dom := fun (k : nat) X => @List.length R X = match k with O => 4%nat | _ => 1%nat end).
  edestruct (jacobians_of_tree_for_several_arguments mat_F [mat_x; tsc 5] (TDef "dict") [1; 0]%Z [1; 0]%nat
    Dom (fun k => match k with O => mat_x | _ => tsc 5 end) us) as (_ & J & E & T & L & H).
  - repeat constructor; cbn; intuition congruence.
  - constructor; [|constructor; [|constructor]]; split; cbn; auto; lia.
  - reflexivity.
  - intros k [<-|[<-|[]]]; (split; [reflexivity|]).
    + split; [|split; [reflexivity|]].
      * intros x Hx. split; [exact Hx|]. exists 1. split; [lra|]. intros z (Lz & _). unfold Dom in *. lia.
      * intros t St _. eexists. split; [reflexivity|]. split; [reflexivity|]. cbn [leaves us]. unfold flatten. rewrite St.
        cbn [shape tsc indices map nth upd].
        constructor; [|constructor; [|constructor]]; (split; [reflexivity|]); cbn [fst snd]; intros p Hp.
        -- cbn. lra.
        -- reflexivity.
    + split; [exact mat_open|]. split; [reflexivity|]. exact (mat_computes 5).
  - eexists. exists J. split; [exact E|]. split; [exact T|]. split.
    + destruct (H 0%nat 0%nat 1%nat _ eq_refl eq_refl) as (a & Ea & S & V). exists a. split; [exact Ea|]. split; [exact S|].
      etransitivity; [exact (V [] [] 0%nat ltac:(repeat constructor) eq_refl)|]. unfold pd, flatten. cbn. apply is_derive_unique. auto_derive; [exact I|]. ring.
    + destruct (H 0%nat 1%nat 0%nat _ eq_refl eq_refl) as (a & Ea & S & V). exists a. split; [exact Ea|]. split; [exact S|].
      etransitivity; [exact (V [] [0; 1]%nat 1%nat ltac:(repeat constructor) eq_refl)|]. unfold pd, flatten. cbn. apply is_derive_unique. auto_derive; [exact I|]. ring.
Qed.
(** the list [x^2 y, (x, x y)] *)
Definition two_f : pyfunP := mkFP ["x"; "y"]%string
  (fun a _ => match a with
              | [x; y] => Ok (mkP (TDef "list") [tsc (entry x [] ^ 2 * entry y []);
                                                 mkT [2%nat] (fun p => match p with [0%nat] => entry x [] | _ => entry x [] * entry y [] end)])
              | _ => Err TypeError
              end).
Definition two_fields : list field :=
  [([], fun _ X => nth 0 X 0 ^ 2 * nth 1 X 0); ([2%nat], fun p X => match p with [0%nat] => nth 0 X 0 | _ => nth 0 X 0 * nth 1 X 0 end)].
Lemma two_computes : computes_scalars 2 (fun a => callP two_f a []) (TDef "list") two_fields.
Proof.
  intros [|x [|y [|z args]]] L F0; try discriminate L. eexists. split; [reflexivity|]. split; [reflexivity|].
  constructor; [|constructor; [|constructor]]; (split; [reflexivity|]); intros p Hp; reflexivity.
Qed.
Example derivative_of_tree_case : exists df d, derivativeP (WSeq [SStr "x"; SStr "y"]%string) ANone two_f = Ok df /\
  callP df [tsc 3; tsc 7] [] = Ok d /\ tdef d = TDef "list" /\
  (exists a, nth_error (leaves d) 0 = Some a /\ entry a [] = 6) /\
  (exists a, nth_error (leaves d) 1 = Some a /\ shape a = [2%nat] /\ entry a [0%nat] = 0 /\ entry a [1%nat] = 1).
Proof.
  change [SStr "x"; SStr "y"]%string with (map SStr ["x"; "y"]%string).
  rewrite (derivative_of_tree_by_names two_f ["x"; "y"]%string [0; 1]%nat).
  - destruct (derivative_of_tree_at_positions 2 two_f [] (TDef "list") two_fields [0; 1]%nat two_computes) as (df & E & _ & H).
    { repeat constructor. }
    destruct (H [tsc 3; tsc 7] eq_refl) as (d & Ed & T & FA); [repeat constructor|].
    exists df, d. split; [exact E|]. split; [exact Ed|]. split; [exact T|].
    cbn [map two_fields fst snd pds fold_left] in FA.
    inversion FA as [|a u l m Pa F2 El]; subst. inversion F2 as [|b u' l' m' Pb F3]; subst.
    destruct Pa as (_ & Va). destruct Pb as (Sb & Vb). cbn [nth_error]. split; [|].
    + exists a. split; [reflexivity|]. rewrite (Va []) by constructor. cbn [snd map entry tsc].
      unfold pd at 1. cbn [upd nth]. transitivity (Derive (fun t => 6 * t) 7).
      * apply Derive_ext. intros t. unfold pd. cbn [upd nth]. apply is_derive_unique. auto_derive; [exact I|]. ring.
      * apply is_derive_unique. auto_derive; [exact I|]. ring.
    + exists b. split; [reflexivity|]. split; [exact Sb|]. split.
      * rewrite (Vb [0%nat]) by repeat constructor. cbn [snd map entry tsc]. unfold pd at 1. cbn [upd nth].
        transitivity (Derive (fun _ => 1) 7); [|apply Derive_const]. apply Derive_ext. intros t. unfold pd. cbn [upd nth].
        apply is_derive_unique. auto_derive; [exact I|]. ring.
      * rewrite (Vb [1%nat]) by repeat constructor. cbn [snd map entry tsc]. unfold pd at 1. cbn [upd nth].
        transitivity (Derive (fun t => t) 7); [|apply Derive_id]. apply Derive_ext. intros t. unfold pd. cbn [upd nth].
        apply is_derive_unique. auto_derive; [exact I|]. ring.
  - repeat constructor; cbn; intuition discriminate.
  - repeat constructor.
Qed.
(** the product of components of two vectors, mixed derivative with negative numbers *)
Example derivative_of_tree_components_case : exists df d,
  derivativeP (WSeq [SInt 0; SInt (-1)]) (ASeq [Some 0; Some (-1)]%Z)
    (mkFP ["x"; "y"]%string (fun a _ => match a with
       | [x; y] => Ok (mkP (TDef "tuple") [tsc (entry x [0%nat] ^ 2 * entry y [2%nat]); x])
       | _ => Err TypeError end)) = Ok df /\
  callP df [tvec [3; 4]; tvec [5; 6; 7]] [] = Ok d /\ tdef d = TDef "tuple" /\
  exists a, nth_error (leaves d) 0 = Some a /\ entry a [] = 6.
Proof.
  set (f := mkFP _ _).
  destruct (derivative_of_tree_components [2; 3]%nat f [] (TDef "tuple")
    [([], fun (_ : list nat) X => nth 0 (nth 0 X []) 0 ^ 2 * nth 2 (nth 1 X []) 0); ([2%nat], fun p X => nth (hd 0%nat p) (nth 0 X []) 0)]
    [0; -1]%Z [0; -1]%Z [(0, 0); (1, 2)]%nat) as (df & E & _ & H).
  - intros [|x [|y [|z args]]] S; try discriminate S. injection S as Sx Sy. eexists. split; [reflexivity|]. split; [reflexivity|].
    cbn [leaves map nth]. constructor; [|constructor; [|constructor]]; cbn [fst snd].
    + split; [reflexivity|]. intros p Hp. cbn [entry tsc]. rewrite (tlist_nth x 2), (tlist_nth y 3) by (auto; lia). reflexivity.
    + split; [exact Sx|]. intros p Hp. inversion Hp as [|i ? q ? Hi Hq]; subst. inversion Hq; subst. cbn [hd].
      rewrite (tlist_nth x 2) by auto. reflexivity.
  - constructor; [|constructor; [|constructor]]; (split; [cbn; lia|]); [left|right]; reflexivity.
  - constructor; [|constructor; [|constructor]]; (split; [cbn; lia|]); [left|right]; reflexivity.
  - destruct (H [tvec [3; 4]; tvec [5; 6; 7]] eq_refl) as (d & Ed & T & FA). exists df, d. split; [exact E|]. split; [exact Ed|].
    split; [exact T|]. cbn [map fst snd fold_left] in FA. inversion FA as [|a u l m Pa F2 El]; subst. destruct Pa as (_ & Va).
    exists a. split; [reflexivity|]. rewrite (Va []) by constructor. cbn [snd].
    unfold pdL at 1. cbn [map tlist]. cbn [nth upd]. transitivity (Derive (fun t => 6 * t) 7).
    + apply Derive_ext. intros t. unfold pdL. cbn. apply is_derive_unique. auto_derive; [exact I|]. ring.
    + apply is_derive_unique. auto_derive; [exact I|]. ring.
Qed.
