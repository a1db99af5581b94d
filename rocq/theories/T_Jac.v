(** Property theorems for the Jacobians and for modules as operands (C95-C98). *)
From Coq Require Import String.
From Coquelicot Require Import Coquelicot.
From Verif Require Import Base BaseFacts P_Vec M_Tensor M_Calc M_Jac S_Calc S_Model S_Jac P_AD P_Calc P_Calc2 P_Jac P_Jac2.
Import ListNotations.
Open Scope R_scope.

(** ** C95 *)
Theorem jacfwd_is_jacobian F args k j y : pyidx (List.length args) k j -> F args = Ok y ->
  exists J, value_and_jacfwd_ F (JOne j) args = Ok (y, Jac J) /\ arg_jacobian (shape y) F args k J.
Proof. exact (value_and_jac_ok jacfwd F args k j y (or_introl eq_refl)). Qed.
Print Assumptions jacfwd_is_jacobian.

Theorem jacrev_is_jacobian F args k j y : pyidx (List.length args) k j -> F args = Ok y ->
  exists J, value_and_jacrev F (JOne j) args = Ok (y, Jac J) /\ arg_jacobian (shape y) F args k J.
Proof. exact (value_and_jac_ok jacrev F args k j y (or_intror eq_refl)). Qed.
Print Assumptions jacrev_is_jacobian.

Theorem jacfwd_of_several_arguments F args ks js y : NoDup ks ->
  Forall2 (fun j k => pyidx (List.length args) k j) js ks -> F args = Ok y ->
  exists Js, value_and_jacfwd_ F (JMany js) args = Ok (y, Jacs Js) /\
    Forall2 (fun k J => arg_jacobian (shape y) F args k J) ks Js.
Proof. exact (fun _ => value_and_jac_many jacfwd F args ks js y (or_introl eq_refl)). Qed.
Print Assumptions jacfwd_of_several_arguments.

Theorem jacrev_of_several_arguments F args ks js y : NoDup ks ->
  Forall2 (fun j k => pyidx (List.length args) k j) js ks -> F args = Ok y ->
  exists Js, value_and_jacrev F (JMany js) args = Ok (y, Jacs Js) /\
    Forall2 (fun k J => arg_jacobian (shape y) F args k J) ks Js.
Proof. exact (fun _ => value_and_jac_many jacrev F args ks js y (or_intror eq_refl)). Qed.
Print Assumptions jacrev_of_several_arguments.

(** auxiliary data is passed through, the Jacobian is that of the first component *)
Theorem jacobian_with_aux {A} (F : list tensor -> res (tensor * A)) (G : list tensor -> res tensor) args k j y aux :
  (forall l, G l = match F l with Ok (z, _) => Ok z | Err e => Err e end) ->
  pyidx (List.length args) k j -> F args = Ok (y, aux) ->
  (exists J, value_and_jacfwd_aux F (JOne j) args = Ok ((y, aux), Jac J) /\ arg_jacobian (shape y) G args k J) /\
  (exists J, value_and_jacrev_aux F (JOne j) args = Ok ((y, aux), Jac J) /\ arg_jacobian (shape y) G args k J).
Proof.
  exact (fun HG Hj Ey => conj (value_and_jac_aux_one jacfwd F G args k j y aux (or_introl eq_refl) HG Hj Ey)
                              (value_and_jac_aux_one jacrev F G args k j y aux (or_intror eq_refl) HG Hj Ey)).
Qed.
Print Assumptions jacobian_with_aux.

(** both modes give the same result for every function, argument and shape *)
Theorem jacobian_modes_agree F args j :
  match value_and_jacfwd_ F (JOne j) args, value_and_jacrev F (JOne j) args with
  | Ok (y, Jac a), Ok (y', Jac b) => y = y' /\ same_array b a
  | Err e, Err e' => e = e'
  | _, _ => False
  end.
Proof. exact (modes_agree F args j). Qed.
Print Assumptions jacobian_modes_agree.

Theorem jacobian_argnum_out_of_range F args j :
  (j < - Z.of_nat (List.length args) \/ Z.of_nat (List.length args) <= j)%Z ->
  value_and_jacfwd_ F (JOne j) args = Err ValueError /\ value_and_jacrev F (JOne j) args = Err ValueError.
Proof. exact (fun H => conj (value_and_jac_out jacfwd F args j H) (value_and_jac_out jacrev F args j H)). Qed.
Print Assumptions jacobian_argnum_out_of_range.

(** the determinant of a 2 x 2 matrix: the derivative in the entry (0, 1) is - x_10 *)
Definition det_F (l : list tensor) : res tensor :=
  match l with
  | [x] => Ok (tsc (entry x [0; 0]%nat * entry x [1; 1]%nat - entry x [0; 1]%nat * entry x [1; 0]%nat))
  | _ => Err TypeError
  end.
Definition det_x : tensor := mkT [2; 2]%nat (fun p => INR (2 * nth 0 p 0 + nth 1 p 0 + 1)%nat).
Example det_jacrev : exists J, value_and_jacrev det_F (JOne (-1)%Z) [det_x] = Ok (tsc (1 * 4 - 2 * 3), Jac J) /\
  shape J = [2; 2]%nat /\ entry J [0; 1]%nat = - 3.
Proof.
  destruct (jacrev_is_jacobian det_F [det_x] 0 (-1) (tsc (1 * 4 - 2 * 3))) as (J & E & H).
  - split; [cbn; lia|]. right. reflexivity.
  - cbn. do 2 f_equal. ring.
  - exists J. split; [exact E|].
    destruct (H det_x (fun x => List.length x = 4%nat)
      (fun _ x => nth 0 x 0 * nth 3 x 0 - nth 1 x 0 * nth 2 x 0)) as (S & V).
    + reflexivity.
    + exact (openset_all 4).
    + reflexivity.
    + intros t St _. eexists. split; [reflexivity|]. split; [reflexivity|]. intros p _.
      unfold flatten. cbn [shape det_x] in St. rewrite St. reflexivity.
    + split; [exact S|]. etransitivity; [apply (V [] [0; 1]%nat 1%nat); [constructor|reflexivity]|].
      unfold flatten. cbn [shape det_x indices seq flat_map map app]. unfold pd. cbn [nth upd entry det_x].
      apply is_derive_unique. auto_derive; [auto|]. cbn. ring.
Qed.

(** ** C96 *)
Theorem divergence_of_scalar_function n F f j k args x : nth_error args k = Some x -> pyidx (List.length args) k j ->
  shape x = [n] -> rep0 n (fun t => F (upd args k t)) f ->
  exists d, divergence F j args = Ok d /\ shape d = [] /\ entry d [] = total n (fun i => pd i f (tlist x)).
Proof. exact (divergence_scalar n F f j k args x). Qed.
Print Assumptions divergence_of_scalar_function.

Theorem divergence_of_other_dimension n m F f j k args x : nth_error args k = Some x -> pyidx (List.length args) k j ->
  shape x = [n] -> rep1 n m (fun t => F (upd args k t)) f ->
  exists d, divergence F j args = Ok d /\ shape d = [] /\
    entry d [] = total (Nat.min m n) (fun i => pd i (f i) (tlist x)).
Proof. exact (divergence_rect n m F f j k args x). Qed.
Print Assumptions divergence_of_other_dimension.

Theorem divergence_of_matrix_field n m l F f j k args x : nth_error args k = Some x -> pyidx (List.length args) k j ->
  shape x = [n] -> rep2 n m l (fun t => F (upd args k t)) f ->
  exists d, divergence F j args = Ok d /\ shape d = [m] /\
    forall r, (r < m)%nat -> entry d [r] = total (Nat.min l n) (fun i => pd i (f r i) (tlist x)).
Proof. exact (divergence_matrix n m l F f j k args x). Qed.
Print Assumptions divergence_of_matrix_field.

Theorem divergence_of_other_ranks F j k args x y : nth_error args k = Some x -> pyidx (List.length args) k j ->
  F args = Ok y -> (List.length (shape y) + List.length (shape x) = 0 \/
                    4 <= List.length (shape y) + List.length (shape x))%nat ->
  divergence F j args = Err ValueError.
Proof. exact (divergence_rank F j k args x y). Qed.
Print Assumptions divergence_of_other_ranks.

(** the rows (x, y) and (y, x): divergences 2 and 0 *)
Example matrix_field : exists d, divergence
    (unary (fun t => Ok (mkT [2; 2]%nat (fun p => match p with [i; j] => entry t [((i + j) mod 2)%nat] | _ => 0 end))))
    0 [tvec [5; 7]] = Ok d /\ entry d [0%nat] = 2 /\ entry d [1%nat] = 0.
Proof.
  destruct (divergence_of_matrix_field 2 2 2 (unary (fun t => Ok (mkT [2; 2]%nat (fun p => match p with [i; j] => entry t [((i + j) mod 2)%nat] | _ => 0 end))))
     (fun i j x => nth ((i + j) mod 2) x 0) 0 0 [tvec [5; 7]] (tvec [5; 7])) as (d & E & _ & V); try reflexivity.
  - split; [cbn; lia|]. left. reflexivity.
  - intros t St. eexists. split; [reflexivity|]. split; [reflexivity|]. intros i j Hi Hj. cbn [entry].
    rewrite (tlist_nth t 2) by (auto; apply Nat.mod_upper_bound; lia). reflexivity.
  - exists d. split; [exact E|]. rewrite !V by lia. unfold total, pd, tlist, tvec.
    cbn [Nat.min seq map shape List.length hd entry nth upd sumR fold_right Nat.add Nat.modulo Nat.divmod fst snd Nat.sub].
    rewrite !Derive_id, !Derive_const. split; ring.
Qed.

(** ** C97 *)
Theorem module_laplace n m p rest kw f x : (0 < n)%nat ->
  rep0 n (fun x => mapply m p (x :: rest) kw) f -> shape x = [n] ->
  exists y, op_laplace (OpMod m) (x :: p :: rest) kw = Ok y /\ shape y = [] /\ entry y [] = lap_ n f (tlist x).
Proof. exact (laplace_rep0 n (fun x => mapply m p (x :: rest) kw) f x). Qed.
Print Assumptions module_laplace.

Theorem module_divergence n m p rest kw f x : rep1 n n (fun x => mapply m p (x :: rest) kw) f -> shape x = [n] ->
  exists d, op_divergence (OpMod m) 0 (x :: p :: rest) kw = Ok d /\ shape d = [] /\ entry d [] = div_ n f (tlist x).
Proof. exact (module_div n m p rest kw f x). Qed.
Print Assumptions module_divergence.

Theorem module_curl_in_3d m p rest f x : rep1 3 3 (fun x => mapply m p (x :: rest) []) f -> shape x = [3%nat] ->
  exists c, op_curl (OpMod m) (x :: p :: rest) = Ok c /\ shape c = [3%nat] /\
    forall i, (i < 3)%nat -> entry c [i] = curl3_ f i (tlist x).
Proof. exact (fun H => curl_rep3 (fun x => mapply m p (x :: rest) []) f H x). Qed.
Print Assumptions module_curl_in_3d.

Theorem module_curl_in_2d m p rest f x : rep1 2 2 (fun x => mapply m p (x :: rest) []) f -> shape x = [2%nat] ->
  exists c, op_curl (OpMod m) (x :: p :: rest) = Ok c /\ shape c = [] /\ entry c [] = curl2_ f (tlist x).
Proof. exact (fun H => curl_rep2 (fun x => mapply m p (x :: rest) []) f H x). Qed.
Print Assumptions module_curl_in_2d.

(** components of the inputs (argument 0) and of the variables (argument 1) *)
Theorem module_derivative_of_components ns m kw g ks js jis : repL ns (applied m kw) g -> ks <> [] ->
  Forall2 (fun k ji => pyidx (nth (fst ji) ns 0%nat) (snd ji) k) ks jis ->
  Forall2 (fun a ji => pyidx (List.length ns) (fst ji) a) js jis ->
  exists df, op_derivative (WSeq (map SInt ks)) (ASeq (map Some js)) (OpMod m) = Ok (OpFun df) /\
    repL ns (fun l => call df l kw) (fold_left (fun h ji => pdL ji h) jis g).
Proof. exact (module_components ns m kw g ks js jis). Qed.
Print Assumptions module_derivative_of_components.

Theorem module_derivative_of_positions n m kw g l : repA n (applied m kw) g -> l <> [] ->
  Forall (fun i => (i < n)%nat) l ->
  exists df, op_derivative (WSeq (map (fun i => SInt (Z.of_nat i)) l)) ANone (OpMod m) = Ok (OpFun df) /\
    repA n (fun a => call df a kw) (pds l g).
Proof. exact (module_positions n m kw g l). Qed.
Print Assumptions module_derivative_of_positions.

Theorem module_derivative n m kw g i : repA n (applied m kw) g -> (i < n)%nat ->
  exists df, op_derivative_fun (OpMod m) (AInt (Z.of_nat i)) = Ok df /\
    repA n (fun a => call df a kw) (pd i g).
Proof. exact (module_derivative_int n m kw g i). Qed.
Print Assumptions module_derivative.

(** x |-> p x^2 as a module: the Laplacian in x is 2 p *)
Definition sq_module : module := mkM ["x"]%string
  (fun p args _ => match args with [x] => Ok (tsc (entry p [] * entry x [] ^ 2)) | _ => Err TypeError end).
Definition sq_module1 : module := mkM ["x"]%string
  (fun p args _ => match args with [x] => Ok (tsc (entry p [] * entry x [0%nat] ^ 2)) | _ => Err TypeError end).
Example sq_laplace : exists y, op_laplace (OpMod sq_module1) [tvec [5]; tsc 3] [] = Ok y /\ entry y [] = 6.
Proof.
  destruct (module_laplace 1 sq_module1 (tsc 3) [] [] (fun x => 3 * nth 0 x 0 ^ 2) (tvec [5])) as (y & E & _ & V); auto.
  - intros t St. eexists. split; [reflexivity|]. split; [reflexivity|]. rewrite (tlist_nth t 1) by (auto; lia). reflexivity.
  - exists y. split; [exact E|]. rewrite V. unfold lap_, total, tlist, tvec, pd.
    cbn [seq map shape List.length hd entry nth upd sumR fold_right].
    rewrite (Derive_ext _ (fun t => 6 * t)).
    + rewrite (is_derive_unique _ _ 6); [ring|]. auto_derive; [auto|ring].
    + intros t. apply is_derive_unique. auto_derive; [auto|ring].
Qed.
Lemma sq_rep : repA 2 (applied sq_module []) (fun v => nth 1 v 0 * nth 0 v 0 ^ 2).
Proof. intros [|a [|b [|c l]]] L F; try discriminate. eexists. split; [reflexivity|]. split; reflexivity. Qed.
(** mixed derivative 2 x at x = 5, p = 3 *)
Example sq_mixed : exists df y, op_derivative (WSeq [SInt 0; SInt 1]) ANone (OpMod sq_module) = Ok (OpFun df) /\
  call df [tsc 5; tsc 3] [] = Ok y /\ entry y [] = 10.
Proof.
  destruct (module_derivative_of_positions 2 sq_module [] _ [0; 1]%nat sq_rep) as (df & E & H); [discriminate|repeat constructor|].
  destruct (H [tsc 5; tsc 3] eq_refl) as (y & Ey & _ & V); [repeat constructor|].
  exists df, y. split; [exact E|]. split; [exact Ey|]. rewrite V. cbn [pds fold_left map entry tsc]. unfold pd.
  cbn [upd nth]. rewrite (Derive_ext _ (fun t => 10 * t)).
  - apply is_derive_unique. auto_derive; [auto|ring].
  - intros t. apply is_derive_unique. auto_derive; [auto|ring].
Qed.

(** ** C98 *)
(** Full statement: for a module called with x the names "x" and "p" select the
    inputs and the variables in every position of the list.  Refuted below; what
    holds: the first name is looked up among x, p, args, kwargs and the following
    ones among the parameters of the module's own __call__. *)
Theorem module_names_partial m s ss i is :
  NoDup (mparams m) -> nth_error ["x"; "p"; "args"; "kwargs"]%string i = Some s ->
  Forall2 (fun s i => nth_error (mparams m) i = Some s) ss is ->
  op_derivative (WSeq (map SStr (s :: ss))) ANone (OpMod m)
  = op_derivative (WSeq (map (fun i => SInt (Z.of_nat i)) (i :: is))) ANone (OpMod m).
Proof. exact (module_names m s ss i is). Qed.
Print Assumptions module_names_partial.

Theorem module_unknown_names_partial m s t ss :
  (~ In s ["x"; "p"; "args"; "kwargs"]%string ->
   op_derivative (WSeq (map SStr (s :: ss))) ANone (OpMod m) = Err AssertionError) /\
  (In s ["x"; "p"; "args"; "kwargs"]%string -> ~ In t (mparams m) ->
   op_derivative (WSeq (map SStr (s :: t :: ss))) ANone (OpMod m) = Err AssertionError).
Proof. exact (module_unknown m s t ss). Qed.
Print Assumptions module_unknown_names_partial.

Definition module_names_select : Prop := forall m g ss is,
  hd_error (mparams m) = Some "x"%string -> repA 2 (applied m []) g ->
  Forall2 (fun s i => s = "x"%string /\ i = 0%nat \/ s = "p"%string /\ i = 1%nat) ss is -> ss <> [] ->
  exists df, op_derivative (WSeq (map SStr ss)) ANone (OpMod m) = Ok (OpFun df) /\
    repA 2 (fun a => call df a []) (pds is g).
Theorem module_names_refuted :
  ~ module_names_select /\
  (* x, p raises although p, x works *)
  op_derivative (WSeq (map SStr ["x"; "p"]%string)) ANone (OpMod sq_module) = Err AssertionError /\
  (exists df y, op_derivative (WSeq (map SStr ["p"; "x"]%string)) ANone (OpMod sq_module) = Ok (OpFun df) /\
     call df [tsc 5; tsc 3] [] = Ok y /\ entry y [] = 10) /\
  (* __call__(self, x, train): the second name "train" selects the variables *)
  (forall m, mparams m = ["x"; "train"]%string ->
     op_derivative (WSeq (map SStr ["x"; "train"]%string)) ANone (OpMod m)
     = op_derivative (WSeq [SInt 0; SInt 1]) ANone (OpMod m)).
Proof.
  assert (E : op_derivative (WSeq (map SStr ["x"; "p"]%string)) ANone (OpMod sq_module) = Err AssertionError) by reflexivity.
  split; [|split; [exact E|split]].
  - intros H. destruct (H sq_module _ ["x"; "p"]%string [0; 1]%nat eq_refl sq_rep) as (df & E' & _); [|discriminate|congruence].
    constructor; [left; auto|]. constructor; [right; auto|constructor].
  - rewrite (module_names_partial sq_module "p" ["x"]%string 1 [0%nat]); [|repeat constructor; cbn; intuition|reflexivity|repeat constructor].
    destruct (module_derivative_of_positions 2 sq_module [] _ [1; 0]%nat sq_rep) as (df & E' & H); [discriminate|repeat constructor|].
    destruct (H [tsc 5; tsc 3] eq_refl) as (y & Ey & _ & V); [repeat constructor|].
    exists df, y. split; [exact E'|]. split; [exact Ey|]. rewrite V. cbn [pds fold_left map entry tsc]. unfold pd.
    cbn [upd nth]. rewrite (Derive_ext _ (fun t => t ^ 2)).
    + apply is_derive_unique. auto_derive; [auto|ring].
    + intros t. apply is_derive_unique. auto_derive; [auto|ring].
  - intros m Hm. apply (module_names_partial m "x" ["train"]%string 0 [1%nat]); rewrite ?Hm.
    + repeat constructor; cbn; intuition discriminate.
    + reflexivity.
    + repeat constructor.
Qed.
Print Assumptions module_names_refuted.

(** ** C69: a point with several axes is raveled; the function gets a 1-d point *)
Theorem laplace_of_array_point n F f x : (0 < n)%nat -> rep0 n F f -> shape x <> [] -> List.length (indices (shape x)) = n ->
  exists y, laplace F x = Ok y /\ shape y = [] /\ entry y [] = lap_ n f (flatten x).
Proof. exact (laplace_of_array_lemma n F f x). Qed.
Print Assumptions laplace_of_array_point.
Example laplace_of_array_point_case : exists x y, shape x = [2; 1]%nat /\
  laplace (fun t => match shape t with [2%nat] => Ok (tsc (entry t [0%nat] ^ 2 + entry t [1%nat] ^ 3)) | _ => Err TypeError end) x = Ok y /\ entry y [] = 32.
Proof.
  exists (mkT [2; 1]%nat (fun p => match p with [0%nat; _] => 1 | _ => 5 end)).
  destruct (laplace_of_array_point 2 (fun t => match shape t with [2%nat] => Ok (tsc (entry t [0%nat] ^ 2 + entry t [1%nat] ^ 3)) | _ => Err TypeError end)
    (fun x => nth 0 x 0 ^ 2 + nth 1 x 0 ^ 3) (mkT [2; 1]%nat (fun p => match p with [0%nat; _] => 1 | _ => 5 end))) as (y & E & _ & V); auto.
  { intros t Ht. rewrite Ht. eexists. split; [reflexivity|]. split; [reflexivity|].
    rewrite !(tlist_nth t 2) by (auto; lia). reflexivity. }
  { discriminate. }
  exists y. split; [reflexivity|]. split; [exact E|]. rewrite V. unfold lap_, total, pd, flatten. cbn [shape indices seq map flat_map app entry nth upd sumR fold_right].
  rewrite (Derive_ext _ (fun t => 2 * t)) by (intros; apply is_derive_unique; auto_derive; auto; ring).
  rewrite (Derive_ext (fun t => Derive _ t) (fun t => 3 * t ^ 2)) by (intros; apply is_derive_unique; auto_derive; auto; ring).
  replace (Derive (fun t : R => 2 * t) 1) with 2 by (symmetry; apply is_derive_unique; auto_derive; auto; ring).
  replace (Derive (fun t : R => 3 * t ^ 2) 5) with 30 by (symmetry; apply is_derive_unique; auto_derive; auto; ring).
  lra.
Qed.
