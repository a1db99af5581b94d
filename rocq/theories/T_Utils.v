(** Property theorems for utils.py (C75, C81). *)
From Coquelicot Require Import Coquelicot.
From Verif Require Import Base S_Calc M_Opt S_Opt M_Utils S_Utils P_Utils.

(** ** C75 *)
Theorem make_funs_normalizes {K} (f : pyfun1 (K := K)) value_and_grad has_aux k
  (v : list R -> R) (a : list R -> pyval) (g : list R -> list R) p :
  (forall p, f p k = Ok (returned value_and_grad has_aux (v p) (a p) (g p))) ->
  let A := if has_aux then a p else VNone in
  let G := if value_and_grad then g p else gradient v p in
  let '(fun_, grad_fun, value_and_grad_fun) := make_funs_with_aux f value_and_grad has_aux in
  fun_ p k = Ok (VTup [VNum (v p); A]) /\
  grad_fun p k = Ok (VTup [VArr G; A]) /\
  value_and_grad_fun p k = Ok (VTup [VTup [VNum (v p); A]; VArr G]).
Proof. exact (funs_spec f value_and_grad has_aux k v a g p). Qed.
Print Assumptions make_funs_normalizes.

(** a user-supplied gradient and automatic differentiation are interchangeable *)
Theorem make_funs_agree {K} (f1 f2 f3 f4 : pyfun1 (K := K)) k (v : list R -> R) (a : list R -> pyval) p :
  (forall p, f1 p k = Ok (returned false true (v p) (a p) (gradient v p))) ->
  (forall p, f2 p k = Ok (returned true true (v p) (a p) (gradient v p))) ->
  (forall p, f3 p k = Ok (returned false false (v p) (a p) (gradient v p))) ->
  (forall p, f4 p k = Ok (returned true false (v p) (a p) (gradient v p))) ->
  (grad_fun f1 false true p k = grad_fun f2 true true p k /\
   value_and_grad_fun f1 false true p k = value_and_grad_fun f2 true true p k /\
   fun_ f1 false true p k = fun_ f2 true true p k) /\
  (grad_fun f3 false false p k = grad_fun f4 true false p k /\
   value_and_grad_fun f3 false false p k = value_and_grad_fun f4 true false p k /\
   fun_ f3 false false p k = fun_ f4 true false p k).
Proof. exact (funs_agree f1 f2 f3 f4 k v a p). Qed.
Print Assumptions make_funs_agree.

(** [has_aux=True] with an objective that returns a bare number *)
Theorem make_funs_missing_aux {K} (f : pyfun1 (K := K)) p k r : f p k = Ok (VNum r) ->
  value_and_grad_fun f false true p k = Err TypeError /\
  grad_fun f false true p k = Err TypeError /\
  fun_ f true true p k = Err TypeError.
Proof. exact (missing_aux f p k r). Qed.
Print Assumptions make_funs_missing_aux.

(** [value_and_grad=True] with an objective that does not return a pair; fun_ does not notice *)
Theorem make_funs_wrong_tuple {K} (f : pyfun1 (K := K)) p k l : f p k = Ok (VTup l) -> length l <> 2%nat ->
  grad_fun f true true p k = Err ValueError /\ grad_fun f true false p k = Err ValueError /\
  value_and_grad_fun f true false p k = Err ValueError /\
  (forall v m, l = v :: m -> fun_ f true true p k = Ok v /\ fun_ f true false p k = Ok (VTup [v; VNone])).
Proof. exact (wrong_tuple f p k l). Qed.
Print Assumptions make_funs_wrong_tuple.

(** the same for the inner pair (value, aux) *)
Theorem make_funs_wrong_aux {K} (f : pyfun1 (K := K)) p k l g : f p k = Ok (VTup [VTup l; g]) -> length l <> 2%nat ->
  grad_fun f true true p k = Err ValueError.
Proof. exact (wrong_aux f p k l g). Qed.
Print Assumptions make_funs_wrong_aux.

Example make_funs_wrong_tuple_case :
  grad_fun (fun p (k : R) => Ok (VTup [VNum 1; VArr [k]; VNone])) true false [3] 2 = Err ValueError.
Proof. apply (make_funs_wrong_tuple (fun p (k : R) => Ok (VTup [VNum 1; VArr [k]; VNone])) [3] 2 [VNum 1; VArr [2]; VNone]); [reflexivity|discriminate]. Qed.
Example make_funs_wrong_aux_case :
  grad_fun (fun p (k : R) => Ok (VTup [VTup [VNum 1]; VArr [k]])) true true [3] 2 = Err ValueError.
Proof. apply (make_funs_wrong_aux (fun p (k : R) => Ok (VTup [VTup [VNum 1]; VArr [k]])) [3] 2 [VNum 1] (VArr [2])); [reflexivity|discriminate]. Qed.

Example make_funs_case :
  grad_fun (fun p (k : R) => Ok (VTup [VTup [VNum (k * nth 0 p 0); VNum 7]; VArr [k]])) true true [3] 2
  = Ok (VTup [VArr [2]; VNum 7]).
Proof. reflexivity. Qed.
Example make_funs_ad_case :
  grad_fun (fun p (k : R) => Ok (VNum (k * nth 0 p 0))) false false [3] 2 = Ok (VTup [VArr [2]; VNone]).
Proof.
  pose proof (make_funs_normalizes (fun p (k : R) => Ok (VNum (k * nth 0 p 0))) false false 2
                (fun p => 2 * nth 0 p 0) (fun _ => VNone) (fun _ => []) [3] (fun _ => eq_refl)) as H.
  cbn beta iota zeta delta [make_funs_with_aux] in H. destruct H as (_ & H & _). rewrite H.
  assert (G : gradient (fun p => 2 * nth 0 p 0) [3] = [2]).
  { unfold gradient, pd. cbn. f_equal. apply is_derive_unique. auto_derive; auto; ring. }
  rewrite G. reflexivity.
Qed.

(** ** C81 *)
Theorem tree_dim_is_common_size {A} (t : ptree A) n : tree_dim t = Ok n <-> t <> [] /\ all_rows n t.
Proof. exact (tree_dim_spec t n). Qed.
Print Assumptions tree_dim_is_common_size.

Theorem tree_dim_agrees_with_axis_size {A} (t : ptree A) n : tree_dim t = Ok n <-> axis_size t = Ok n.
Proof. exact (tree_dim_axis_size t n). Qed.
Print Assumptions tree_dim_agrees_with_axis_size.

Theorem tree_dim_rejects {A} (t : ptree A) : (forall p, In p t -> exists l, p = Rows l) ->
  (forall n, ~ all_rows n t) \/ t = [] -> tree_dim t = Err AssertionError.
Proof. exact (tree_dim_mismatch t). Qed.
Print Assumptions tree_dim_rejects.

Theorem single_dtype (leaves : list (option nat)) :
  (tree_single_dtype leaves = Ok None <-> forall x, ~ In (Some x) leaves) /\
  (forall d, tree_single_dtype leaves = Ok (Some d) <->
     In (Some d) leaves /\ forall x, In (Some x) leaves -> x = d) /\
  (tree_single_dtype leaves = Err ValueError <->
     exists x y, In (Some x) leaves /\ In (Some y) leaves /\ x <> y).
Proof. exact (dtype_spec leaves). Qed.
Print Assumptions single_dtype.

Example tree_dim_case : tree_dim [Rows [1; 2]%nat; Rows [3; 4]%nat] = Ok 2%nat /\
  tree_dim [Rows [1; 2]%nat; Rows [3]%nat] = Err AssertionError /\
  tree_single_dtype [Some 1; None; Some 1]%nat = Ok (Some 1%nat) /\
  tree_single_dtype [Some 1; None; Some 2]%nat = Err ValueError.
Proof. repeat split; reflexivity. Qed.
