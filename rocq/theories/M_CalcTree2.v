(** Model of /repo/magpi/calc.py: reverse-mode Jacobians and derivatives of functions with
    pytree results. *)
From Coq Require Import String.
From Coquelicot Require Import Coquelicot.
From Verif Require Import Base M_Tensor M_Calc M_Jac M_CalcTree.
Import ListNotations.
Open Scope R_scope.

(** jax.vjp: the cotangents [us] have the shapes [ss] of the leaves; the result is the
    gradient of the sum of the inner products over all leaves *)
Definition vjpP (F : tensor -> res ptree) (x : tensor) (ss : list (list nat)) (us : list tensor) : tensor :=
  mkT (shape x)
      (fun q => Derive (fun t =>
         sumR (map (fun i => let s := nth i ss [] in
                 sumR (map (fun k => let p := unravel s k in
                         entry (nth i us (tsc 0)) p *
                         entry_of (leaf_of F i (taxpy t x (tunit (shape x) q))) p)
                       (seq 0 (nprod s))))
               (seq 0 (List.length ss)))) 0).
(** jax's standard basis of a pytree: 1 in entry [p] of leaf [i] *)
Definition basisP (ss : list (list nat)) (i : nat) (p : list nat) : list tensor :=
  map2 (fun j s => if Nat.eqb j i then tunit s p else mkT s (fun _ => 0)) (seq 0 (List.length ss)) ss.
(** jax.jacrev: one vjp per element of the standard basis of the result *)
Definition jacrevP (F : tensor -> res ptree) (x : tensor) : res ptree :=
  y <- F x ;;
  let ss := map shape (leaves y) in
  by_leaf y (fun i => let s := nth i ss [] in
    Ok (mkT (s ++ shape x)
            (fun pq => entry (vjpP F x ss (basisP ss i (firstn (List.length s) pq))) (skipn (List.length s) pq)))).
(** with respect to one of several arguments *)
Definition jacrev_argP (F : list tensor -> res ptree) (args : list tensor) (k : Z) : res ptree :=
  match pyget args k with
  | Err _ => Err ValueError
  | Ok x => jacrevP (fun x => F (pyset args k x)) x
  end.
(** jax.tree_util.tree_transpose of a tuple of trees: every leaf becomes a tuple *)
Definition transposeP (td : treedef) (m : nat) (Js : list ptree) : ptree :=
  mkP (TTuples td (List.length Js))
      (List.concat (map (fun i => map (fun J => nth i (leaves J) (tsc 0)) Js) (seq 0 m))).
Definition jacrev_argsP (F : list tensor -> res ptree) (a : jac_nums) (args : list tensor) : res ptree :=
  match a with
  | JOne k => jacrev_argP F args k
  | JMany l =>
      y <- F args ;;
      Js <- sequence (map (jacrev_argP F args) l) ;;
      Ok (transposeP (tdef y) (List.length (leaves y)) Js)
  end.
(** calc.py:181-202 value_and_jacrev *)
Definition value_and_jacrevP (F : list tensor -> res ptree) (a : jac_nums) (args : list tensor) : res (ptree * ptree) :=
  J <- jacrev_argsP F a args ;; y <- F args ;; Ok (y, J).

(** ** derivative *)
Record pyfunP := mkFP { paramsP : list string; callP : list tensor -> kwargs -> res ptree }.
(** jax.jvp of a function of several arrays *)
Definition jvp_argsP (F : list tensor -> res ptree) (xs vs : list tensor) : res (ptree * ptree) :=
  if same_shapes xs vs then
    y <- F xs ;;
    d <- by_leaf y (fun i => tderive (fun t => leaf_of F i (map2 (taxpy t) xs vs))) ;;
    Ok (y, d)
  else Err TypeError.
(** calc.py:50-55 *)
Definition resolveP (f : pyfunP) (w : sel) : res sel :=
  match w with
  | SStr s => i <- index_of s (paramsP f) ;; Ok (SInt (Z.of_nat i))
  | _ => Ok w
  end.
(** calc.py:40-71 value_and_derivative *)
Definition value_and_derivativeP (f : pyfunP) (w : sel) (argnum : option Z)
  : res (list tensor -> kwargs -> res (ptree * ptree)) :=
  _ <- match argnum, w with
       | None, _ => Ok tt
       | Some _, SInt _ => Ok tt
       | Some _, _ => Err AssertionError
       end ;;
  w <- resolveP f w ;;
  Ok (fun args kw =>
        ei <- tangents w argnum args ;;
        jvp_argsP (fun a => callP f a kw) args ei).
(** calc.py:141-146 and :126-130 *)
Definition df_ofP (f : pyfunP) (w : sel) (argnum : option Z) : res pyfunP :=
  df <- value_and_derivativeP f w argnum ;;
  Ok (mkFP (paramsP f) (fun args kw => yd <- df args kw ;; Ok (snd yd))).
(** calc.py:115-130 [derivative(f, argnums)] *)
Definition derivative_funP (f : pyfunP) (a : argnums_arg) : res pyfunP :=
  match a with
  | ASeq _ => Err AssertionError
  | ANone => df_ofP f (SInt 0) None
  | AInt i => df_ofP f (SInt i) None
  end.
(** calc.py:148-153 *)
Fixpoint derive_allP (f : pyfunP) (l : list (sel * option Z)) : res pyfunP :=
  match l with
  | [] => Ok f
  | (w, a) :: l' => g <- df_ofP f w a ;; derive_allP g l'
  end.
(** calc.py:132-155 [derivative(wrt, argnums)(f)] *)
Definition derivativeP (w : wrt_arg) (a : argnums_arg) (f : pyfunP) : res pyfunP :=
  let ws := match w with WInt i => [SInt i] | WStr s => chars s | WSeq l => l end in
  let args := match a with
              | ANone => map (fun _ => None) ws
              | AInt i => map (fun _ => Some i) ws
              | ASeq l => l
              end in
  _ <- assert_ (Nat.eqb (List.length args) (List.length ws)) ;;
  derive_allP f (combine ws args).
