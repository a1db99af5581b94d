(** Model of the operators of /repo/magpi/calc.py for functions with pytree results
    ([Callable[..., PyTree]]): the treedef and the list of leaves, as jax flattens them. *)
From Coq Require Import String.
From Coquelicot Require Import Coquelicot.
From Verif Require Import Base M_Tensor M_Calc M_Jac.
Import ListNotations.
Open Scope R_scope.

(** a structure, or a structure whose leaves are tuples of length [k] *)
Inductive treedef := TDef (name : string) | TTuples (outer : treedef) (k : nat).
Record ptree := mkP { tdef : treedef; leaves : list tensor }.
(** jax.tree_util.tree_map *)
Definition tree_map (g : tensor -> res tensor) (t : ptree) : res ptree :=
  ls <- sequence (map g (leaves t)) ;; Ok (mkP (tdef t) ls).
(** the i-th leaf of the result of a function *)
Definition leaf_of {A} (F : A -> res ptree) (i : nat) (x : A) : res tensor :=
  y <- F x ;; match nth_error (leaves y) i with Some a => Ok a | None => Err TypeError end.
(** a tree with the structure of [y], computed leaf by leaf *)
Definition by_leaf (y : ptree) (g : nat -> res tensor) : res ptree :=
  ls <- sequence (map g (seq 0 (List.length (leaves y)))) ;; Ok (mkP (tdef y) ls).
(** jax.jvp for one primal, jax.jacfwd *)
Definition jvpP (F : tensor -> res ptree) (x v : tensor) : res (ptree * ptree) :=
  if same_shapes [x] [v] then
    y <- F x ;; d <- by_leaf y (fun i => tderive (fun t => leaf_of F i (taxpy t x v))) ;; Ok (y, d)
  else Err TypeError.
Definition jacfwdP (F : tensor -> res ptree) (x : tensor) : res ptree :=
  y <- F x ;; by_leaf y (fun i => jacfwd (leaf_of F i) x).
(** jax.jacfwd of a function of several arguments; a sequence of argument numbers gives
    a tuple in place of every leaf *)
Definition jacfwd_argsP (F : list tensor -> res ptree) (a : jac_nums) (args : list tensor) : res ptree :=
  y <- F args ;;
  match a with
  | JOne k => by_leaf y (fun i => jac_arg jacfwd (leaf_of F i) args k)
  | JMany l =>
      Js <- sequence (map (fun i => sequence (map (jac_arg jacfwd (leaf_of F i) args) l))
                          (seq 0 (List.length (leaves y)))) ;;
      Ok (mkP (TTuples (tdef y) (List.length l)) (List.concat Js))
  end.
(** calc.py:158-178 value_and_jacfwd *)
Definition value_and_jacfwdP (F : list tensor -> res ptree) (a : jac_nums) (args : list tensor) : res (ptree * ptree) :=
  J <- jacfwd_argsP F a args ;; y <- F args ;; Ok (y, J).
(** calc.py:383-405 value_and_divergence, calc.py:367-380 divergence *)
Definition value_and_divergenceP (F : list tensor -> res ptree) (a : jac_nums) (args : list tensor) : res (ptree * ptree) :=
  yJ <- value_and_jacfwdP F a args ;;
  d <- tree_map compute_div (snd yJ) ;;
  Ok (fst yJ, d).
Definition divergenceP (F : list tensor -> res ptree) (a : jac_nums) (args : list tensor) : res ptree :=
  yd <- value_and_divergenceP F a args ;; Ok (snd yd).
(** calc.py:205-208 hvp for one primal *)
Definition hvpP (F : tensor -> res ptree) (x v : tensor) : res ptree :=
  yd <- jvpP (jacfwdP F) x v ;; Ok (snd yd).
(** jax.vmap stacks the leaves of the results; [y] gives the structure and the shapes *)
Definition stackP (y : ptree) (rows : list ptree) : ptree :=
  mkP (tdef y) (map2 (fun i a => mkT (List.length rows :: shape a)
     (fun p => match nth_error rows (hd 0%nat p) with
               | Some r => match nth_error (leaves r) i with Some b => entry b (tl p) | None => 0 end
               | None => 0
               end)) (seq 0 (List.length (leaves y))) (leaves y)).
(** calc.py:330-346 hessian_diag; [comp] gives leaves of the shape of those of [F] *)
Definition hessian_diagP (F : tensor -> res ptree) (x : tensor) : res ptree :=
  match shape x with
  | [] => t <- hvpP F x (tsc 1) ;; tree_map (fun a => Ok (mkT (1%nat :: shape a) (fun p => entry a (tl p)))) t
  | _ =>
      let x := travel x in
      let n := nprod (shape x) in
      y <- F x ;;
      rows <- sequence (map (fun i => a <- hvpP F x (tunit [n] [i]) ;; tree_map (fun a => tmatvec a (tunit [n] [i])) a) (seq 0 n)) ;;
      Ok (stackP y rows)
  end.
(** calc.py:349-364 laplace *)
Definition laplaceP (F : tensor -> res ptree) (x : tensor) : res ptree :=
  d <- hessian_diagP F x ;;
  tree_map (fun d => Ok (mkT (tl (shape d)) (fun p => sumR (map (fun i => entry d (i :: p)) (seq 0 (hd 0%nat (shape d))))))) d.
(** calc.py:466-471 is_2d, is_3d: the test is evaluated for all leaves before [all] *)
Definition all_last (k : nat) (v : ptree) : res bool :=
  ns <- sequence (map (fun a => last_dim (shape a)) (leaves v)) ;; Ok (forallb (fun n => Nat.eqb n k) ns).
(** calc.py:428-446 curl3d; [_curl] on a Jacobian [J[..., a, b]] *)
Definition curl3_of (J : tensor) : tensor :=
  mkT (removelast (removelast (shape J)) ++ [3%nat])
    (fun p => let q := removelast p in
       match last p 0%nat with
       | O => entry J (q ++ [2; 1]%nat) - entry J (q ++ [1; 2]%nat)
       | S O => entry J (q ++ [0; 2]%nat) - entry J (q ++ [2; 0]%nat)
       | _ => entry J (q ++ [1; 0]%nat) - entry J (q ++ [0; 1]%nat)
       end).
Definition curl3dP (F : tensor -> res ptree) (x : tensor) : res ptree :=
  J <- jacfwdP F x ;; v <- F x ;;
  b <- all_last 3 v ;; _ <- assert_ b ;;
  tree_map (fun J => Ok (curl3_of J)) J.
(** calc.py:449-464 curl2d *)
Definition curl2dP (F : tensor -> res ptree) (x : tensor) : res ptree :=
  J <- jacfwdP F x ;; v <- F x ;;
  b <- all_last 2 v ;; _ <- assert_ b ;;
  tree_map (fun J => Ok (mkT (removelast (removelast (shape J)))
                             (fun q => entry J (q ++ [1; 0]%nat) - entry J (q ++ [0; 1]%nat)))) J.
(** calc.py:408-425 curl, for 1-d points *)
Definition curlP (F : tensor -> res ptree) (x : tensor) : res ptree :=
  match shape x with
  | [] => Err IndexError
  | n :: _ => if Nat.eqb n 2 then curl2dP F x else if Nat.eqb n 3 then curl3dP F x else Err ValueError
  end.
