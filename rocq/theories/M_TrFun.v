(** Model of how TR of /repo/magpi/tr.py builds its objective from the user's function of
    a pytree of arrays.  A pytree is the list of its leaves, its structure is fixed; the
    solver of M_Tr.v keeps each leaf as the list of its entries. *)
From Coquelicot Require Import Coquelicot.
From Verif Require Import Base M_XR M_Tr M_Tensor M_Surface M_Calc M_HvpTree.
Import ListNotations.
Open Scope R_scope.

(** between lists of entries (C order) and arrays *)
Definition leaf_array (s : list nat) (l : list R) : tensor := treshape s (tvec l).
Definition leaf_list (a : tensor) : list R := tlist (travel a).
Definition arrays (sh : list (list nat)) (t : list (list R)) : list tensor := map2 leaf_array sh t.
Definition lists (x : list tensor) : list (list R) := map leaf_list x.
(** the entries of a pytree of floats, if all are numbers *)
Fixpoint numbers (l : list xr) : option (list R) :=
  match l with
  | [] => Some []
  | Fin a :: l => option_map (cons a) (numbers l)
  | _ :: _ => None
  end.
Fixpoint number_tree (t : xtree) : option (list (list R)) :=
  match t with
  | [] => Some []
  | l :: t => match numbers l with Some l => option_map (cons l) (number_tree t) | None => None end
  end.

(** utils.py:9-30 the third result of make_funs_with_aux, tr.py:226-229: value, aux and
    gradient for a function of the parameters *)
Definition value_and_grad_with_aux (f : list tensor -> res outL) (value_and_grad has_aux : bool) (x : list tensor)
  : res ((tensor * option nat) * list tensor) :=
  if value_and_grad then
    o <- f x ;;
    match o, has_aux with
    | LAuxGrad v a g, true => Ok ((v, Some a), g)
    | LGrad v g, false => Ok ((v, None), g)
    | _, _ => Err TypeError
    end
  else
    o <- f x ;;
    va <- match o, has_aux with
          | LAux v a, true => Ok (v, Some a)
          | LVal v, false => Ok (v, None)
          | _, _ => Err TypeError
          end ;;
    g <- jgradL (fun x => o <- f x ;; match o with LVal v | LAux v _ | LGrad v _ | LAuxGrad v _ _ => Ok v end) x ;;
    Ok (va, g).
(** the auxiliary value None as a number *)
Definition aux_code (a : option nat) : nat := match a with Some n => S n | None => 0%nat end.
(** the function handed to calc.value_grad_hvp *)
Definition with_aux_fun (f : list tensor -> res outL) (value_and_grad has_aux : bool) (ps : list (list tensor)) : res outL :=
  match ps with
  | [x] => r <- value_and_grad_with_aux f value_and_grad has_aux x ;;
           let '((v, a), g) := r in Ok (LAuxGrad v (aux_code a) g)
  | _ => Err TypeError
  end.
(** tr.py:126-129 value, gradient and Hessian vector products at the parameters *)
Definition tr_value_grad_hvp f value_and_grad has_aux x :=
  value_grad_hvpL (with_aux_fun f value_and_grad has_aux) x true true.

(** The objective of M_Tr.v.  Where the function fails (or an entry is not a number) the
    results are nan; the theorems are about functions that do not fail. *)
Definition nans (t : xtree) : xtree := xt_map1 (fun _ => NaN) t.
Definition tr_objective (f : list tensor -> res outL) (value_and_grad has_aux : bool) (sh : list (list nat))
  : M_Tr.objective (option nat) :=
  mkObj
    (fun p => match number_tree p with
       | Some t => match value_and_grad_with_aux f value_and_grad has_aux (arrays sh t) with
                   | Ok ((v, a), g) => (Fin (entry v []), a, map (map Fin) (lists g))
                   | Err _ => (NaN, None, nans p)
                   end
       | None => (NaN, None, nans p)
       end)
    (fun p d => match number_tree p, number_tree d with
       | Some t, Some w =>
           match (r <- tr_value_grad_hvp f value_and_grad has_aux (arrays sh t) ;;
                  let '(_, _, lin, _) := r in lin (arrays sh w)) with
           | Ok h => map (map Fin) (lists h)
           | Err _ => nans d
           end
       | _, _ => nans d
       end).
