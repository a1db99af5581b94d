(** The distance function of a solid as the [adf] argument of model.py (definitions only). *)
From Verif Require Import Base M_Quat M_RFun M_Tensor.

(** model.py:167 and 229 call [adf] with the selected arguments of the model; a distance function
    built with r_fun.py takes one array (r_fun.py:24 ADF).  Batches are left out here: for an
    array that is not 1-d the model gives no result. *)
Definition on_arrays (f : adf) (xs : list tensor) : res tensor :=
  match xs with
  | [x] => match M_Tensor.shape x with
           | [_] => v <- f (A1 (tlist x)) ;; Ok (tsc v)
           | _ => Err TypeError
           end
  | _ => Err TypeError
  end.
