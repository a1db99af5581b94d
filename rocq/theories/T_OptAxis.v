(** Property theorems for axis_size with any axis (C81). *)
From Coquelicot Require Import Coquelicot.
From Verif Require Import Base M_Tensor M_Opt M_OptAxis S_Calc P_OptAxis.
Import ListNotations.
Local Open Scope nat_scope.

(** the size of the axis, counted from the end if it is negative *)
Theorem axis_size_of_any_axis shapes axis n :
  axis_size_at shapes axis = Ok n <->
  shapes <> [] /\ forall s, In s shapes -> exists k, pyidx (length s) k axis /\ nth_error s k = Some n.
Proof. exact (axis_size_at_ok shapes axis n). Qed.
Print Assumptions axis_size_of_any_axis.

(** AssertionError: every leaf has the axis, but two sizes differ; IndexError: no leaf, or
    a leaf without the axis *)
Theorem axis_size_errors shapes axis e :
  axis_size_at shapes axis = Err e <->
  (e = AssertionError /\ (forall s, In s shapes -> exists k n, pyidx (length s) k axis /\ nth_error s k = Some n) /\
     exists s t k l a b, In s shapes /\ In t shapes /\ pyidx (length s) k axis /\ pyidx (length t) l axis /\
       nth_error s k = Some a /\ nth_error t l = Some b /\ a <> b) \/
  (e = IndexError /\ (shapes = [] \/ exists s, In s shapes /\ forall k, ~ pyidx (length s) k axis)).
Proof. exact (axis_size_at_err shapes axis e). Qed.
Print Assumptions axis_size_errors.

(** axis 0 is the function of M_Opt *)
Theorem axis_size_axis_0 A (t : ptree A) (rest : leaf A -> list nat) :
  axis_size_at (map (fun p => match p with Scalar _ => [] | Rows l => length l :: rest p end) t) 0 = axis_size t.
Proof. exact (axis_size_at_0 t rest). Qed.
Print Assumptions axis_size_axis_0.

Example axis_size_case : axis_size_at [[3; 5]; [4; 7; 5]] (-1) = Ok 5%nat /\
  axis_size_at [[3; 5]; [4; 7; 5]] 1 = Err AssertionError /\ axis_size_at [[3; 5]; [5]] 1 = Err IndexError.
Proof. repeat split. Qed.
