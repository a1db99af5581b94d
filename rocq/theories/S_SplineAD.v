(** Specification vocabulary for derivatives of the spline basis. *)
From Verif Require Import Base.

(** derivative from the right *)
Definition right_derive (f : R -> R) (x d : R) : Prop :=
  forall eps, 0 < eps -> exists delta, 0 < delta /\
  forall h, 0 < h < delta -> Rabs ((f (x + h) - f x) / h - d) < eps.

(** i-th entry of the result of a call *)
Definition ith (i : nat) (r : res (list R)) : R := match r with Ok b => nth i b 0 | Err _ => 0 end.

(** t + s dt *)
Definition moved (t dt : list R) (s : R) : list R := map (fun p => fst p + s * snd p) (combine t dt).

(** no two nodes at most k places apart coincide *)
Definition separated (t : list R) (k : nat) : Prop :=
  forall a b, (a < b <= a + k)%nat -> (b < length t)%nat -> nth a t 0 <> nth b t 0.
