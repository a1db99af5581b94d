(** Model of /repo/magpi/sampling.py. *)
From Verif Require Import Base M_Key M_XR.

Section Sampling.
(** samples are pytrees of any kind *)
Context {A : Type}.
(** [sample_fn], [random.uniform] (a float in [0, 1)) and [pdf] *)
Variable sample_fn : key -> A.
Variable uniform : key -> R.
Variable pdf : A -> xr.
Variable m : R.

(** loop state: key, p, sample *)
Definition state : Type := key * R * A.

(** sampling.py:38-43 body (the same three lines precede the loop, :34-36) *)
Definition draw (k : key) : state :=
  let k' := KChild k 3 0 in
  let samplekey := KChild k 3 1 in
  let valkey := KChild k 3 2 in
  (k', uniform valkey, sample_fn samplekey).
Definition body (s : state) : state := let '(k, _, _) := s in draw k.

(** sampling.py:45-47 not_valid *)
Definition not_valid (s : state) : bool :=
  let '(_, p, x) := s in xgtb (Fin p) (xdiv (pdf x) (Fin m)).

(** lax.while_loop, at most [fuel] evaluations of the condition; None: still running *)
Fixpoint while_loop (fuel : nat) (s : state) : option state :=
  match fuel with
  | O => None
  | S fuel' => if not_valid s then while_loop fuel' (body s) else Some s
  end.

(** sampling.py:33-50 draw_sample *)
Definition draw_sample (fuel : nat) (k : key) : option A :=
  match while_loop fuel (draw k) with
  | Some (_, _, x) => Some x
  | None => None
  end.

(** all lanes must finish *)
Fixpoint all_some {B} (l : list (option B)) : option (list B) :=
  match l with
  | [] => Some []
  | Some b :: l' => match all_some l' with Some t => Some (b :: t) | None => None end
  | None :: _ => None
  end.

(** sampling.py:14-53 rejection_sampling.  Under vmap a lane that is done keeps
    its state while others continue, so lanes are independent. *)
Definition rejection_sampling (fuel : nat) (k : key) (n : nat) : option (list A) :=
  all_some (map (draw_sample fuel) (ksplit k n)).
End Sampling.
