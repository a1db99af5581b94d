(** Specification vocabulary for calls with additional arguments. *)
From Coq Require Import String.
From Verif Require Import Base M_Integrate M_IntArgs.
Open Scope string_scope.

Definition names (kw : kwargs) : list string := map fst kw.
(** the keyword arguments with other names *)
Definition without (l : list string) (kw : kwargs) : kwargs :=
  filter (fun p => if in_dec string_dec (fst p) l then false else true) kw.
(** the value of the i-th optional parameter: given by position, by keyword, or the default *)
Definition bound (args : list pyval) (kw : kwargs) (i : nat) (name : string) (default v : pyval) : Prop :=
  match nth_error args i with
  | Some w => v = w /\ ~ In name (names kw)
  | None => In (name, v) kw \/ ~ In name (names kw) /\ v = default
  end.
Definition method_of (kw : kwargs) (q : quadrule) : Prop :=
  In ("method", Rule q) kw \/ ~ In "method" (names kw) /\ q = simpson.
(** no keyword argument has one of the names *)
Definition avoids (l : list string) (kw : kwargs) : Prop := forall n, In n l -> ~ In n (names kw).
