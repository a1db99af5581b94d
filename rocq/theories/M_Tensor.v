(** n-dimensional arrays as a shape and an entry function, numpy broadcasting and
    forward-mode differentiation of array functions (definitions only).
    Entries at indices outside the shape are never observed. *)
From Coquelicot Require Import Coquelicot.
From Verif Require Import Base.
Import ListNotations.

Record tensor := mkT { shape : list nat; entry : list nat -> R }.

Definition tsc (r : R) : tensor := mkT [] (fun _ => r).
Definition tvec (l : list R) : tensor := mkT [length l] (fun p => nth (hd 0%nat p) l 0).
(** the entries of a 1-d array *)
Definition tlist (a : tensor) : list R :=
  map (fun i => entry a [i]) (seq 0 (hd 0%nat (shape a))).

Definition tmap (f : R -> R) (a : tensor) : tensor := mkT (shape a) (fun p => f (entry a p)).
Definition tones (a : tensor) : tensor := mkT (shape a) (fun _ => 1).
Definition tzeros (a : tensor) : tensor := mkT (shape a) (fun _ => 0).

Fixpoint list_eqb (l m : list nat) : bool :=
  match l, m with
  | [], [] => true
  | a :: l', b :: m' => andb (Nat.eqb a b) (list_eqb l' m')
  | _, _ => false
  end.

(** ** Broadcasting *)
(** shapes are aligned at the last axis; sizes must agree or be 1 *)
Definition bdim (a b : nat) : res nat :=
  if Nat.eqb a b then Ok a else if Nat.eqb a 1 then Ok b else if Nat.eqb b 1 then Ok a
  else Err TypeError.
Fixpoint bshape_rev (s t : list nat) : res (list nat) :=
  match s, t with
  | [], _ => Ok t
  | _, [] => Ok s
  | a :: s', b :: t' => d <- bdim a b ;; r <- bshape_rev s' t' ;; Ok (d :: r)
  end.
Definition bshape (s t : list nat) : res (list nat) :=
  r <- bshape_rev (rev s) (rev t) ;; Ok (rev r).
(** the index into an operand of shape [s] (both reversed) *)
Fixpoint bidx_rev (s p : list nat) : list nat :=
  match s, p with
  | a :: s', i :: p' => (if Nat.eqb a 1 then 0%nat else i) :: bidx_rev s' p'
  | _, _ => []
  end.
Definition bidx (s p : list nat) : list nat := rev (bidx_rev (rev s) (rev p)).
Definition tbop (f : R -> R -> R) (a b : tensor) : res tensor :=
  s <- bshape (shape a) (shape b) ;;
  Ok (mkT s (fun p => f (entry a (bidx (shape a) p)) (entry b (bidx (shape b) p)))).

(** ** Python sequences *)
(** [l[i]] with negative indices *)
Definition pyget {A} (l : list A) (i : Z) : res A :=
  let j := if Z.ltb i 0 then (i + Z.of_nat (length l))%Z else i in
  if Z.ltb j 0 then Err IndexError
  else match nth_error l (Z.to_nat j) with Some a => Ok a | None => Err IndexError end.

(** ** Differentiation *)
(** [a + t * v] *)
Definition taxpy (t : R) (a v : tensor) : tensor := mkT (shape a) (fun p => entry a p + t * entry v p).
Definition entry_of (r : res tensor) (p : list nat) : R :=
  match r with Ok a => entry a p | Err _ => 0 end.
(** derivative at 0 of a curve of arrays, entry by entry *)
Definition tderive (c : R -> res tensor) : res tensor :=
  y <- c 0 ;; Ok (mkT (shape y) (fun p => Derive (fun t => entry_of (c t) p) 0)).
(** jax.jvp: primals and tangents must have the same structure and shapes *)
Definition same_shapes (xs vs : list tensor) : bool :=
  andb (Nat.eqb (length xs) (length vs))
       (forallb (fun b => b) (map2 (fun x v => list_eqb (shape x) (shape v)) xs vs)).
Definition jvp (f : list tensor -> res tensor) (xs vs : list tensor) : res (tensor * tensor) :=
  if same_shapes xs vs then
    y <- f xs ;;
    dy <- tderive (fun t => f (map2 (taxpy t) xs vs)) ;;
    Ok (y, dy)
  else Err TypeError.
(** the unit array for index [q] *)
Definition tunit (s q : list nat) : tensor := mkT s (fun p => if list_eqb p q then 1 else 0).
(** jax.jacfwd of a function of one array: one jvp per unit array, input axes last *)
Definition jacfwd (f : tensor -> res tensor) (x : tensor) : res tensor :=
  y <- f x ;;
  let k := length (shape y) in
  Ok (mkT (shape y ++ shape x)
          (fun pq => Derive (fun t => entry_of (f (taxpy t x (tunit (shape x) (skipn k pq)))) (firstn k pq)) 0)).
