(** Specification vocabulary for arrays of samples and for volumes. *)
From Coquelicot Require Import Coquelicot.
From Verif Require Import Base M_Tensor S_Model M_Batch.

(** sample p of an array of samples of dimension n, point p of an array of points of
    dimension d (non-finite if one of its coordinates is) *)
Definition sample (n : nat) (x : tensor) (p : list nat) : list R :=
  map (fun j => entry x (p ++ [j])) (seq 0 n).
Definition point (d : nat) (y : ntensor) (p : list nat) : res (list R) :=
  sequence (map (fun k => nentry y (p ++ [k])) (seq 0 d)).

(** The array function B maps arrays of n-dimensional samples, of any leading shape,
    to arrays of d-dimensional points, sample by sample by the map F. *)
Definition pointwise (n d : nat) (B : tensor -> res ntensor) (F : list R -> res (list R)) : Prop :=
  forall s x, shape x = s ++ [n] -> exists y, B x = Ok y /\ nshape y = s ++ [d] /\
    forall p, inside s p -> point d y p = F (sample n x p).
(** the 1-d result of a map of single samples *)
Definition flat (r : res arr) : res (list R) := a <- r ;; Ok (ravel a).

(** no axis has size 1 *)
Definition no_ones (s : list nat) : Prop := forall n, In n s -> n <> 1%nat.

(** the iterated integral over the box *)
Fixpoint volume_integral (l u : list R) (f : list R -> R) : R :=
  match l, u with
  | a :: l', b :: u' => RInt (fun x => volume_integral l' u' (fun p => f (x :: p))) a b
  | _, _ => f []
  end.
(** the area of the disk of radius r by its chords, the volume of the ball by its
    circular sections *)
Definition disk_area (r : R) : R := RInt (fun x => 2 * sqrt (r ^ 2 - x ^ 2)) (- r) r.
Definition ball_volume (r : R) : R := RInt (fun z => disk_area (sqrt (r ^ 2 - z ^ 2))) (- r) r.
