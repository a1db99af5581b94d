(** Specification of boxes and balls for rounded ADFs. *)
From Verif Require Import Base.

(** the corners of the box of the given edge lengths *)
Definition lower (centered : bool) (e : list R) : list R := if centered then map (fun l => - l / 2) e else map (fun _ => 0) e.
Definition upper (centered : bool) (e : list R) : list R := if centered then map (fun l => l / 2) e else e.
(** squared distance from the origin *)
Definition dist2 (x : list R) : R := sumR (map (fun a => a ^ 2) x).
