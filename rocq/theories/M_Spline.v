(** Model of magpi/spline.py (definitions only).  Inputs are finite reals; a batch of
    inputs of shape (..., channels) is the list of its rows. *)
From Verif Require Import Base M_Integrate.

(** [t[..., i]] with a traced index i (vmap over jnp.arange): out of range indices are
    clamped to the last element. *)
Definition node (t : list R) (i : nat) : R := nth (Nat.min i (length t - 1)) t 0.

(** spline.py:6-20 _base_fun.  jnp.where selects the first branch for a zero width, the
    quotient of the other branch is not used then. *)
Fixpoint base_fun (x : R) (k i : nat) (t : list R) : R :=
  match k with
  | O => if andb (Rleb (node t i) x) (Rltb x (node t (i + 1))) then 1 else 0
  | S k' =>
      let c1 := if Reqb (node t (i + k)) (node t i) then 0
                else (x - node t i) / (node t (i + k) - node t i) * base_fun x k' i t in
      let c2 := if Reqb (node t (i + k + 1)) (node t (i + 1)) then 0
                else (node t (i + k + 1) - x) / (node t (i + k + 1) - node t (i + 1)) * base_fun x k' (i + 1) t in
      c1 + c2
  end.

(** spline.py:23-41 basis for one input value and one grid.  arange of a negative number
    is empty; an empty grid cannot be indexed. *)
Definition spline_basis (x : R) (grid : list R) (degree : nat) : res (list R) :=
  match grid with
  | [] => Err TypeError
  | _ => let n := (length grid - degree - 1)%nat in
         Ok (map (fun i => base_fun x degree i grid) (seq 0 n))
  end.

(** jnp.sign *)
Definition signR (x : R) : R := if Rlt_dec 0 x then 1 else if Rlt_dec x 0 then -1 else 0.

(** spline.py:44-63 make_grid *)
Definition make_grid (start stop power : R) (num : nat) : res (list R) :=
  let t := linspace (-1) 1 num in
  t <- sequence (map (fun t => p <- fpow (Rabs t) power ;; Ok (signR t * p)) t) ;;
  let t := map (fun t => (t + 1) / 2) t in
  Ok (map (fun t => t * Rabs (start - stop) + start) t).

(** spline.py:104-111 the fields of SplineActivation; activation and coef_init are
    arguments of the call below. *)
Record spline_cfg := mkSpline {
  nodes : nat; node_min : R; node_max : R; degree : nat; grid_power : R; parameterize_grid : bool }.

(** spline.py:104-111 default field values *)
Definition default_spline : spline_cfg := mkSpline 14 (-3) 3 3 2 false.

(** spline.py:66-71 _grid_init: the same grid for every channel *)
Definition grid_init (c : spline_cfg) (channels : nat) : res (list (list R)) :=
  t <- make_grid (node_min c) (node_max c) (grid_power c) (nodes c) ;; Ok (repeat t channels).

(** nn.initializers.zeros_init (the default coef_init) *)
Definition zero_coefs (c : spline_cfg) (channels : nat) : list (list R) :=
  repeat (repeat 0 (nodes c - degree c - 1)) channels.

(** spline.py:132-133 for one row of the batch: basis * coefs summed over the last axis *)
Fixpoint row_call (activation : R -> R) (deg : nat) (xs : list R) (grids coefs : list (list R)) : res (list R) :=
  match xs, grids, coefs with
  | [], [], [] => Ok []
  | x :: xs', g :: gs', cs :: coefs' =>
      b <- spline_basis x g deg ;;
      let y := sumR (map2 Rmult b cs) in
      rest <- row_call activation deg xs' gs' coefs' ;; Ok (activation x + y :: rest)
  | _, _, _ => Err ValueError
  end.

(** spline.py:113-133 SplineActivation.__call__ with the parameter "coefs" and, if
    parameterize_grid is set, the variable "grid".  flax rejects parameters whose shape
    is not (channels, nodes - degree - 1). *)
Definition spline_call (c : spline_cfg) (activation : R -> R) (coefs grids x : list (list R)) : res (list (list R)) :=
  let channels := length (hd [] x) in
  if (nodes c <? degree c + 1)%nat then Err ValueError else
  if negb (forallb (fun r => Nat.eqb (length r) channels) x) then Err ValueError else
  if negb (andb (Nat.eqb (length coefs) channels) (forallb (fun r => Nat.eqb (length r) (nodes c - degree c - 1)) coefs))
  then Err ValueError else
  grids <- (if parameterize_grid c
            then (if forallb (fun r => Nat.eqb (length r) (nodes c)) grids then Ok grids else Err ValueError)
            else grid_init c channels) ;;
  sequence (map (fun xs => row_call activation (degree c) xs grids coefs) x).
