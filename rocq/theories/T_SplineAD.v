(** Properties of derivatives of the spline basis. *)
From Coquelicot Require Import Coquelicot.
From Verif Require Import Base M_Spline S_Spline P_Spline2 P_Spline3 M_SplineAD S_SplineAD P_SplineAD1 P_SplineAD2.

(** ** C133 *)
(** n nested derivatives with respect to the input are defined for every grid; without
    derivatives it is the basis itself. *)
Theorem spline_derivatives_defined : forall n x t k, t <> [] ->
  basis_deriv 0 x t k = spline_basis x t k /\
  exists b, basis_deriv n x t k = Ok b /\ length b = (length t - k - 1)%nat.
Proof. exact (fun n x t k H => conj (basis_deriv_0 x t k) (basis_deriv_defined n x t k H)). Qed.
Print Assumptions spline_derivatives_defined.
(** Every further derivative is the derivative from the right of the one before, at every
    input, nodes included, for every grid (sorted or not, with or without repeated nodes). *)
Theorem spline_derivatives_from_right : forall n t k i x, (i + k + 1 < length t)%nat ->
  right_derive (fun y => ith i (basis_deriv n y t k)) x (ith i (basis_deriv (S n) x t k)).
Proof. exact basis_deriv_right. Qed.
Print Assumptions spline_derivatives_from_right.
(** On strictly increasing nodes, up to order degree - 1, it is the derivative. *)
Theorem spline_derivatives_exact : forall t n k i x, strictly_sorted t -> (n + 2 <= k)%nat -> (i + k + 1 < length t)%nat ->
  is_derive (fun y => ith i (basis_deriv n y t k)) x (ith i (basis_deriv (S n) x t k)).
Proof. exact basis_deriv_derive. Qed.
Print Assumptions spline_derivatives_exact.
(** Derivatives of order above the degree vanish. *)
Theorem spline_derivatives_above_degree : forall n x t k b, basis_deriv n x t k = Ok b -> (k < n)%nat -> b = repeat 0 (length t - k - 1).
Proof. exact basis_deriv_high. Qed.
Print Assumptions spline_derivatives_above_degree.
(** A kink: at the middle node of a hat function the slope to the right is returned. *)
Example hat_kink : ith 0 (basis_deriv 1 1 [0; 1; 3] 1) = - / 2.
Proof.
  unfold basis_deriv, basis_num. simpl. unfold gnode. simpl. unfold Rleb, Rltb, Reqb.
  repeat (match goal with |- context [Rle_dec ?a ?b] => destruct (Rle_dec a b) | |- context [Rlt_dec ?a ?b] => destruct (Rlt_dec a b) | |- context [Req_EM_T ?a ?b] => destruct (Req_EM_T a b) end; try (exfalso; lra)); simpl; field.
Qed.
Example derivatives_example : strictly_sorted [0; 1; 3; 4; 5] /\ (1 + 2 <= 3)%nat /\ (0 + 3 + 1 < length [0; 1; 3; 4; 5])%nat.
Proof.
  split; [|simpl; lia]. intros i j [H1 H2]. do 5 (destruct i as [|i]; [do 5 (destruct j as [|j]; [simpl; (lra || lia)|]); simpl in H2; lia|]). simpl in H2. lia.
Qed.

(** The forward derivative in a direction (dx, dt) of input and grid: the values are those
    of the basis; at inputs that are not nodes, with no repeated nodes, the tangents are the
    directional derivatives. *)
Theorem spline_directional_derivative : forall x dx t dt k, t <> [] -> length dt = length t ->
  exists b, basis_jvp x dx t dt k = Ok b /\ spline_basis x t k = Ok (map fst b) /\
  (separated t k -> ~ In x t -> forall i, (i + k + 1 < length t)%nat ->
   is_derive (fun s => ith i (spline_basis (x + s * dx) (moved t dt s) k)) 0 (snd (nth i b (0, 0)))).
Proof. exact basis_jvp_spec. Qed.
Print Assumptions spline_directional_derivative.

(** Reverse mode without repeated nodes: all cotangents are finite, and they are the
    transpose of the forward derivative. *)
Theorem spline_reverse_transpose : forall x t k cts, t <> [] -> length cts = (length t - k - 1)%nat -> separated t k ->
  exists c gx gt, basis_vjp x t k cts = Ok c /\ fst c = Ok gx /\ length gt = length t /\
  (forall j, (j < length t)%nat -> snd c j = Ok (nth j gt 0)) /\
  forall dx dt b, length dt = length t -> basis_jvp x dx t dt k = Ok b ->
    gx * dx + sumR (map2 Rmult gt dt) = sumR (map2 Rmult cts (map snd b)).
Proof. exact basis_vjp_spec. Qed.
Print Assumptions spline_reverse_transpose.
Theorem spline_reverse_input : forall x t k cts d, t <> [] -> length cts = (length t - k - 1)%nat -> separated t k ->
  basis_deriv 1 x t k = Ok d ->
  exists c, basis_vjp x t k cts = Ok c /\ fst c = Ok (sumR (map2 Rmult cts d)).
Proof. exact vjp_input. Qed.
Print Assumptions spline_reverse_input.
Theorem spline_reverse_shape : forall x t k cts, t <> [] -> length cts <> (length t - k - 1)%nat -> basis_vjp x t k cts = Err ValueError.
Proof. exact basis_vjp_shape. Qed.
Print Assumptions spline_reverse_shape.
(** The grids of [make_grid] have no repeated nodes. *)
Theorem spline_make_grid_separated : forall start stop power num t k, start < stop -> 0 < power -> (2 <= num)%nat ->
  make_grid start stop power num = Ok t -> separated t k.
Proof. exact make_grid_separated. Qed.
Print Assumptions spline_make_grid_separated.
(** Two equal nodes at most degree places apart: the gradient with respect to the input is
    not finite at every input, whatever the cotangents, although the forward derivative is
    finite. *)
Theorem spline_reverse_repeated_nodes : forall x t k cts a b, length cts = (length t - k - 1)%nat -> (k + 1 < length t)%nat ->
  (a < b <= a + k)%nat -> (b < length t)%nat -> nth a t 0 = nth b t 0 ->
  exists c, basis_vjp x t k cts = Ok c /\ fst c = Err NonFinite.
Proof. exact basis_vjp_nan. Qed.
Print Assumptions spline_reverse_repeated_nodes.
(** Hence reverse and forward mode disagree for some sorted grid. *)
Theorem spline_reverse_any_grid_refuted : exists x t k cts d, sorted t /\ length cts = (length t - k - 1)%nat /\ basis_deriv 1 x t k = Ok d /\
  ~ exists c, basis_vjp x t k cts = Ok c /\ fst c = Ok (sumR (map2 Rmult cts d)).
Proof. exact reverse_refuted. Qed.
Print Assumptions spline_reverse_any_grid_refuted.
Example separated_example : separated [0; 0; 1; 1; 2] 0 /\ ~ separated [0; 0; 1; 1; 2] 1 /\ separated [0; 1; 3] 2.
Proof.
  split; [intros a b H; lia|]. split; [intros H; apply (H 0%nat 1%nat); simpl; lia || lra|].
  intros a b H1 H2. simpl in H2. destruct a as [|[|[|a]]], b as [|[|[|b]]]; try lia; simpl; lra.
Qed.
