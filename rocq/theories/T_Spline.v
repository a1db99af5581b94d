(** Properties C44-C48, C79: spline.py. *)
From Coquelicot Require Import Coquelicot.
From Verif Require Import Base M_Spline S_Spline P_Spline1 P_Spline2 P_Spline3.

(** ** C44 *)
Theorem spline_basis_defined : forall x t k, t <> [] -> exists b, spline_basis x t k = Ok b /\ length b = (length t - k - 1)%nat.
Proof. exact basis_defined. Qed.
Print Assumptions spline_basis_defined.
Theorem spline_basis_support : forall x t k b i, sorted t -> spline_basis x t k = Ok b -> (i < length b)%nat ->
  0 <= nth i b 0 /\ (~ (nth i t 0 <= x < nth (i + k + 1) t 0) -> nth i b 0 = 0).
Proof. exact basis_support. Qed.
Print Assumptions spline_basis_support.
Theorem spline_basis_positive : forall x t k b i, sorted t -> spline_basis x t k = Ok b -> (i < length b)%nat ->
  nth i t 0 < x < nth (i + k + 1) t 0 -> 0 < nth i b 0.
Proof. exact basis_positive. Qed.
Print Assumptions spline_basis_positive.
(** Node indices stay in range: the value only depends on t_i, ..., t_{i+k+1}. *)
Theorem spline_basis_local : forall t u x k b c i, spline_basis x t k = Ok b -> spline_basis x u k = Ok c ->
  (i < length b)%nat -> (i < length c)%nat ->
  (forall j, (i <= j <= i + k + 1)%nat -> nth j t 0 = nth j u 0) -> nth i b 0 = nth i c 0.
Proof. exact basis_local. Qed.
Print Assumptions spline_basis_local.
Example sorted_example : sorted [0; 0; 1; 1; 2] /\ ~ strictly_sorted [0; 0; 1; 1; 2].
Proof.
  split.
  - intros i j H. simpl in H. do 6 (destruct i as [|i]; [do 6 (destruct j as [|j]; [simpl; lra || lia|]); simpl; lia|]). simpl; lia.
  - intros H. specialize (H 0%nat 1%nat ltac:(simpl; lia)). simpl in H. lra.
Qed.
Example strictly_sorted_example : strictly_sorted [0; 1; 2; 4; 5; 6].
Proof. intros i j H. simpl in H. do 7 (destruct i as [|i]; [do 7 (destruct j as [|j]; [simpl; lra || lia|]); simpl; lia|]). simpl; lia. Qed.
Example basis_example : spline_basis (1 / 2) [0; 1; 2; 3] 1 = Ok [1 / 2; 0].
Proof.
  unfold spline_basis. simpl. unfold Rleb, Rltb, Reqb, node. simpl.
  repeat match goal with |- context [Rle_dec ?a ?b] => destruct (Rle_dec a b); [|try (exfalso; lra)]; try (exfalso; lra) 
    | |- context [Rlt_dec ?a ?b] => destruct (Rlt_dec a b); [|try (exfalso; lra)]; try (exfalso; lra)
    | |- context [Req_EM_T ?a ?b] => destruct (Req_EM_T a b); [try (exfalso; lra)|]; try (exfalso; lra) end; cbn [andb];
  f_equal; f_equal; [field|f_equal; field].
Qed.

(** ** C45 *)
Theorem spline_partition_of_unity : forall x t k b, sorted t -> spline_basis x t k = Ok b ->
  (2 * k + 2 <= length t)%nat -> nth k t 0 <= x < nth (length t - k - 1) t 0 -> sumR b = 1.
Proof. exact basis_partition. Qed.
Print Assumptions spline_partition_of_unity.
Theorem spline_sum_at_most_one : forall x t k b, sorted t -> spline_basis x t k = Ok b -> 0 <= sumR b <= 1.
Proof. exact basis_sum_le. Qed.
Print Assumptions spline_sum_at_most_one.
Theorem spline_zero_outside : forall x t k b, sorted t -> spline_basis x t k = Ok b ->
  ~ (nth 0 t 0 <= x < nth (length t - 1) t 0) -> b = repeat 0 (length t - k - 1).
Proof. exact basis_outside. Qed.
Print Assumptions spline_zero_outside.

(** ** C79 *)
(** Marsden's identity: the powers (y - x)^k, hence all polynomials of degree <= k in x,
    are combinations of the basis functions. *)
Theorem spline_marsden_identity : forall x y t k b, sorted t -> spline_basis x t k = Ok b ->
  (2 * k + 2 <= length t)%nat -> nth k t 0 <= x < nth (length t - k - 1) t 0 ->
  combine_with (map (fun i => dual_poly t y i k) (seq 0 (length t - k - 1))) b = (y - x) ^ k.
Proof. exact basis_marsden. Qed.
Print Assumptions spline_marsden_identity.
Theorem spline_linear_precision : forall x t k b, sorted t -> spline_basis x t k = Ok b ->
  (2 * k + 2 <= length t)%nat -> nth k t 0 <= x < nth (length t - k - 1) t 0 ->
  combine_with (map (fun i => node_sum t i k) (seq 0 (length t - k - 1))) b = INR k * x.
Proof. exact basis_linear. Qed.
Print Assumptions spline_linear_precision.
Theorem spline_basis_continuous : forall t k i, strictly_sorted t -> (1 <= k)%nat -> (i + k + 1 < length t)%nat ->
  forall x, continuous (fun x => match spline_basis x t k with Ok b => nth i b 0 | Err _ => 0 end) x.
Proof. exact basis_continuous. Qed.
Print Assumptions spline_basis_continuous.
Theorem spline_basis_derivative : forall t k i, strictly_sorted t -> (2 <= k)%nat -> (i + k + 1 < length t)%nat ->
  forall x b, spline_basis x t (k - 1) = Ok b ->
  is_derive (fun x => match spline_basis x t k with Ok b => nth i b 0 | Err _ => 0 end) x
    (INR k * (nth i b 0 / (nth (i + k) t 0 - nth i t 0) - nth (i + 1) b 0 / (nth (i + k + 1) t 0 - nth (i + 1) t 0))).
Proof. exact basis_derivative. Qed.
Print Assumptions spline_basis_derivative.

(** ** C46 *)
Theorem make_grid_spec : forall start stop power num, start <= stop -> 0 < power -> (2 <= num)%nat ->
  exists t, make_grid start stop power num = Ok t /\ length t = num /\
  nth 0 t 0 = start /\ nth (num - 1) t 0 = stop /\ sorted t /\ (start < stop -> strictly_sorted t) /\
  (forall i, (i < num)%nat -> nth i t 0 + nth (num - 1 - i) t 0 = start + stop).
Proof. exact grid_spec. Qed.
Print Assumptions make_grid_spec.
(** Power 1 is the uniform grid; for other powers the relative distance to the centre is
    the power of the one in the uniform grid. *)
Theorem make_grid_power_law : forall start stop power num t u i, start < stop -> 0 < power -> (2 <= num)%nat ->
  make_grid start stop power num = Ok t -> make_grid start stop 1 num = Ok u -> (i < num)%nat ->
  nth i u 0 = start + INR i * ((stop - start) / INR (num - 1)) /\
  (nth i u 0 = (start + stop) / 2 -> nth i t 0 = (start + stop) / 2) /\
  (nth i u 0 <> (start + stop) / 2 ->
   Rabs (nth i t 0 - (start + stop) / 2) / ((stop - start) / 2) = Rpower (Rabs (nth i u 0 - (start + stop) / 2) / ((stop - start) / 2)) power).
Proof. exact grid_power_law. Qed.
Print Assumptions make_grid_power_law.

(** ** C47 *)
(** False for start > stop: the grid runs from start to start + |start - stop|. *)
Theorem make_grid_covers_refuted : exists start stop power num t, 0 < power /\ (2 <= num)%nat /\
  make_grid start stop power num = Ok t /\ nth (num - 1) t 0 <> stop.
Proof. exact grid_reversed_refuted. Qed.
Print Assumptions make_grid_covers_refuted.
Theorem make_grid_covers_partial : forall start stop power num t, 0 < power -> (2 <= num)%nat ->
  make_grid start stop power num = Ok t -> nth 0 t 0 = start /\ nth (num - 1) t 0 = start + Rabs (start - stop).
Proof. exact grid_reversed. Qed.
Print Assumptions make_grid_covers_partial.

(** ** C48 *)
Theorem spline_activation_defined : forall c act coefs x m, parameterize_grid c = false -> 0 < grid_power c -> (degree c + 1 <= nodes c)%nat ->
  x <> [] -> Forall (fun r => length r = m) x -> length coefs = m -> Forall (fun r => length r = (nodes c - degree c - 1)%nat) coefs ->
  exists ys, spline_call c act coefs [] x = Ok ys.
Proof. exact call_defined. Qed.
Print Assumptions spline_activation_defined.
Theorem spline_activation_value : forall c act coefs grids x ys, spline_call c act coefs grids x = Ok ys ->
  length ys = length x /\ forall r j, (r < length x)%nat -> (j < length (nth r x []))%nat ->
    length (nth r ys []) = length (nth r x []) /\ length (nth j coefs []) = (nodes c - degree c - 1)%nat /\ (degree c + 1 <= nodes c)%nat /\
    (parameterize_grid c = true -> length (nth j grids []) = nodes c) /\
    exists t b, channel_grid c grids j t /\ spline_basis (at2 x r j) t (degree c) = Ok b /\
      at2 ys r j = act (at2 x r j) + combine_with (nth j coefs []) b.
Proof. exact call_value. Qed.
Print Assumptions spline_activation_value.
Theorem spline_activation_outside : forall c act coefs grids x ys r j, spline_call c act coefs grids x = Ok ys ->
  parameterize_grid c = false -> node_min c <= node_max c -> 0 < grid_power c -> (2 <= nodes c)%nat ->
  (r < length x)%nat -> (j < length (nth r x []))%nat -> ~ (node_min c <= at2 x r j < node_max c) -> at2 ys r j = act (at2 x r j).
Proof. exact shared_outside. Qed.
Print Assumptions spline_activation_outside.
Theorem spline_activation_outside_own_grid : forall c act coefs grids x ys r j t, spline_call c act coefs grids x = Ok ys ->
  (r < length x)%nat -> (j < length (nth r x []))%nat -> channel_grid c grids j t -> sorted t ->
  ~ (nth 0 t 0 <= at2 x r j < nth (length t - 1) t 0) -> at2 ys r j = act (at2 x r j).
Proof. exact call_outside. Qed.
Print Assumptions spline_activation_outside_own_grid.
Theorem spline_activation_zero_coefs : forall c act coefs grids x ys r j, spline_call c act coefs grids x = Ok ys ->
  (r < length x)%nat -> (j < length (nth r x []))%nat -> Forall (fun v => v = 0) (nth j coefs []) -> at2 ys r j = act (at2 x r j).
Proof. exact call_zero_coefs. Qed.
Print Assumptions spline_activation_zero_coefs.
Theorem spline_activation_bound : forall c act coefs grids x ys r j M, spline_call c act coefs grids x = Ok ys ->
  parameterize_grid c = false -> node_min c <= node_max c -> 0 < grid_power c -> (2 <= nodes c)%nat ->
  (r < length x)%nat -> (j < length (nth r x []))%nat -> 0 <= M -> Forall (fun v => Rabs v <= M) (nth j coefs []) ->
  Rabs (at2 ys r j - act (at2 x r j)) <= M.
Proof. exact shared_bound. Qed.
Print Assumptions spline_activation_bound.
Theorem spline_activation_bound_own_grid : forall c act coefs grids x ys r j t M, spline_call c act coefs grids x = Ok ys -> 0 < grid_power c ->
  (r < length x)%nat -> (j < length (nth r x []))%nat -> channel_grid c grids j t -> sorted t ->
  0 <= M -> Forall (fun v => Rabs v <= M) (nth j coefs []) -> Rabs (at2 ys r j - act (at2 x r j)) <= M.
Proof. exact call_bound. Qed.
Print Assumptions spline_activation_bound_own_grid.
Theorem spline_activation_constant_coefs : forall c act coefs grids x ys r j t v, spline_call c act coefs grids x = Ok ys -> 0 < grid_power c ->
  (r < length x)%nat -> (j < length (nth r x []))%nat -> channel_grid c grids j t -> sorted t ->
  nth j coefs [] = repeat v (nodes c - degree c - 1) -> (2 * degree c + 2 <= nodes c)%nat ->
  nth (degree c) t 0 <= at2 x r j < nth (nodes c - degree c - 1) t 0 -> at2 ys r j = act (at2 x r j) + v.
Proof. exact call_shift. Qed.
Print Assumptions spline_activation_constant_coefs.
Example default_spline_example : exists ys, spline_call default_spline (fun v => v) (zero_coefs default_spline 2) [] [[0; 5]; [-1; 2]] = Ok ys.
Proof.
  apply (call_defined default_spline (fun v => v) (zero_coefs default_spline 2) [[0; 5]; [-1; 2]] 2); simpl; auto; try lra; try lia; try discriminate.
  repeat constructor.
Qed.
(** the default fields: 14 nodes from -3 to 3, degree 3 *)
Theorem spline_activation_default : forall act coefs x m, x <> [] -> Forall (fun r => length r = m) x ->
  length coefs = m -> Forall (fun r => length r = 10%nat) coefs ->
  exists ys t, spline_call default_spline act coefs [] x = Ok ys /\
    length t = 14%nat /\ nth 0 t 0 = -3 /\ nth 13 t 0 = 3 /\ strictly_sorted t /\
    forall r j, (r < length x)%nat -> (j < length (nth r x []))%nat ->
      (exists b, spline_basis (at2 x r j) t 3 = Ok b /\ at2 ys r j = act (at2 x r j) + combine_with (nth j coefs []) b) /\
      (~ (-3 <= at2 x r j < 3) -> at2 ys r j = act (at2 x r j)).
Proof.
  intros act coefs x m Hx Fx Lc Fc.
  destruct (call_defined default_spline act coefs x m) as (ys & E); simpl; auto; try lra; try lia.
  destruct (grid_spec (-3) 3 2 14) as (t & Et & Lt & T0 & T1 & _ & St & _); try lra; try lia.
  exists ys, t. split; auto. split; auto. split; auto. split; [exact T1|]. split; [apply St; lra|].
  intros r j Hr Hj. destruct (call_value _ _ _ _ _ _ E) as (_ & V). destruct (V r j Hr Hj) as (_ & _ & _ & _ & t' & b & C & Eb & Vy).
  split.
  - assert (t' = t). { unfold channel_grid in C. simpl in C. congruence. } subst t'. exists b. auto.
  - intros Ho. apply (shared_outside default_spline act coefs [] x ys r j E); simpl; auto; try lra; try lia.
Qed.
Print Assumptions spline_activation_default.
