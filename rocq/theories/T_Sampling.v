(** Property theorems for sampling.py (C61-C63). *)
From Verif Require Import Base M_Key M_XR M_Sampling S_Opt S_Sampling P_Sampling.
From Coquelicot Require Import Coquelicot.

(** ** C61 *)
(** every returned sample is the first accepted proposal of its lane *)
Theorem samples_are_accepted {A} sample_fn uniform (pdf : A -> R) m fuel k n ss :
  (forall k, 0 <= uniform k < 1) -> 0 < m ->
  rejection_sampling sample_fn uniform (fun x => Fin (pdf x)) m fuel k n = Some ss ->
  length ss = n /\
  forall i, (i < n)%nat -> exists j x, (j < fuel)%nat /\ nth_error ss i = Some x /\
    x = sample_fn (proposal_key k n i j) /\
    uniform (uniform_key k n i j) <= pdf x / m /\ 0 <= pdf x /\
    (0 < uniform (uniform_key k n i j) -> 0 < pdf x) /\
    forall j', (j' < j)%nat ->
      pdf (sample_fn (proposal_key k n i j')) / m < uniform (uniform_key k n i j').
Proof. exact (rs_real sample_fn uniform pdf m fuel k n ss). Qed.
Print Assumptions samples_are_accepted.

Theorem sampling_terminates {A} sample_fn uniform (pdf : A -> R) m k n : 0 < m ->
  (forall i, (i < n)%nat -> exists j,
      uniform (uniform_key k n i j) <= pdf (sample_fn (proposal_key k n i j)) / m) ->
  exists fuel ss, rejection_sampling sample_fn uniform (fun x => Fin (pdf x)) m fuel k n = Some ss.
Proof. exact (rs_terminates sample_fn uniform pdf m k n). Qed.
Print Assumptions sampling_terminates.

(** no random key is used for two purposes, rounds or lanes *)
Theorem sampling_keys_distinct k n i j c i' j' c' :
  (c = 1 \/ c = 2)%nat -> (c' = 1 \/ c' = 2)%nat ->
  path (KChild (round_key k n i j) 3 c) = path (KChild (round_key k n i' j') 3 c') ->
  i = i' /\ j = j' /\ c = c'.
Proof. exact (rs_keys k n i j c i' j' c'). Qed.
Print Assumptions sampling_keys_distinct.

(** lane 0 rejects twice, then accepts *)
Example sampling_case :
  rejection_sampling (fun k => length (path k)) (fun _ => 1 / 2) (fun x => Fin (INR x)) 7 5 (KSeed 0) 1
  = Some (cons 4%nat nil).
Proof.
  unfold rejection_sampling, draw_sample. cbn -[INR]. unfold xgtb.
  destruct (Req_EM_T 7 0); [lra|]. cbn -[INR].
  assert (H2 : Rltb (INR 2 / 7) (1 / 2) = true) by (unfold Rltb; cbn; destruct (Rlt_dec _ _); lra).
  assert (H3 : Rltb (INR 3 / 7) (1 / 2) = true) by (unfold Rltb; cbn; destruct (Rlt_dec _ _); lra).
  assert (H4 : Rltb (INR 4 / 7) (1 / 2) = false) by (unfold Rltb; cbn; destruct (Rlt_dec _ _); lra).
  rewrite H2, H3, H4. reflexivity.
Qed.

(** ** C62 *)
(** [random.uniform] can return 0, which accepts a sample of density 0 *)
Theorem zero_density_refuted : exists (uniform : key -> R),
  (forall k, 0 <= uniform k < 1) /\
  rejection_sampling (fun _ => tt) uniform (fun _ => Fin 0) 1 1 (KSeed 0) 1 = Some (cons tt nil).
Proof. exact rs_zero_density. Qed.
Print Assumptions zero_density_refuted.

(** a nan density is always accepted: [p > nan] is false *)
Theorem nan_density_refuted : forall (uniform : key -> R),
  rejection_sampling (fun _ => tt) uniform (fun _ => NaN) 1 1 (KSeed 0) 1 = Some (cons tt nil).
Proof. exact rs_nan_density. Qed.
Print Assumptions nan_density_refuted.

(** with positive uniform draws and densities that are not nan the property holds *)
Theorem zero_density_partial {A} sample_fn uniform (pdf : A -> xr) m fuel k n ss x :
  (forall k, 0 < uniform k < 1) -> 0 < m -> (forall x, pdf x <> NaN) ->
  rejection_sampling sample_fn uniform pdf m fuel k n = Some ss -> In x ss ->
  xgtb (pdf x) (Fin 0) = true.
Proof. exact (rs_positive sample_fn uniform pdf m fuel k n ss x). Qed.
Print Assumptions zero_density_partial.

(** ** C63 *)
Theorem sampling_probability {A} (eq_dec : forall x y : A, {x = y} + {x <> y}) d pdf m V :
  0 < m -> V <> nil -> NoDup V -> (forall x, In x V -> 0 <= pdf x <= m) ->
  0 < sumR (map pdf V) -> forall v r, In v V ->
  prob eq_dec d pdf m V r v
  = pdf v / sumR (map pdf V) * (1 - (1 - sumR (map pdf V) / (INR (length V) * m)) ^ r).
Proof. exact (fun Hm HV HND Hp HM v r => prob_closed eq_dec d pdf m Hm V HV HND Hp HM v r). Qed.
Print Assumptions sampling_probability.

Theorem sampling_proportional {A} (eq_dec : forall x y : A, {x = y} + {x <> y}) d pdf m V :
  0 < m -> V <> nil -> NoDup V -> (forall x, In x V -> 0 <= pdf x <= m) ->
  0 < sumR (map pdf V) -> forall v w r, In v V -> In w V ->
  prob eq_dec d pdf m V r v * pdf w = prob eq_dec d pdf m V r w * pdf v.
Proof. exact (fun Hm HV HND Hp HM v w r => prob_prop eq_dec d pdf m Hm V HV HND Hp HM v w r). Qed.
Print Assumptions sampling_proportional.

Theorem sampling_limit {A} (eq_dec : forall x y : A, {x = y} + {x <> y}) d pdf m V :
  0 < m -> V <> nil -> NoDup V -> (forall x, In x V -> 0 <= pdf x <= m) ->
  0 < sumR (map pdf V) -> forall v, In v V ->
  is_lim_seq (fun r => prob eq_dec d pdf m V r v) (pdf v / sumR (map pdf V)).
Proof. exact (fun Hm HV HND Hp HM v => prob_limit eq_dec d pdf m Hm V HV HND Hp HM v). Qed.
Print Assumptions sampling_limit.

(** a two-point density, two rounds *)
Example sampling_probability_case :
  prob Bool.bool_dec true (fun b : bool => if b then 1 else 3) 4 (cons true (cons false nil)) 2 false = 9 / 16.
Proof.
  rewrite sampling_probability; cbn; try lra; try tauto; try discriminate.
  - constructor; [intros [|[]]; discriminate|]. constructor; [intros []|constructor].
  - intros [|] _; lra.
Qed.
