(** Property theorems: rejection sampling with any proposal distribution. *)
From Coquelicot Require Import Coquelicot.
From Verif Require Import Base M_Key M_XR M_Sampling S_Opt S_Sampling S_Sampling2 P_Sampling P_Sampling2.

(** ** C63 *)
(** Uniform proposals on a finite list and on an interval are covered. *)
Theorem proposals_covered :
  (forall {A} (V : list A), V <> nil -> mean_laws (uniform_list V)) /\
  (forall a b, a < b -> mean_laws (uniform_interval a b)).
Proof. exact (conj (fun A V => uniform_list_laws V) uniform_interval_laws). Qed.
Print Assumptions proposals_covered.

Theorem sampling_any_proposal {A} (P : proposal A) d pdf m : mean_laws P -> 0 < m ->
  (forall x, support P x -> 0 <= pdf x <= m) -> integrable P pdf -> 0 < mean P pdf ->
  forall B : A -> bool, integrable P (fun x => pdf x * if B x then 1 else 0) ->
  (forall r, prob_in P d pdf m r B
    = mean P (fun x => pdf x * if B x then 1 else 0) / mean P pdf * (1 - (1 - mean P pdf / m) ^ r)) /\
  is_lim_seq (fun r => prob_in P d pdf m r B) (mean P (fun x => pdf x * if B x then 1 else 0) / mean P pdf).
Proof. exact (fun HP Hm Hp HI H0 B HB => conj (prob_in_closed P d pdf m HP Hm Hp HI H0 B HB) (prob_in_limit P d pdf m HP Hm Hp HI H0 B HB)). Qed.
Print Assumptions sampling_any_proposal.

(** Proposals uniform on [a, b]: the distribution function of the returned sample. *)
Theorem sampling_cdf a b d pdf m : a < b -> 0 < m -> (forall x, a < x < b -> 0 <= pdf x <= m) ->
  ex_RInt pdf a b -> 0 < RInt pdf a b -> forall t, a <= t <= b ->
  (forall r, prob_in (uniform_interval a b) d pdf m r (fun x => if Rle_dec x t then true else false)
    = RInt pdf a t / RInt pdf a b * (1 - (1 - RInt pdf a b / ((b - a) * m)) ^ r)) /\
  is_lim_seq (fun r => prob_in (uniform_interval a b) d pdf m r (fun x => if Rle_dec x t then true else false))
    (RInt pdf a t / RInt pdf a b).
Proof. exact (interval_cdf a b d pdf m). Qed.
Print Assumptions sampling_cdf.

(** ** C107 *)
(** The docstring's m rounds per sample: false for a normalised density on [0, 2]. *)
Theorem average_rounds_refuted : exists a b pdf m,
  a < b /\ 0 < m /\ (forall x, 0 <= pdf x <= m) /\ is_RInt pdf a b 1 /\
  exists k : R, is_lim_seq (mean_rounds (uniform_interval a b) 0 pdf m) k /\ k <> m.
Proof. exact rounds_refuted. Qed.
Print Assumptions average_rounds_refuted.

(** What holds: m divided by the mean of the density under the proposals. *)
Theorem average_rounds_partial {A} (P : proposal A) d pdf m : mean_laws P -> 0 < m ->
  (forall x, support P x -> 0 <= pdf x <= m) -> integrable P pdf -> 0 < mean P pdf ->
  (forall r, mean_rounds P d pdf m r = (1 - (1 - mean P pdf / m) ^ r) / (mean P pdf / m)) /\
  is_lim_seq (mean_rounds P d pdf m) (m / mean P pdf).
Proof. exact (fun HP Hm Hp HI H0 => conj (mean_rounds_closed P d pdf m HP Hm Hp HI H0) (mean_rounds_limit P d pdf m HP Hm Hp HI H0)). Qed.
Print Assumptions average_rounds_partial.

(** Proposals uniform on [a, b]; m rounds on the unit interval with a normalised density. *)
Theorem average_rounds_interval_partial a b d pdf m : a < b -> 0 < m -> (forall x, a < x < b -> 0 <= pdf x <= m) ->
  ex_RInt pdf a b -> 0 < RInt pdf a b ->
  is_lim_seq (mean_rounds (uniform_interval a b) d pdf m) (m * (b - a) / RInt pdf a b).
Proof. exact (interval_rounds a b d pdf m). Qed.
Print Assumptions average_rounds_interval_partial.

Example average_rounds_case : is_lim_seq (mean_rounds (uniform_interval 0 2) 0 (fun _ => 1 / 2) 1) 2.
Proof. exact rounds_two. Qed.

(** ** C108 *)
Theorem density_above_m_cut_off {A} (P : proposal A) d (pdf : A -> R) m : mean_laws P -> 0 < m ->
  integrable P (fun x => Rmax 0 (Rmin (pdf x) m)) -> 0 < mean P (fun x => Rmax 0 (Rmin (pdf x) m)) ->
  (forall B : A -> bool, integrable P (fun x => Rmax 0 (Rmin (pdf x) m) * if B x then 1 else 0) ->
    is_lim_seq (fun r => prob_in P d pdf m r B)
      (mean P (fun x => Rmax 0 (Rmin (pdf x) m) * if B x then 1 else 0) / mean P (fun x => Rmax 0 (Rmin (pdf x) m)))) /\
  is_lim_seq (mean_rounds P d pdf m) (m / mean P (fun x => Rmax 0 (Rmin (pdf x) m))).
Proof. exact (cut_off P d pdf m). Qed.
Print Assumptions density_above_m_cut_off.

(** Densities 1 and 3 with m = 1: both values become equally likely. *)
Example density_above_m_case :
  is_lim_seq (fun r => prob_in (uniform_list (cons true (cons false nil))) true (fun b : bool => if b then 1 else 3) 1 r (fun b => b)) (1 / 2).
Proof.
  destruct (density_above_m_cut_off (uniform_list (cons true (cons false nil))) true (fun b : bool => if b then 1 else 3) 1) as [H _].
  - apply uniform_list_laws. discriminate.
  - lra.
  - exact I.
  - cbn. unfold Rmax, Rmin. repeat destruct (Rle_dec _ _); lra.
  - specialize (H (fun b => b) I). cbn [mean uniform_list map] in H.
    replace (1 / 2) with (/ INR (length (cons true (cons false nil))) *
       sumR (cons (Rmax 0 (Rmin 1 1) * 1) (cons (Rmax 0 (Rmin 3 1) * 0) nil)) /
       (/ INR (length (cons true (cons false nil))) * sumR (cons (Rmax 0 (Rmin 1 1)) (cons (Rmax 0 (Rmin 3 1)) nil)))); [exact H|].
    cbn. unfold Rmax, Rmin. repeat destruct (Rle_dec _ _); try lra.
Qed.
