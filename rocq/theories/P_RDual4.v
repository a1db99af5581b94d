(** Proofs: derivatives of the R-functions. *)
From Coquelicot Require Import Coquelicot.
From Verif Require Import Base BaseFacts M_Quat S_Quat M_RFun S_RFun M_Solid M_RDual S_Solid S_SolidBC S_RDual P_RDual1 P_RDual2 P_RFun1 P_SolidC3.

Lemma fpow_pos v e : 0 < v -> fpow v e = Ok (Rpower v e).
Proof. intros H. unfold fpow. destruct (Rlt_dec v 0); [lra|]. destruct (Req_EM_T v 0); [lra|reflexivity]. Qed.
Lemma t_pow fa a e p : dual_of fa a -> 0 < fst a -> dpow a e = Ok p -> dtrack (fun s => fpow (fa s) e) p.
Proof.
  intros H P E. unfold dpow in E. rewrite !fpow_pos in E by exact P. cbn in E. injection E as <-.
  apply (t_loc (fun s => Ok (Rpower (fa s) e))).
  - generalize (d_pos _ _ H P). apply filter_imp. intros s Q. now rewrite fpow_pos.
  - apply t_ok. eapply d_eq; [| |apply (d_comp (fun u => Rpower u e) (e * Rpower (fst a) (e - 1)) fa a H)].
    + reflexivity.
    + cbn. destruct (Req_EM_T e 0) as [->|]; [ring|reflexivity].
    + apply is_derive_Reals, derivable_pt_lim_power, P.
Qed.
Lemma dpow_pos a e p : e <> 0 -> e < 1 -> dpow a e = Ok p -> 0 < fst a.
Proof.
  intros E0 E1 E. unfold dpow in E. apply bind_ok in E as (v & Ev & E). apply bind_ok in E as (q & Eq & _).
  destruct (Req_EM_T e 0); [contradiction|]. unfold fpow in Eq. destruct (Rlt_dec (fst a) 0); [discriminate|].
  destruct (Req_EM_T (fst a) 0); [|lra]. destruct (Req_EM_T (e - 1) 0); [lra|]. destruct (Rlt_dec (e - 1) 0); [discriminate|lra].
Qed.

(** a b is the value of conjunction and disjunction *)
Lemma track_RAlpha alpha s : RAlpha alpha = Ok s -> sys_tracks (dRAlpha alpha) s.
Proof.
  unfold RAlpha. intros E. apply bind_ok in E as (_ & _ & E). injection E as <-.
  split; intros fa fb a b p Ha Hb E; cbn in E; apply bind_ok in E as (c & Ec & E); apply bind_ok in E as (q & Eq & E); injection E as <-;
    cbn; unfold ralpha_conj, ralpha_disj; rewrite Ec; cbn [bind].
  all: apply (t_bind _ q); [exact (t_sqrt (fun s => fa s ^ 2 + fb s ^ 2 - 2 * alpha * fa s * fb s) _ _
        (d_sub _ _ _ _ (d_add _ _ _ _ (d_sq _ _ Ha) (d_sq _ _ Hb)) (d_mul _ _ _ _ (d_scal (2 * alpha) _ _ Ha) Hb)) Eq)|].
  all: intros phi D; apply t_ok, d_scal; first [apply d_sub; [apply d_add|]; assumption|apply d_add; [apply d_add|]; assumption].
Qed.
Lemma sumsq2_pos x y k : 0 < x ^ 2 + y ^ 2 - k * x * y -> 0 < x ^ 2 + y ^ 2.
Proof.
  intros H. destruct (Req_dec x 0) as [->|Hx]; [destruct (Req_dec y 0) as [->|Hy]|]; [nra| |].
  - assert (0 < y ^ 2) by (apply pow2_gt_0; auto). nra.
  - assert (0 < x ^ 2) by (apply pow2_gt_0; auto). pose proof (pow2_ge_0 y). nra.
Qed.
Lemma track_RAlphaM m alpha s : RAlphaM m alpha = Ok s -> sys_tracks (dRAlphaM m alpha) s.
Proof.
  unfold RAlphaM. intros E. apply bind_ok in E as (_ & _ & E). injection E as <-.
  split; intros fa fb a b p Ha Hb E; cbn in E; apply bind_ok in E as (c & Ec & E); apply bind_ok in E as (q & Eq & E);
    apply bind_ok in E as (w & Ew & E); injection E as <-;
    cbn; unfold ralpham_conj, ralpham_disj; rewrite Ec; cbn [bind].
  all: pose proof (d_add _ _ _ _ (d_sq _ _ Ha) (d_sq _ _ Hb)) as Hr.
  all: assert (P : 0 < fst (dadd (dsq a) (dsq b))) by
    (apply dsqrt_ok in Eq as [Q _]; cbn [fst dsub dmul dscal dadd dsq] in Q |- *; apply (sumsq2_pos _ _ _ Q)).
  all: apply (t_bind _ q); [exact (t_sqrt (fun s => fa s ^ 2 + fb s ^ 2 - 2 * alpha * fa s * fb s) _ _
        (d_sub _ _ _ _ Hr (d_mul _ _ _ _ (d_scal (2 * alpha) _ _ Ha) Hb)) Eq)|].
  all: intros phi D; apply (t_bind _ w); [exact (t_pow (fun s => fa s ^ 2 + fb s ^ 2) _ _ _ Hr P Ew)|].
  all: intros psi D'; apply t_ok, d_mul; auto; apply d_scal; first [apply d_sub; [apply d_add|]; assumption|apply d_add; [apply d_add|]; assumption].
Qed.

Lemma powerRZ_pos_nat u q : powerRZ u (Z.pos q) = u ^ Pos.to_nat q.
Proof. reflexivity. Qed.
Lemma derive_powerRZ (v : R) p : ((p < 0)%Z -> v <> 0) -> p <> 0%Z -> is_derive (fun u => powerRZ u p) v (IZR p * powerRZ v (p - 1)).
Proof.
  intros Hv Hp. destruct p as [|q|q]; [congruence| |].
  - replace (IZR (Z.pos q) * powerRZ v (Z.pos q - 1)) with (INR (Pos.to_nat q) * v ^ pred (Pos.to_nat q)).
    + apply is_derive_Reals. exact (derivable_pt_lim_pow v (Pos.to_nat q)).
    + rewrite INR_IZR_INZ, positive_nat_Z. f_equal. rewrite pow_powerRZ. f_equal.
      pose proof (Pos2Nat.is_pos q). rewrite Nat2Z.inj_pred by lia. rewrite positive_nat_Z. lia.
  - assert (NZ : v <> 0) by (apply Hv; lia). pose proof (Pos2Nat.is_pos q) as Pq.
    replace (IZR (Z.neg q) * powerRZ v (Z.neg q - 1)) with (- (INR (Pos.to_nat q) * v ^ pred (Pos.to_nat q)) / (v ^ Pos.to_nat q) ^ 2).
    + change (is_derive (fun u => / (u ^ Pos.to_nat q)) v (- (INR (Pos.to_nat q) * v ^ pred (Pos.to_nat q)) / (v ^ Pos.to_nat q) ^ 2)).
      apply (is_derive_inv (fun u => u ^ Pos.to_nat q)); [|apply pow_nonzero, NZ].
      apply is_derive_Reals. exact (derivable_pt_lim_pow v (Pos.to_nat q)).
    + replace (Z.neg q - 1)%Z with (Z.neg (q + 1)) by lia. cbn [powerRZ]. rewrite Pos2Nat.inj_add. change (Pos.to_nat 1) with 1%nat.
      change (IZR (Z.neg q)) with (- IZR (Z.pos q)). rewrite <- (positive_nat_Z q), <- INR_IZR_INZ.
      destruct (Pos.to_nat q) as [|k]; [lia|]. rewrite Nat.add_1_r. cbn [pred pow]. generalize (INR (S k)). intros r.
      pose proof (pow_nonzero v k NZ). field. auto.
Qed.
Lemma t_zpow fa a p q : p <> 0%Z -> dual_of fa a -> dzpow a p = Ok q ->
  ((p < 0)%Z -> fst a <> 0) /\ dual_of (fun s => powerRZ (fa s) p) q.
Proof.
  intros Hp H E. unfold dzpow in E. apply bind_ok in E as (v & Ev & E). rewrite (proj2 (Z.eqb_neq p 0) Hp) in E.
  apply bind_ok in E as (w & Ew & E). injection E as <-.
  assert (NZ : (p < 0)%Z -> fst a <> 0).
  { intros N Z. unfold zpow in Ev. rewrite Z in Ev. destruct (Req_EM_T 0 0); [|lra]. destruct (Z_lt_dec p 0); [discriminate|lia]. }
  split; [exact NZ|].
  assert (v = powerRZ (fst a) p) as -> by (unfold zpow in Ev; destruct (Req_EM_T (fst a) 0); [destruct (Z_lt_dec p 0); [discriminate|]|]; congruence).
  assert (w = powerRZ (fst a) (p - 1)) as -> by (unfold zpow in Ew; destruct (Req_EM_T (fst a) 0); [destruct (Z_lt_dec (p - 1) 0); [discriminate|]|]; congruence).
  apply (d_comp (fun u => powerRZ u p)); [exact H|]. apply derive_powerRZ; auto.
Qed.
Lemma track_rp_root p fa fb a b q : p <> 1%Z -> dual_of fa a -> dual_of fb b -> drp_root p a b = Ok q ->
  dtrack (fun s => rp_root p (fa s) (fb s)) q.
Proof.
  intros P1 Ha Hb E. unfold drp_root in E. apply bind_ok in E as (e & Ee & E). apply bind_ok in E as (u & Eu & E). apply bind_ok in E as (v & Ev & E).
  assert (Hp : p <> 0%Z) by (intros ->; unfold pydiv in Ee; destruct (Req_EM_T 0 0); [discriminate|lra]).
  assert (e = / IZR p) as -> by (rewrite pydiv_ok in Ee by (apply not_0_IZR; auto); injection Ee as <-; unfold Rdiv; ring).
  destruct (t_zpow _ _ _ _ Hp Ha Eu) as [Na Du]. destruct (t_zpow _ _ _ _ Hp Hb Ev) as [Nb Dv].
  assert (I : / IZR p <> 0 /\ / IZR p < 1).
  { split; [apply Rinv_neq_0_compat, not_0_IZR; auto|]. destruct (Z_lt_dec p 0) as [N|N].
    - apply IZR_lt in N. apply Rinv_lt_0_compat in N. lra.
    - assert (2 <= p)%Z as Q by lia. apply IZR_le in Q. apply (Rle_lt_trans _ (/ 2)); [apply Rinv_le_contravar; lra|lra]. }
  pose proof (dpow_pos _ _ _ (proj1 I) (proj2 I) E) as P.
  pose proof (t_pow _ _ _ _ (d_add _ _ _ _ Du Dv) P E) as T. revert T. apply t_loc.
  assert (N : locally 0 (fun s => (p < 0)%Z -> fa s <> 0 /\ fb s <> 0)).
  { destruct (Z_lt_dec p 0) as [N|N]; [|apply filter_forall; intros; lia].
    generalize (filter_and _ _ (d_nz _ _ Ha (Na N)) (d_nz _ _ Hb (Nb N))). apply filter_imp. auto. }
  revert N. apply filter_imp. intros s N. unfold rp_root. rewrite Ee. cbn [bind].
  destruct (Z_lt_dec p 0) as [Q|Q]; [|reflexivity]. destruct (N Q). destruct (Req_EM_T (fa s) 0); [contradiction|].
  destruct (Req_EM_T (fb s) 0); [contradiction|reflexivity].
Qed.
Lemma track_RP p s : RP p = Ok s -> sys_tracks (dRP p) s.
Proof.
  unfold RP. intros E. apply bind_ok in E as (? & Ea & E). injection E as <-.
  assert (P1 : p <> 1%Z) by (intros ->; discriminate).
  split; intros fa fb a b q Ha Hb E; cbn in E; apply bind_ok in E as (r & Er & E); injection E as <-; cbn; unfold rp_conj, rp_disj;
    (apply (t_bind _ r); [exact (track_rp_root p _ _ _ _ _ P1 Ha Hb Er)|]); intros phi D; apply t_ok; first [apply d_sub; [apply d_add|]; assumption|apply d_add; [apply d_add|]; assumption].
Qed.

(** RhoBlending *)
Lemma derive_tabs t : is_derive (fun u => u * Rabs u) t (2 * Rabs t).
Proof.
  destruct (Req_dec t 0) as [->|NZ].
  - rewrite Rabs_R0, Rmult_0_r. apply is_derive_Reals. intros e He. exists (mkposreal e He). intros h Hh Hd. cbn in Hd.
    rewrite Rplus_0_l, Rabs_R0. replace ((h * Rabs h - 0 * 0) / h - 0) with (Rabs h) by (field; auto). rewrite Rabs_Rabsolu. exact Hd.
  - replace (2 * Rabs t) with (1 * Rabs t + t * (sign t * 1)).
    + apply (is_derive_mult (fun u => u) Rabs t 1 (sign t * 1)); [exact (is_derive_id t)| |exact Rmult_comm].
      apply (is_derive_Rabs (fun u => u) t 1); [exact (is_derive_id t)|exact NZ].
    + destruct (Rlt_dec 0 t).
      * rewrite sign_eq_1, Rabs_right by lra. ring.
      * rewrite sign_eq_m1, Rabs_left by lra. ring.
Qed.
Lemma d_fold c fs S : dual_of fs S -> dual_of (fun s => c * fs s * (fs s - Rabs (fs s))) (dmul (dscal c S) (dsub S (dabs S))).
Proof.
  intros H. apply (d_ext (fun s => (fun t => c * (t ^ 2 - t * Rabs t)) (fs s))); [intros; cbn; ring|].
  eapply d_eq; [| |apply (d_comp (fun t => c * (t ^ 2 - t * Rabs t)) (c * (2 * fst S - 2 * Rabs (fst S))) fs S H)].
  - cbn. ring.
  - cbn. unfold Rabs at 1 2. destruct (Rcase_abs (fst S)) as [N|N].
    + destruct (Rlt_dec 0 (fst S)); [lra|]. destruct (Rlt_dec (fst S) 0); [|lra]. ring.
    + destruct (Rlt_dec 0 (fst S)) as [P|P]; [ring|]. destruct (Rlt_dec (fst S) 0); [lra|]. replace (fst S) with 0 by lra. ring.
  - apply is_derive_scal. apply (is_derive_minus (fun t => t ^ 2) (fun t => t * Rabs t)); [|apply derive_tabs].
    apply is_derive_Reals. replace (2 * fst S) with (INR 2 * fst S ^ pred 2) by (cbn; ring). apply derivable_pt_lim_pow.
Qed.
Lemma track_Rho rho s : RhoBlending rho = Ok s -> sys_tracks (dRho rho) s.
Proof.
  unfold RhoBlending. intros E. injection E as <-.
  assert (K : forall fa fb a b q, dual_of fa a -> dual_of fb b -> drho_root rho a b = Ok q -> dtrack (fun s => rho_root rho (fa s) (fb s)) q).
  { intros fa fb a b q Ha Hb E. unfold drho_root in E. apply bind_ok in E as (c & Ec & E). unfold rho_root. rewrite Ec. cbn [bind].
    pose proof (d_add _ _ _ _ (d_sq _ _ Ha) (d_sq _ _ Hb)) as Hr. pose proof (d_sub _ _ _ _ Hr (d_const (rho ^ 2))) as Hs.
    exact (t_sqrt _ _ _ (d_add _ _ _ _ Hr (d_fold c _ _ Hs)) E). }
  split; intros fa fb a b q Ha Hb E; cbn in E; apply bind_ok in E as (r & Er & E); injection E as <-; cbn; unfold rho_conj, rho_disj;
    (apply (t_bind _ r); [exact (K _ _ _ _ _ Ha Hb Er)|]); intros phi D; apply t_ok; first [apply d_sub; [apply d_add|]; assumption|apply d_add; [apply d_add|]; assumption].
Qed.

(** ** Where the derivatives are finite *)
Lemma finite_RAlpha alpha s : RAlpha alpha = Ok s -> alpha < 1 -> sys_finite (dRAlpha alpha).
Proof.
  unfold RAlpha. intros E H1. apply bind_ok in E as (u0 & Ea & _). unfold assert_ in Ea.
  destruct (Rltb (-1) alpha) eqn:EL; [|discriminate]. apply Rltb_true in EL.
  intros a b NZ. pose proof (Dalpha_pos alpha (fst a) (fst b) (conj EL H1) NZ) as P. unfold Dalpha in P.
  cbn. unfold dralpha_root. rewrite fdiv_ok by lra. cbn [bind].
  rewrite dsqrt_fin by (cbn [fst dsub dmul dscal dadd dsq]; nra). cbn [bind]. split; eexists; reflexivity.
Qed.
Lemma sumsq2_nz (a b : R) : a <> 0 \/ b <> 0 -> 0 < a ^ 2 + b ^ 2.
Proof.
  intros [H|H]; pose proof (pow2_gt_0 _ H).
  - pose proof (pow2_ge_0 b). lra.
  - pose proof (pow2_ge_0 a). lra.
Qed.
Lemma finite_RAlphaM m alpha s : RAlphaM m alpha = Ok s -> alpha < 1 -> sys_finite (dRAlphaM m alpha).
Proof.
  unfold RAlphaM. intros E H1. apply bind_ok in E as (u0 & Ea & _). unfold assert_ in Ea.
  destruct (Rltb (-1) alpha) eqn:EL; [|discriminate]. apply Rltb_true in EL.
  intros a b NZ. pose proof (Dalpha_pos alpha (fst a) (fst b) (conj EL H1) NZ) as P. unfold Dalpha in P.
  cbn. rewrite fdiv_ok by lra. cbn [bind]. rewrite dsqrt_fin by (cbn [fst dsub dmul dscal dadd dsq]; nra). cbn [bind].
  assert (Q : 0 < fst (dadd (dsq a) (dsq b))) by (cbn [fst dadd dsq]; apply sumsq2_nz, NZ).
  unfold dpow. rewrite !fpow_pos by exact Q. cbn [bind]. split; eexists; reflexivity.
Qed.
Lemma finite_RP p s : RP p = Ok s -> (2 <= p)%Z -> sys_finite (dRP p).
Proof.
  unfold RP. intros E H2. apply bind_ok in E as (u0 & Ea & _). unfold assert_ in Ea.
  destruct (Z.eqb (p mod 2) 0) eqn:EM; [|discriminate]. apply Z.eqb_eq in EM.
  assert (P0 : forall x, 0 <= powerRZ x p /\ (x <> 0 -> 0 < powerRZ x p)).
  { intros x. assert (powerRZ x p = (x ^ Z.to_nat (p / 2)) ^ 2) as ->.
    - rewrite <- pow_mult, pow_powerRZ. f_equal. rewrite Nat2Z.inj_mul, Z2Nat.id by (apply Z.div_pos; lia).
      rewrite (Z.div_mod p 2) at 1 by lia. lia.
    - split; [apply pow2_ge_0|]. intros H. apply pow2_gt_0, pow_nonzero, H. }
  intros a b NZ.
  assert (D : forall u : du, dzpow u p = Ok (powerRZ (fst u) p, snd u * (IZR p * powerRZ (fst u) (p - 1)))).
  { intros u. unfold dzpow, zpow. destruct (Z_lt_dec p 0); [lia|]. destruct (Z_lt_dec (p - 1) 0); [lia|].
    rewrite (proj2 (Z.eqb_neq p 0)) by lia. destruct (Req_EM_T (fst u) 0); reflexivity. }
  assert (Q : 0 < powerRZ (fst a) p + powerRZ (fst b) p) by (pose proof (P0 (fst a)); pose proof (P0 (fst b)); destruct NZ; intuition lra).
  cbn. unfold drp_root. rewrite pydiv_ok by (apply not_0_IZR; lia). cbn [bind]. rewrite !D. cbn [bind]. unfold dpow.
  rewrite !fpow_pos by exact Q. cbn [bind]. split; eexists; reflexivity.
Qed.
Lemma finite_Rho rho s : RhoBlending rho = Ok s -> 0 < rho -> sys_finite (dRho rho).
Proof.
  intros _ Hr a b NZ. cbn. unfold drho_root. rewrite pydiv_ok by lra. cbn [bind].
  rewrite dsqrt_fin; [cbn [bind]; split; eexists; reflexivity|].
  cbn [fst dadd dsq dmul dscal dsub dabs dconst]. pose proof (sumsq2_nz _ _ NZ) as P.
  set (S := fst a ^ 2 + fst b ^ 2 - rho ^ 2). assert (0 <= 1 / (8 * rho) * S * (S - Rabs S)); [|lra].
  rewrite Rmult_assoc. apply Rmult_le_pos; [apply Rlt_le, Rdiv_lt_0_compat; lra|].
  unfold Rabs. destruct (Rcase_abs S); nra.
Qed.
