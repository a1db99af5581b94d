(** Proofs about the notebooks, part 1: pacman and hard constraints. *)
From Coquelicot Require Import Coquelicot.
From Verif Require Import Base BaseFacts M_Quat S_Quat P_Quat M_RFun S_RFun P_RFun1 P_Vec P_RFun2 M_Solid S_Solid
  P_Solid1 P_Solid2 P_Solid3 P_Solid4 P_Solid5 P_Solid6 M_Notebook.

(** *** Half spaces *)
Lemma seq_fdiv c l : c <> 0 -> sequence (map (fun a => fdiv a c) l) = Ok (map (fun a => a / c) l).
Proof.
  intros Hc. induction l as [|a l IH]; [reflexivity|]. simpl. unfold fdiv at 1. destruct (Req_EM_T c 0); [tauto|].
  simpl. rewrite IH. reflexivity.
Qed.
Definition unit_of (n : list R) : list R := vscal (/ normR n) n.
Lemma unit_of_norm n : normR n <> 0 -> normR (unit_of n) = 1.
Proof.
  intros H. unfold unit_of, vscal. rewrite normR_scal. pose proof (normR_nonneg n).
  rewrite Rabs_right by (left; apply Rinv_0_lt_compat; lra). field. auto.
Qed.
Lemma half_space_value n x : normR n <> 0 -> length x = length n -> half_space n (A1 x) = Ok (dotR x (unit_of n)).
Proof.
  intros H L. unfold half_space, nb_unit_vec. rewrite seq_fdiv by auto. cbn [bind]. rewrite map_length, L, Nat.eqb_refl.
  f_equal. f_equal. unfold unit_of, vscal. apply map_ext. intros a. unfold Rdiv. ring.
Qed.
Lemma half_space_gradient n x : normR n <> 0 -> length x = length n ->
  has_gradient (half_space n) x (dotR x (unit_of n)) (unit_of n).
Proof.
  intros H L. split; [apply half_space_value; auto|]. split; [unfold unit_of; rewrite vscal_length; auto|].
  intros e He. exists 1. split; [lra|]. intros y Hy _. exists (dotR y (unit_of n)). split; [apply half_space_value; congruence|].
  rewrite (dotR_comm (unit_of n)), dotR_vsub by congruence.
  match goal with |- Rabs ?a <= _ => replace a with 0 by ring end. rewrite Rabs_R0. pose proof (edist_nonneg y x). nra.
Qed.
Lemma half_space_good Sys n : normR n <> 0 -> good_prim Sys (length n) (User (half_space n)).
Proof.
  intros H x L. exists (dotR x (unit_of n)). apply grad_cont with (unit_of n). apply half_space_gradient; auto.
Qed.
Lemma half_space_sides n x : normR n <> 0 -> length x = length n ->
  (prim_inside (User (half_space n)) x <-> 0 < dotR x n) /\ (prim_outside (User (half_space n)) x <-> dotR x n < 0).
Proof.
  intros H L. cbn [prim_inside prim_outside]. rewrite half_space_value by auto. unfold unit_of. rewrite (dotR_comm x), dotR_vscal, (dotR_comm n).
  assert (P : 0 < / normR n) by (apply Rinv_0_lt_compat; pose proof (normR_nonneg n); lra).
  split; split.
  - intros (v & E & V). injection E as <-. nra.
  - intros D. eexists. split; [reflexivity|]. nra.
  - intros (v & E & V). injection E as <-. nra.
  - intros D. eexists. split; [reflexivity|]. nra.
Qed.

(** *** Pacman *)
Lemma norm_pos_first (a b c : R) : a <> 0 -> normR [a; b; c] <> 0.
Proof.
  intros Ha E. pose proof (normR_sq [a; b; c]) as S. rewrite E, !sumsq_cons in S. change (sumsq []) with 0 in S.
  pose proof (Rle_0_sqr b). pose proof (Rle_0_sqr c). unfold Rsqr in *. assert (0 < a * a) by nra. lra.
Qed.
Lemma pacman_good_lemma (Sys : rsys -> Prop) s : Sys s -> good Sys 3 (pacman s).
Proof.
  intros N. assert (H1 : normR [1; 0; - (9 / 5)] <> 0) by (apply norm_pos_first; lra).
  assert (H2 : normR [1; 0; 9 / 5] <> 0) by (apply norm_pos_first; lra).
  pose proof (half_space_good Sys _ H1) as G1. pose proof (half_space_good Sys _ H2) as G2.
  cbn [pacman good good_prim good_move ball mouth source length].
  repeat (split; [solve [auto | lra]|]). all: repeat split; auto; try lra.
Qed.

Lemma dot3 a b c x y z : dotR [x; y; z] [a; b; c] = x * a + (y * b + (z * c + 0)).
Proof. reflexivity. Qed.
Lemma norm3_less x y z r : 0 < r -> (normR [x; y; z] < r <-> x ^ 2 + y ^ 2 + z ^ 2 < r ^ 2).
Proof.
  intros Hr. rewrite normR_sumsq, !sumsq_cons. change (sumsq []) with 0.
  replace (x * x + (y * y + (z * z + 0))) with (x ^ 2 + y ^ 2 + z ^ 2) by ring.
  set (q := x ^ 2 + y ^ 2 + z ^ 2). assert (Q : 0 <= q) by (unfold q; pose proof (pow2_ge_0 x); pose proof (pow2_ge_0 y); pose proof (pow2_ge_0 z); lra).
  split; intros H.
  - rewrite <- (sqrt_sqrt q Q). pose proof (sqrt_pos q). simpl. nra.
  - rewrite <- (sqrt_pow2 r) by lra. apply sqrt_lt_1; auto. apply pow2_ge_0.
Qed.
Lemma norm3_greater x y z r : 0 < r -> (r < normR [x; y; z] <-> r ^ 2 < x ^ 2 + y ^ 2 + z ^ 2).
Proof.
  intros Hr. rewrite normR_sumsq, !sumsq_cons. change (sumsq []) with 0.
  replace (x * x + (y * y + (z * z + 0))) with (x ^ 2 + y ^ 2 + z ^ 2) by ring.
  set (q := x ^ 2 + y ^ 2 + z ^ 2). assert (Q : 0 <= q) by (unfold q; pose proof (pow2_ge_0 x); pose proof (pow2_ge_0 y); pose proof (pow2_ge_0 z); lra).
  split; intros H.
  - rewrite <- (sqrt_sqrt q Q). pose proof (sqrt_pos q). simpl. nra.
  - rewrite <- (sqrt_pow2 r) by lra. apply sqrt_lt_1; auto. apply pow2_ge_0.
Qed.

Definition near3 (x y z a b c r : R) : Prop := (x - a) ^ 2 + (y - b) ^ 2 + (z - c) ^ 2 < r ^ 2.
Definition far3 (x y z a b c r : R) : Prop := r ^ 2 < (x - a) ^ 2 + (y - b) ^ 2 + (z - c) ^ 2.
Lemma ball_inside x y z a b c r : 0 < r -> (inside (ball r [a; b; c]) [x; y; z] <-> near3 x y z a b c r).
Proof. intros H. unfold ball. cbn [inside back prim_inside]. unfold vsub. cbn [map2]. apply norm3_less. auto. Qed.
Lemma ball_outside x y z a b c r : 0 < r -> (outside (ball r [a; b; c]) [x; y; z] <-> far3 x y z a b c r).
Proof. intros H. unfold ball. cbn [outside back prim_outside]. unfold vsub. cbn [map2]. apply norm3_greater. auto. Qed.
Lemma mouth_sides s x y z :
  (inside (mouth s) [x; y; z] <-> 9 / 5 * Rabs z < x) /\ (outside (mouth s) [x; y; z] <-> x < 9 / 5 * Rabs z).
Proof.
  assert (H1 : normR [1; 0; - (9 / 5)] <> 0) by (apply norm_pos_first; lra).
  assert (H2 : normR [1; 0; 9 / 5] <> 0) by (apply norm_pos_first; lra).
  destruct (half_space_sides _ [x; y; z] H1 eq_refl) as [I1 O1]. destruct (half_space_sides _ [x; y; z] H2 eq_refl) as [I2 O2].
  rewrite dot3 in *. cbn [inside outside mouth op2_inside op2_outside]. rewrite I1, I2, O1, O2.
  unfold Rabs. destruct (Rcase_abs z); split; split; intros H; try lra.
  all: destruct (Rlt_dec (x * 1 + (y * 0 + (z * - (9 / 5) + 0))) 0); [left; lra|right; lra].
Qed.
Lemma pacman_inside s x y z : inside (pacman s) [x; y; z] <->
  (x ^ 2 + y ^ 2 + z ^ 2 < 1 /\ x < 9 / 5 * Rabs z) \/ near3 x y z (2 / 5) (- (1 / 2)) (3 / 5) (1 / 4) \/
  near3 x y z (2 / 5) (1 / 2) (3 / 5) (1 / 4) \/ near3 x y z 1 0 0 (3 / 20) \/ near3 x y z 2 0 0 (3 / 20).
Proof.
  unfold pacman. cbv zeta. cbn [inside op2_inside]. fold (outside (mouth s)).
  rewrite !ball_inside by lra. rewrite (proj2 (mouth_sides s x y z)). cbn [prim_inside]. rewrite norm3_less by lra.
  rewrite pow1. tauto.
Qed.
Lemma pacman_outside s x y z : outside (pacman s) [x; y; z] <->
  (1 < x ^ 2 + y ^ 2 + z ^ 2 \/ 9 / 5 * Rabs z < x) /\ far3 x y z (2 / 5) (- (1 / 2)) (3 / 5) (1 / 4) /\
  far3 x y z (2 / 5) (1 / 2) (3 / 5) (1 / 4) /\ far3 x y z 1 0 0 (3 / 20) /\ far3 x y z 2 0 0 (3 / 20).
Proof.
  unfold pacman. cbv zeta. cbn [outside op2_outside]. fold (inside (mouth s)).
  rewrite !ball_outside by lra. rewrite (proj1 (mouth_sides s x y z)). cbn [prim_outside]. rewrite norm3_greater by lra.
  rewrite pow1. tauto.
Qed.
Lemma pacman_regular s x : regular (pacman s) x.
Proof. cbn. tauto. Qed.

(** *** Hard constraints *)
Lemma hard_value g f net x b w : g (A1 x) = Ok b -> f (A1 x) = Ok 0 -> net (A1 x) = Ok w ->
  hard_constraint g f net (A1 x) = Ok b.
Proof. intros E1 E2 E3. unfold hard_constraint. rewrite E1, E2, E3. cbn. f_equal. ring. Qed.


Lemma hard_gradient g f net x b gb n w : has_gradient g x b gb -> has_gradient f x 0 n -> continuous_adf net x w ->
  has_gradient (hard_constraint g f net) x b (vadd gb (vscal w n)).
Proof.
  intros (Eg & Lg & Hg) (Ef & Ln & Hf) (Ew & Hw). split; [eapply hard_value; eauto|].
  split; [unfold vadd; rewrite map2_length, vscal_length; lia|]. intros e He.
  set (N := normR n). assert (HN : 0 <= N) by apply normR_nonneg.
  set (M := Rabs w + 1). assert (HM : 0 < M) by (unfold M; pose proof (Rabs_pos w); lra).
  destruct (Hg (e / 3) ltac:(lra)) as (d1 & D1 & B1).
  destruct (Hf (e / 3 / M) ltac:(apply Rdiv_lt_0_compat; lra)) as (d2 & D2 & B2).
  set (e3 := Rmin 1 (e / 3 / (N + 1))). assert (He3 : 0 < e3) by (apply Rmin_pos; [lra|apply Rdiv_lt_0_compat; lra]).
  destruct (Hw e3 He3) as (d3 & D3 & B3).
  exists (Rmin d1 (Rmin d2 d3)). split; [repeat apply Rmin_pos; auto|]. intros y Hy L.
  assert (L1 : edist y x < d1) by (eapply Rlt_le_trans; [exact L|apply Rmin_l]).
  assert (L2 : edist y x < d2) by (eapply Rlt_le_trans; [exact L|]; eapply Rle_trans; [apply Rmin_r|apply Rmin_l]).
  assert (L3 : edist y x < d3) by (eapply Rlt_le_trans; [exact L|]; eapply Rle_trans; [apply Rmin_r|apply Rmin_r]).
  destruct (B1 y Hy L1) as (u & Eu & Qu). destruct (B2 y Hy L2) as (v & Ev & Qv). destruct (B3 y Hy L3) as (z & Ez & Qz).
  exists (u + v * z). split; [unfold hard_constraint; rewrite Eu, Ev, Ez; reflexivity|].
  set (h := vsub y x) in *. change (edist y x) with (normR h) in *.
  rewrite dotR_vadd by (rewrite vscal_length; congruence). rewrite dotR_vscal.
  replace (u + v * z - b - (dotR gb h + w * dotR n h)) with
    ((u - b - dotR gb h) + ((v - 0 - dotR n h) * z + (z - w) * dotR n h)) by ring.
  assert (Cs : Rabs (dotR n h) <= N * normR h) by (apply cauchy_schwarz_norm; unfold h, vsub; rewrite map2_length; lia).
  assert (Zb : Rabs z <= M).
  { unfold M. assert (e3 <= 1) by apply Rmin_l. replace z with ((z - w) + w) by ring.
    eapply Rle_trans; [apply Rabs_triang|]. lra. }
  assert (E3 : e3 * (N + 1) <= e / 3).
  { replace (e / 3) with (e / 3 / (N + 1) * (N + 1)) by (field; lra). apply Rmult_le_compat_r; [lra|apply Rmin_r]. }
  assert (EM : e / 3 / M * M = e / 3) by (field; lra).
  pose proof (normR_nonneg h) as Hh. pose proof (Rabs_pos z). pose proof (Rabs_pos (dotR n h)). pose proof (Rabs_pos (z - w)).
  pose proof (Rabs_pos (v - 0 - dotR n h)).
  eapply Rle_trans; [apply Rabs_triang|]. eapply Rle_trans; [apply Rplus_le_compat_l, Rabs_triang|]. rewrite !Rabs_mult.
  set (A := Rabs (v - 0 - dotR n h)) in *. set (Z := Rabs z) in *. set (W := Rabs (z - w)) in *. set (T := Rabs (dotR n h)) in *.
  assert (P1 : A * Z <= e / 3 / M * normR h * M).
  { apply Rmult_le_compat; auto. }
  assert (P2 : W * T <= e3 * (N * normR h)) by (apply Rmult_le_compat; auto; lra).
  assert (P3 : e3 * (N * normR h) <= e / 3 * normR h).
  { replace (e3 * (N * normR h)) with ((e3 * N) * normR h) by ring. apply Rmult_le_compat_r; auto. lra. }
  replace (e / 3 / M * normR h * M) with ((e / 3 / M * M) * normR h) in P1 by ring. rewrite EM in P1. lra.
Qed.

(** the boundary: neither inside nor outside *)
Lemma solid_zero t n x f : good sign_correct n t -> length x = n -> regular t x -> build t = Ok f ->
  ~ inside t x -> ~ outside t x -> f (A1 x) = Ok 0.
Proof.
  intros G Hx Rg B NI NO. destruct (solid_signed t n G) as (f' & B' & D). assert (f' = f) by congruence. subst f'.
  destruct (D x Hx Rg) as (v & E & P & N). rewrite E. f_equal.
  destruct (Rtotal_order v 0) as [H|[H|H]]; auto; exfalso; [apply NO, N; auto|apply NI, P; lra].
Qed.

Lemma hard_normal t n x f g gb b net w : good normalized_system n t -> length x = n -> regular t x -> smooth t x -> build t = Ok f ->
  has_gradient g x b gb -> continuous_adf net x w -> exists nu q, has_gradient f x 0 nu /\ normR nu = 1 /\
    has_gradient (hard_constraint g f net) x b q /\ dotR q nu = dotR gb nu + w.
Proof.
  intros G Hx Rg S B Hg Hn. destruct (solid_unit t n x f G Hx Rg S B) as (nu & Hnu & Nnu).
  exists nu, (vadd gb (vscal w nu)). split; auto. split; auto. split; [eapply hard_gradient; eauto|].
  assert (length gb = length nu) by (destruct Hg as (_ & L & _), Hnu as (_ & L' & _); congruence).
  rewrite dotR_vadd by (rewrite vscal_length; auto). rewrite dotR_vscal, dotR_self_norm, Nnu. ring.
Qed.
