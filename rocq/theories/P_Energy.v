(** Proofs about the micromagnetic notebooks: the magnetization and its energies. *)
From Coq Require Import Lra Lia.
From Coquelicot Require Import Coquelicot.
From Verif Require Import Base BaseFacts S_RFun P_Vec M_Quat M_RFun M_Domain M_Tensor M_Calc M_Integrate M_Surface M_Mumag M_Energy
  S_Calc S_Integrate S_Surface S_Mumag S_Energy P_Calc P_Mumag1 T_Mumag.
Import ListNotations.
Open Scope R_scope.

Lemma unit_vec_ok l : 0 < sumsq l -> exists y, unit_vec l = Ok y /\ length y = length l /\ dotR y y = 1.
Proof.
  intros H. assert (N : 0 < normR l).
  { pose proof (BaseFacts.normR_sq l). pose proof (normR_nonneg l). destruct (Req_dec (normR l) 0) as [E|E]; [rewrite E in *; lra|lra]. }
  exists (map (fun e => e / normR l) l). split; [|split; [apply map_length|]].
  - unfold unit_vec. clear H. revert N. generalize (normR l). intros n Hn. induction l as [|a l IH]; [reflexivity|].
    cbn [map sequence]. unfold fdiv at 1. destruct (Req_EM_T n 0); [lra|]. cbn [bind]. rewrite IH. reflexivity.
  - rewrite dotR_self. replace (map (fun e => e / normR l) l) with (S_RFun.vscal (/ normR l) l) by
      (unfold S_RFun.vscal; apply map_ext; intros a; unfold Rdiv; ring).
    rewrite sumsq_vscal. rewrite <- BaseFacts.normR_sq. field. lra.
Qed.
Lemma flower_unit z : length z = 3%nat -> exists v, m_flower z = Ok v /\ length v = 3%nat /\ dotR v v = 1.
Proof.
  destruct z as [|x [|y [|w [|? ?]]]]; try discriminate. intros _.
  destruct (unit_vec_ok [x * w; y * w; 1]) as (v & E & L & D).
  - unfold sumsq. cbn [map sumR fold_right]. nra.
  - exists v. now split.
Qed.
Lemma x_unit z : length z = 3%nat -> exists v, m_x z = Ok v /\ length v = 3%nat /\ dotR v v = 1.
Proof.
  destruct z as [|x [|y [|w [|? ?]]]]; try discriminate. intros _. exists [1; 0; 0].
  split; [reflexivity|]. split; [reflexivity|]. unfold dotR. cbn. ring.
Qed.
Lemma vortex_value x y z : x <> 0 \/ z <> 0 -> m_vortex [x; y; z] =
  let r := sqrt (x ^ 2 + z ^ 2) in let k := (r / (14 / 100)) ^ 2 in
  Ok [- z / r * sqrt (1 - exp (-4 * k)); exp (-2 * k); x / r * sqrt (1 - exp (-4 * k))].
Proof.
  intros H. unfold m_vortex. rewrite (Rplus_comm (z ^ 2)). set (r := sqrt (x ^ 2 + z ^ 2)). cbv zeta.
  assert (S0 : 0 < x ^ 2 + z ^ 2).
  { destruct H as [H|H]; [pose proof (pow2_gt_0 x H); pose proof (pow2_ge_0 z)|pose proof (pow2_gt_0 z H); pose proof (pow2_ge_0 x)]; lra. }
  assert (Rp : 0 < r) by (apply sqrt_lt_R0; exact S0).
  assert (RR : r ^ 2 = x ^ 2 + z ^ 2) by (unfold r; apply pow2_sqrt; lra).
  replace (r ^ 2 / (14 / 100) ^ 2) with ((r / (14 / 100)) ^ 2) by (field).
  set (k := (r / (14 / 100)) ^ 2). assert (K : 0 <= k) by apply pow2_ge_0.
  unfold fdiv. destruct (Req_EM_T r 0) as [E0|_]; [lra|]. cbn [bind]. unfold fsqrt.
  assert (E1 : exp (-4 * k) <= 1) by (rewrite <- exp_0; destruct K as [K|K]; [left; apply exp_increasing; lra|right; rewrite <- K; f_equal; ring]).
  destruct (Rlt_dec (1 - exp (-4 * k)) 0) as [E2|_]; [lra|]. cbn [bind].
  set (s := sqrt (1 - exp (-4 * k))). assert (SS : s ^ 2 = 1 - exp (-4 * k)) by (unfold s; apply pow2_sqrt; lra).
  assert (NN : normR [- z / r * s; exp (-2 * k); x / r * s] = 1).
  { unfold normR. cbn [map sumR fold_right].
    replace (- z / r * s * (- z / r * s) + (exp (-2 * k) * exp (-2 * k) + (x / r * s * (x / r * s) + 0))) with 1; [apply sqrt_1|].
    rewrite <- exp_plus. replace (-2 * k + -2 * k) with (-4 * k) by ring.
    replace (- z / r * s * (- z / r * s) + (exp (-4 * k) + (x / r * s * (x / r * s) + 0)))
      with ((x ^ 2 + z ^ 2) / r ^ 2 * s ^ 2 + exp (-4 * k)) by (field; lra).
    rewrite SS, RR. field. lra. }
  unfold unit_vec. rewrite NN. cbn [map sequence]. unfold fdiv. destruct (Req_EM_T 1 0); [lra|]. cbn [bind].
  unfold Rdiv. now rewrite Rinv_1, !Rmult_1_r.
Qed.
Lemma vortex_unit x y z : x <> 0 \/ z <> 0 -> exists v, m_vortex [x; y; z] = Ok v /\ length v = 3%nat /\ dotR v v = 1.
Proof.
  intros H. rewrite vortex_value by exact H. cbv zeta. eexists. split; [reflexivity|]. split; [reflexivity|].
  set (r := sqrt (x ^ 2 + z ^ 2)).
  assert (S0 : 0 < x ^ 2 + z ^ 2).
  { destruct H as [H|H]; [pose proof (pow2_gt_0 x H); pose proof (pow2_ge_0 z)|pose proof (pow2_gt_0 z H); pose proof (pow2_ge_0 x)]; lra. }
  assert (Rp : 0 < r) by (apply sqrt_lt_R0; exact S0).
  assert (RR : r ^ 2 = x ^ 2 + z ^ 2) by (unfold r; apply pow2_sqrt; lra).
  set (k := (r / (14 / 100)) ^ 2). assert (K : 0 <= k) by apply pow2_ge_0.
  assert (E1 : exp (-4 * k) <= 1) by (rewrite <- exp_0; destruct K as [K|K]; [left; apply exp_increasing; lra|right; rewrite <- K; f_equal; ring]).
  set (s := sqrt (1 - exp (-4 * k))). assert (SS : s ^ 2 = 1 - exp (-4 * k)) by (unfold s; apply pow2_sqrt; lra).
  unfold dotR. cbn [map2 sumR fold_right].
  rewrite <- exp_plus. replace (-2 * k + -2 * k) with (-4 * k) by ring.
  replace (- z / r * s * (- z / r * s) + (exp (-4 * k) + (x / r * s * (x / r * s) + 0)))
    with ((x ^ 2 + z ^ 2) / r ^ 2 * s ^ 2 + exp (-4 * k)) by (field; lra).
  rewrite SS, RR. field. lra.
Qed.
Lemma vortex_axis y : m_vortex [0; y; 0] = Err NonFinite.
Proof.
  unfold m_vortex. replace (0 ^ 2 + 0 ^ 2) with 0 by ring. rewrite sqrt_0. unfold fdiv at 1.
  destruct (Req_EM_T 0 0); [reflexivity|lra].
Qed.

Lemma tvec_nth l i : entry (tvec l) [i] = nth i l 0. Proof. reflexivity. Qed.
Lemma tlist_tvec3 l : length l = 3%nat -> tlist (tvec l) = l.
Proof. destruct l as [|a [|b [|c [|? ?]]]]; try discriminate. reflexivity. Qed.
Lemma tlist_length t n : shape t = [n] -> length (tlist t) = n.
Proof. intros E. unfold tlist. rewrite E. cbn. now rewrite map_length, seq_length. Qed.

Definition mag_fun (c : brick) (m0 net : list R -> res (list R)) (i : nat) (x : list R) : R :=
  entry_of (mag c m0 net (tvec x)) [i].
Lemma mag_field_ok xs ys zs c m0 net : Cuboid xs ys zs = Ok c ->
  first xs < final xs -> first ys < final ys -> first zs < final zs ->
  (forall z, length z = 3%nat -> exists p, net z = Ok p /\ length p = 3%nat) ->
  (forall z, length z = 3%nat -> exists v, m0 z = Ok v /\ length v = 3%nat /\ dotR v v = 1) ->
  exists f, rep1 3 3 (mag c m0 net) f /\ unit_field f.
Proof.
  intros HC Hx Hy Hz HN HM. exists (mag_fun c m0 net).
  assert (K : forall t, shape t = [3%nat] -> exists y, mag c m0 net t = Ok (tvec y) /\ length y = 3%nat /\ dotR y y = 1 /\
     mag c m0 net (tvec (tlist t)) = Ok (tvec y)).
  { intros t Ht. pose proof (tlist_length t 3 Ht) as L.
    destruct (cuboid_normalize xs ys zs c (tlist t) HC L) as (N & _).
    destruct (N Hx Hy Hz) as (z & Ez & Lz & _). destruct (HN z Lz) as (p & Ep & Lp). destruct (HM z Lz) as (v & Ev & Lv & Dv).
    assert (G : forall t', shape t' = [3%nat] -> tlist t' = tlist t -> mag c m0 net t' = Ok (tvec (cayley_value p v))).
    { intros t' St Lt. unfold mag. rewrite St, Lt, Ez. cbn [bind ravel]. rewrite Ep. cbn [bind]. rewrite Ev. cbn [bind].
      rewrite cayley_ok by assumption. reflexivity. }
    exists (cayley_value p v). split; [apply G; trivial|]. split; [apply cayley_length; assumption|].
    split; [rewrite cayley_dot by assumption; exact Dv|]. apply G; [cbn; now rewrite L|apply tlist_tvec3; exact L]. }
  split.
  - intros t Ht. destruct (K t Ht) as (y & E & L & D & E'). exists (tvec y). split; [exact E|]. split; [cbn; now rewrite L|].
    intros i Hi. unfold mag_fun. rewrite E'. reflexivity.
  - intros x Lx. destruct (K (tvec x)) as (y & E & L & D & _); [cbn; now rewrite Lx|].
    unfold mag_fun. rewrite E. cbn [entry_of entry tvec hd].
    destruct y as [|a [|b [|d [|? ?]]]]; try discriminate. unfold dotR in D. cbn in D. cbn. lra.
Qed.

(** means *)
Lemma mean_ok l : l <> [] -> mean l = Ok (sumR l / INR (length l)).
Proof.
  intros H. unfold mean, fdiv. destruct (Req_EM_T (INR (length l)) 0) as [E|]; [|reflexivity].
  apply INR_eq with (m := 0%nat) in E. destruct l; [congruence|discriminate].
Qed.
Lemma seq_map_ok {A} (f : A -> res R) g : forall X, (forall x, In x X -> f x = Ok (g x)) -> sequence (map f X) = Ok (map g X).
Proof.
  induction X as [|x X IH]; intros H; [reflexivity|]. cbn [map sequence]. rewrite H by now left. cbn [bind].
  rewrite IH; [reflexivity|]. intros y Hy. apply H. now right.
Qed.
Lemma mean_of_ok {A} (f : A -> res R) g X : X <> [] -> (forall x, In x X -> f x = Ok (g x)) -> mean_of f X = Ok (avg g X).
Proof.
  intros N H. unfold mean_of. rewrite (seq_map_ok f g X H). cbn [bind]. rewrite mean_ok by (destruct X; [congruence|discriminate]).
  unfold avg. now rewrite map_length.
Qed.
Lemma avg_map {A B} (g : B -> A) f X : avg f (map g X) = avg (fun x => f (g x)) X.
Proof. unfold avg. now rewrite map_map, map_length. Qed.

Lemma tdot1_ok f a u t : rep1 3 3 a f -> shape t = [3%nat] -> shape u = [3%nat] ->
  exists y, a t = Ok y /\ tdot1 y u = Ok (along f (tlist u) (tlist t)).
Proof.
  intros Hf Ht Hu. destruct (Hf t Ht) as (y & E & Sy & V). exists y. split; [exact E|]. unfold tdot1. rewrite Sy, Hu. cbn [Nat.eqb].
  f_equal. unfold along, tlist. rewrite Hu. cbn [hd seq map sumR fold_right nth]. rewrite !V by lia. unfold tlist. ring.
Qed.
Lemma exchange_ok m f x : rep1 3 3 m f -> shape x = [3%nat] -> e_exchange m x = Ok (gradient_sq f (tlist x)).
Proof.
  intros Hf Hx. unfold e_exchange. destruct (jacfwd_rep1 3 3 m f Hf x Hx) as (J & E & SJ & V). rewrite E. cbn [bind].
  unfold tbop, bshape. rewrite SJ. cbn [rev app bshape_rev bdim Nat.eqb bind shape]. f_equal.
  unfold tsum. cbn [shape]. unfold gradient_sq, total. cbn [tidx flat_map seq map app sumR fold_right entry bidx bidx_rev rev Nat.eqb].
  rewrite !V by lia. ring.
Qed.

Lemma hyst_ok solver A Ka axis ha X m m' hext f h : points X -> rep1 3 3 m f -> gives (solver m') X h ->
  shape axis = [3%nat] -> shape ha = [3%nat] ->
  exists o, hyst_loss solver A Ka axis ha X m m' hext = Ok o /\
    e_ex o = A * avg (fun p => gradient_sq f (tlist (fst p))) X /\
    e_ani o = Ka * avg (fun p => 1 - along f (tlist axis) (tlist (fst p)) ^ 2) X /\
    e_mag o = - / 2 * interaction X f h /\
    e_ext o = - hext * avg (fun p => along f (tlist ha) (tlist (fst p))) X /\
    e_tot o = e_ex o + e_ani o + e_mag o + e_ext o /\ l_value o = e_tot o + e_mag o.
Proof.
  intros (NX & PX) Hf Hh Ha Hha. unfold hyst_loss.
  assert (NX' : map fst X <> []) by (destruct X; [congruence|discriminate]).
  assert (PX' : forall t, In t (map fst X) -> shape t = [3%nat]).
  { intros t T. apply in_map_iff in T. destruct T as (p & <- & P). now apply PX. }
  unfold exchange_energy. rewrite (mean_of_ok (e_exchange m) (fun t => gradient_sq f (tlist t))) by
    (try exact NX'; intros t T; apply exchange_ok; auto). cbn [bind].
  unfold ani_energy. rewrite (mean_of_ok _ (fun t => 1 - along f (tlist axis) (tlist t) ^ 2)); [|exact NX'|].
  2:{ intros t T. destruct (tdot1_ok f m axis t Hf (PX' t T) Ha) as (y & -> & E). cbn [bind]. rewrite E. reflexivity. }
  cbn [bind].
  unfold mag_energy. rewrite (mean_of_ok _ (fun p => along f (h p) (tlist (fst p)))); [|exact NX|].
  2:{ intros p P. destruct (Hf (fst p) (PX p P)) as (y & -> & Sy & Vy). cbn [bind]. destruct (Hh p P) as (w & -> & Sw & Vw). cbn [bind].
      unfold tdot1. rewrite Sy, Sw. cbn [Nat.eqb]. f_equal. unfold along. cbn [seq map sumR fold_right]. rewrite !Vy, !Vw by lia. ring. }
  cbn [bind].
  unfold ext_energy. rewrite (mean_of_ok _ (fun t => hext * along f (tlist ha) (tlist t))); [|exact NX'|].
  2:{ intros t T. destruct (tdot1_ok f m (tmap (fun e => hext * e) ha) t Hf (PX' t T) Hha) as (y & -> & E). cbn [bind]. rewrite E. f_equal.
      unfold along, tlist. cbn [shape tmap entry]. rewrite Hha. cbn [hd seq map nth]. ring. }
  cbn [bind]. eexists. split; [reflexivity|]. cbn [e_ex e_ani e_mag e_ext e_tot l_value]. rewrite !avg_map.
  split; [reflexivity|]. split; [reflexivity|]. split; [unfold interaction; field|]. split; [|split; ring].
  unfold avg. replace (sumR (map (fun p => hext * along f (tlist ha) (tlist (fst p))) X)) with
    (hext * sumR (map (fun p => along f (tlist ha) (tlist (fst p))) X)); [unfold Rdiv; ring|].
  clear. unfold sumR. induction X as [|p X IH]; cbn [map fold_right]; [ring|]. rewrite <- IH. ring.
Qed.

(** bounds *)
Lemma sum_bound {A} (f : A -> R) lo hi : forall X, (forall x, In x X -> lo <= f x <= hi) ->
  INR (length X) * lo <= sumR (map f X) <= INR (length X) * hi.
Proof.
  induction X as [|x X IH]; intros H; [cbn; lra|]. cbn [map length]. rewrite S_INR. cbn [sumR fold_right].
  pose proof (H x (or_introl eq_refl)). destruct IH; [intros y Y; apply H; now right|]. unfold sumR in *. lra.
Qed.
Lemma avg_bound {A} (f : A -> R) lo hi X : X <> [] -> (forall x, In x X -> lo <= f x <= hi) -> lo <= avg f X <= hi.
Proof.
  intros N H. pose proof (sum_bound f lo hi X H). assert (P : 0 < INR (length X)).
  { apply lt_0_INR. destruct X; [congruence|cbn; lia]. }
  unfold avg. split.
  - apply Rmult_le_reg_r with (INR (length X)); [exact P|]. unfold Rdiv. rewrite Rmult_assoc, Rinv_l by lra. lra.
  - apply Rmult_le_reg_r with (INR (length X)); [exact P|]. unfold Rdiv. rewrite Rmult_assoc, Rinv_l by lra. lra.
Qed.
Lemma avg_nonneg_0 {A} (f : A -> R) : forall X, X <> [] -> (forall x, In x X -> 0 <= f x) -> (avg f X = 0 <-> forall x, In x X -> f x = 0).
Proof.
  intros X N H. assert (P : 0 < INR (length X)).
  { apply lt_0_INR. destruct X; [congruence|cbn; lia]. }
  assert (S0 : sumR (map f X) = 0 <-> forall x, In x X -> f x = 0).
  { clear N P. induction X as [|x X IH]; [cbn; split; [tauto|reflexivity]|].
    cbn [map sumR fold_right]. assert (H' : forall y, In y X -> 0 <= f y) by (intros y Y; apply H; now right).
    pose proof (H x (or_introl eq_refl)) as Hx.
    assert (Q : 0 <= sumR (map f X)).
    { clear IH H Hx. induction X as [|y X IH]; [cbn; lra|]. cbn. pose proof (H' y (or_introl eq_refl)).
      assert (0 <= sumR (map f X)) by (apply IH; intros w W; apply H'; now right). unfold sumR in *. lra. }
    split.
    - intros E y [<-|Y]; [unfold sumR in *; lra|]. apply IH; trivial. unfold sumR in *; lra.
    - intros E. rewrite (E x (or_introl eq_refl)). fold (sumR (map f X)); rewrite (proj2 (IH H')); [ring|]. intros y Y. apply E. now right. }
  rewrite <- S0. unfold avg. split; intros E.
  - apply Rmult_eq_reg_r with (/ INR (length X)); [|apply Rinv_neq_0_compat; lra]. unfold Rdiv in E. lra.
  - rewrite E. unfold Rdiv. ring.
Qed.

Lemma along_bound f u x : unit_field f -> length x = 3%nat -> unit3 u -> -1 <= along f u x <= 1.
Proof.
  intros Hf Lx Hu. pose proof (Hf x Lx) as F. unfold unit3 in Hu. unfold along.
  set (a := f 0%nat x) in *. set (b := f 1%nat x) in *. set (c := f 2%nat x) in *.
  set (p := nth 0 u 0) in *. set (q := nth 1 u 0) in *. set (r := nth 2 u 0) in *. clearbody a b c p q r.
  split.
  - pose proof (pow2_ge_0 (a + p)). pose proof (pow2_ge_0 (b + q)). pose proof (pow2_ge_0 (c + r)). nra.
  - pose proof (pow2_ge_0 (a - p)). pose proof (pow2_ge_0 (b - q)). pose proof (pow2_ge_0 (c - r)). nra.
Qed.
Lemma sq0 a : a ^ 2 = 0 -> a = 0.
Proof. intros H. destruct (Req_dec a 0) as [E|E]; [exact E|]. pose proof (pow2_gt_0 a E). lra. Qed.
Lemma along_one f u x : unit_field f -> length x = 3%nat -> unit3 u ->
  (along f u x = 1 <-> forall i, (i < 3)%nat -> f i x = nth i u 0).
Proof.
  intros Hf Lx Hu. pose proof (Hf x Lx) as F. unfold unit3 in Hu. unfold along. split.
  - intros E. assert (S0 : (f 0%nat x - nth 0 u 0) ^ 2 + (f 1%nat x - nth 1 u 0) ^ 2 + (f 2%nat x - nth 2 u 0) ^ 2 = 0) by nra.
    pose proof (pow2_ge_0 (f 0%nat x - nth 0 u 0)). pose proof (pow2_ge_0 (f 1%nat x - nth 1 u 0)). pose proof (pow2_ge_0 (f 2%nat x - nth 2 u 0)).
    intros [|[|[|i]]] Hi; [| | |lia].
    + assert ((f 0%nat x - nth 0 u 0) ^ 2 = 0) by lra. apply sq0 in H2. lra.
    + assert ((f 1%nat x - nth 1 u 0) ^ 2 = 0) by lra. apply sq0 in H2. lra.
    + assert ((f 2%nat x - nth 2 u 0) ^ 2 = 0) by lra. apply sq0 in H2. lra.
  - intros E. rewrite !E by lia. rewrite <- Hu. ring.
Qed.
Lemma along_minus_one f u x : unit_field f -> length x = 3%nat -> unit3 u ->
  (along f u x = -1 <-> forall i, (i < 3)%nat -> f i x = - nth i u 0).
Proof.
  intros Hf Lx Hu. pose proof (Hf x Lx) as F. unfold unit3 in Hu. unfold along. split.
  - intros E. assert (S0 : (f 0%nat x + nth 0 u 0) ^ 2 + (f 1%nat x + nth 1 u 0) ^ 2 + (f 2%nat x + nth 2 u 0) ^ 2 = 0) by nra.
    pose proof (pow2_ge_0 (f 0%nat x + nth 0 u 0)). pose proof (pow2_ge_0 (f 1%nat x + nth 1 u 0)). pose proof (pow2_ge_0 (f 2%nat x + nth 2 u 0)).
    intros [|[|[|i]]] Hi; [| | |lia].
    + assert ((f 0%nat x + nth 0 u 0) ^ 2 = 0) by lra. apply sq0 in H2. lra.
    + assert ((f 1%nat x + nth 1 u 0) ^ 2 = 0) by lra. apply sq0 in H2. lra.
    + assert ((f 2%nat x + nth 2 u 0) ^ 2 = 0) by lra. apply sq0 in H2. lra.
  - intros E. rewrite !E by lia. replace (-1) with (- (1)) by ring. rewrite <- Hu. ring.
Qed.
Lemma total3_sq (g : nat -> R) x (f : nat -> list R -> R) : g = (fun i => total 3 (fun j => pd j (f i) x ^ 2)) -> forall i, 0 <= g i.
Proof.
  intros -> i. unfold total. cbn [seq map sumR fold_right].
  pose proof (pow2_ge_0 (pd 0 (f i) x)). pose proof (pow2_ge_0 (pd 1 (f i) x)). pose proof (pow2_ge_0 (pd 2 (f i) x)). lra.
Qed.
Lemma gradient_sq_nonneg f x : 0 <= gradient_sq f x.
Proof.
  unfold gradient_sq. pose proof (total3_sq _ x f eq_refl) as G. set (g := fun i => total 3 _) in *.
  unfold total. cbn [seq map sumR fold_right]. pose proof (G 0%nat). pose proof (G 1%nat). pose proof (G 2%nat). lra.
Qed.
Lemma gradient_sq_zero f x : gradient_sq f x = 0 <-> forall i j, (i < 3)%nat -> (j < 3)%nat -> pd j (f i) x = 0.
Proof.
  unfold gradient_sq, total. cbn [seq map sumR fold_right]. split.
  - intros E. assert (P : forall i j, 0 <= pd j (f i) x ^ 2) by (intros; apply pow2_ge_0).
    pose proof (P 0%nat 0%nat). pose proof (P 0%nat 1%nat). pose proof (P 0%nat 2%nat).
    pose proof (P 1%nat 0%nat). pose proof (P 1%nat 1%nat). pose proof (P 1%nat 2%nat).
    pose proof (P 2%nat 0%nat). pose proof (P 2%nat 1%nat). pose proof (P 2%nat 2%nat).
    intros [|[|[|i]]] [|[|[|j]]] Hi Hj; try lia; apply sq0; lra.
  - intros E. rewrite !E by lia. ring.
Qed.
