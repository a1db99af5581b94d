(** Property theorems for hysteresis.ipynb and mumag3.ipynb (C124-C126). *)
From Coquelicot Require Import Coquelicot.
From Verif Require Import Base BaseFacts M_Tree M_XR M_Tr S_Tr M_Quat M_RFun M_Domain M_Tensor M_Calc M_Integrate M_Surface M_Mumag M_Energy
  S_Calc S_Integrate S_Surface S_Mumag S_Energy P_Energy P_Energy2 P_Energy3 P_Energy4.
Import ListNotations.
Open Scope R_scope.

(** ** C124 *)
Theorem magnetization_is_unit xs ys zs c m0 net : Cuboid xs ys zs = Ok c ->
  first xs < final xs -> first ys < final ys -> first zs < final zs ->
  (forall z, length z = 3%nat -> exists p, net z = Ok p /\ length p = 3%nat) ->
  (forall z, length z = 3%nat -> exists v, m0 z = Ok v /\ length v = 3%nat /\ dotR v v = 1) ->
  exists f, rep1 3 3 (mag c m0 net) f /\ unit_field f.
Proof. exact (mag_field_ok xs ys zs c m0 net). Qed.
Print Assumptions magnetization_is_unit.

Theorem initial_magnetization z : length z = 3%nat ->
  (exists v, m_x z = Ok v /\ length v = 3%nat /\ dotR v v = 1) /\ (exists v, m_flower z = Ok v /\ length v = 3%nat /\ dotR v v = 1).
Proof. intros H. split; [exact (x_unit z H)|exact (flower_unit z H)]. Qed.
Print Assumptions initial_magnetization.

(** Full statement: [m_vortex] is a unit vector at every point.  Missing: the axis x = z = 0
    (refuted below).  The final normalisation changes nothing. *)
Theorem vortex_partial x y z : x <> 0 \/ z <> 0 ->
  (exists v, m_vortex [x; y; z] = Ok v /\ length v = 3%nat /\ dotR v v = 1) /\
  m_vortex [x; y; z] =
    let r := sqrt (x ^ 2 + z ^ 2) in let k := (r / (14 / 100)) ^ 2 in
    Ok [- z / r * sqrt (1 - exp (-4 * k)); exp (-2 * k); x / r * sqrt (1 - exp (-4 * k))].
Proof. intros H. split; [exact (vortex_unit x y z H)|exact (vortex_value x y z H)]. Qed.
Print Assumptions vortex_partial.
Theorem vortex_axis_refuted y : m_vortex [0; y; 0] = Err NonFinite.
Proof. exact (vortex_axis y). Qed.
Print Assumptions vortex_axis_refuted.

(** the unit cube, the field in direction x and a network with a bias only *)
Example magnetization_case theta : exists f, rep1 3 3 (film_mag theta) f /\ unit_field f.
Proof.
  apply (magnetization_is_unit _ _ _ _ m_x (bias_net theta) cube_ok); try (unfold first, final; simpl; lra).
  - intros z _. eexists. split; reflexivity.
  - intros z Hz. destruct (initial_magnetization z Hz) as (H & _). exact H.
Qed.
Example vortex_case : exists v, m_vortex [3; 1; 4] = Ok v /\ length v = 3%nat /\ dotR v v = 1.
Proof. apply vortex_partial. left. lra. Qed.

(** ** C125 *)
Theorem hysteresis_energies solver A Ka axis ha X m m' hext f h : points X -> rep1 3 3 m f -> gives (solver m') X h ->
  M_Tensor.shape axis = [3%nat] -> M_Tensor.shape ha = [3%nat] ->
  exists o, hyst_loss solver A Ka axis ha X m m' hext = Ok o /\
    e_ex o = A * avg (fun p => gradient_sq f (tlist (fst p))) X /\
    e_ani o = Ka * avg (fun p => 1 - along f (tlist axis) (tlist (fst p)) ^ 2) X /\
    e_mag o = - / 2 * interaction X f h /\
    e_ext o = - hext * avg (fun p => along f (tlist ha) (tlist (fst p))) X /\
    e_tot o = e_ex o + e_ani o + e_mag o + e_ext o /\ l_value o = e_tot o + e_mag o.
Proof. exact (hyst_ok solver A Ka axis ha X m m' hext f h). Qed.
Print Assumptions hysteresis_energies.

(** the energies of a unit magnetization are in their physical ranges, and which
    magnetizations attain the least values *)
Theorem hysteresis_energy_bounds solver A Ka axis ha X m m' hext f h : points X -> rep1 3 3 m f -> unit_field f -> gives (solver m') X h ->
  M_Tensor.shape axis = [3%nat] -> M_Tensor.shape ha = [3%nat] -> unit3 (tlist axis) -> unit3 (tlist ha) -> 0 < A -> 0 < Ka ->
  exists o, hyst_loss solver A Ka axis ha X m m' hext = Ok o /\
    0 <= e_ex o /\ (e_ex o = 0 <-> forall p i j, In p X -> (i < 3)%nat -> (j < 3)%nat -> pd j (f i) (tlist (fst p)) = 0) /\
    0 <= e_ani o <= Ka /\
    (e_ani o = 0 <-> forall p, In p X -> (forall i, (i < 3)%nat -> f i (tlist (fst p)) = nth i (tlist axis) 0) \/
                                         (forall i, (i < 3)%nat -> f i (tlist (fst p)) = - nth i (tlist axis) 0)) /\
    Rabs (e_ext o) <= Rabs hext /\
    (0 < hext -> (e_ext o = - hext <-> forall p i, In p X -> (i < 3)%nat -> f i (tlist (fst p)) = nth i (tlist ha) 0)).
Proof.
  intros PX Hf Hu Hh Sa Sh Ua Uh HA HK. destruct (hyst_ok solver A Ka axis ha X m m' hext f h PX Hf Hh Sa Sh) as (o & E & E1 & E2 & _ & E4 & _).
  exists o. split; [exact E|]. rewrite E1, E2, E4. split; [apply ex_bound; trivial; lra|]. split; [apply ex_zero; trivial|].
  split; [apply ani_bound; trivial; lra|]. split; [apply ani_zero; trivial|]. split; [apply ext_bound; trivial|].
  intros Hp. apply ext_least; trivial.
Qed.
Print Assumptions hysteresis_energy_bounds.

Theorem mumag_energies solver X (m m' : R -> field) (f : R -> nat -> list R -> R) (h : R -> sample -> list R) lams :
  points X -> lams <> [] -> (forall lam, In lam lams -> lam <> 0 /\ rep1 3 3 (m lam) (f lam) /\ gives (solver (m' lam)) X (h lam)) ->
  exists o, mumag_loss solver X m m' lams = Ok o /\
    e_ex o = avg (fun lam => / lam ^ 2 * avg (fun p => gradient_sq (f lam) (tlist (fst p))) X) lams /\
    e_ani o = avg (fun lam => / 10 * avg (fun p => 1 - f lam 2%nat (tlist (fst p)) ^ 2) X) lams /\
    e_mag o = avg (fun lam => - interaction X (f lam) (h lam)) lams /\
    e_tot o = e_ex o + e_ani o + e_mag o /\ l_value o = e_tot o + e_mag o.
Proof. exact (mumag_ok solver X m m' f h lams). Qed.
Print Assumptions mumag_energies.
Theorem mumag_energy_bounds solver X (m m' : R -> field) (f : R -> nat -> list R -> R) (h : R -> sample -> list R) lams :
  points X -> lams <> [] -> (forall lam, In lam lams -> lam <> 0 /\ rep1 3 3 (m lam) (f lam) /\ unit_field (f lam) /\ gives (solver (m' lam)) X (h lam)) ->
  exists o, mumag_loss solver X m m' lams = Ok o /\ 0 <= e_ex o /\ 0 <= e_ani o <= / 10 /\
    e_tot o = e_ex o + e_ani o + e_mag o /\ l_value o = e_tot o + e_mag o.
Proof. exact (mumag_bounds_lemma solver X m m' f h lams). Qed.
Print Assumptions mumag_energy_bounds.

(** the hypotheses hold for the rotated magnetization of a thin film *)
Example energies_case a : exists o, film_loss [a] [a] = Ok o /\ 0 <= e_ani o <= 3 / 4 /\ e_ex o = 0.
Proof.
  destruct (hysteresis_energies film_solver 1 (3 / 4) (tvec [0; 0; 1]) (tvec [1; 0; 0]) film_points (film_mag [a]) (film_mag [a]) 0
    (film_field a) (fun _ => [0; 0; - m3 a]) film_points_ok (film_rep [a]) (film_gives [a]) eq_refl eq_refl) as (o & E & _).
  destruct (film_value [a] [a]) as (o' & E' & _ & _ & X0 & _). exists o'. split; [exact E'|]. split; [|exact X0].
  destruct (hysteresis_energy_bounds film_solver 1 (3 / 4) (tvec [0; 0; 1]) (tvec [1; 0; 0]) film_points (film_mag [a]) (film_mag [a]) 0
    (film_field a) (fun _ => [0; 0; - m3 a]) film_points_ok (film_rep [a])) as (o2 & E2 & _ & _ & B & _); try reflexivity; try lra.
  - intros x _. unfold film_field, m3. cbn [nth]. pose proof (den a). field. exact H.
  - exact (film_gives [a]).
  - unfold unit3. cbn. ring.
  - unfold unit3. cbn. ring.
  - unfold film_loss in E'. rewrite E' in E2. injection E2 as <-. exact B.
Qed.

(** ** C126 *)
(** Full statement: the gradient of the loss is the gradient of the value it returns, so that
    TR minimises it.  What holds: along any curve of parameters the gradient is that of
    [e_tot], provided the stray field is reciprocal; the derivative of the returned value is
    larger by that of [e_mag]. *)
Theorem hysteresis_gradient_partial solver A Ka axis ha X hext (m : R -> field) (f : R -> nat -> list R -> R) (h : R -> sample -> list R) t :
  let loss s u := hyst_loss solver A Ka axis ha X (m s) (m u) hext in
  points X -> (forall s, rep1 3 3 (m s) (f s)) -> (forall s, gives (solver (m s)) X (h s)) ->
  M_Tensor.shape axis = [3%nat] -> M_Tensor.shape ha = [3%nat] ->
  ex_derive (fun s => out_of (fun o => e_ex o + e_ani o + e_ext o) (loss s t)) t ->
  (forall s u, interaction X (f s) (h u) = interaction X (f u) (h s)) -> differentiable_pt (fun s u => interaction X (f s) (h u)) t t ->
  Derive (fun s => out_of l_value (loss s t)) t = Derive (fun s => out_of e_tot (loss s s)) t /\
  Derive (fun s => out_of l_value (loss s s)) t = Derive (fun s => out_of l_value (loss s t)) t + Derive (fun s => out_of e_mag (loss s s)) t.
Proof. exact (hyst_gradient_lemma solver A Ka axis ha X hext m f h t). Qed.
Print Assumptions hysteresis_gradient_partial.

(** the hypotheses hold for the thin film *)
Example gradient_case t :
  Derive (fun s => out_of l_value (film_loss [s] [t])) t = Derive (fun s => out_of e_tot (film_loss [s] [s])) t /\
  Derive (fun s => out_of l_value (film_loss [s] [s])) t =
    Derive (fun s => out_of l_value (film_loss [s] [t])) t + Derive (fun s => out_of e_mag (film_loss [s] [s])) t.
Proof.
  apply (hysteresis_gradient_partial film_solver 1 (3 / 4) (tvec [0; 0; 1]) (tvec [1; 0; 0]) film_points 0 (fun s => film_mag [s]) film_field
    (fun s _ => [0; 0; - m3 s]) t film_points_ok (fun s => film_rep [s]) (fun s => film_gives [s]) eq_refl eq_refl).
  - apply (ex_derive_ext (fun s => 3 / 4 * (1 - m3 s ^ 2))).
    + assert (V : forall s, 3 / 4 * (1 - m3 s ^ 2) = out_of (fun o => e_ex o + e_ani o + e_ext o) (film_loss [s] [t])).
      { intros s. destruct (film_value [s] [t]) as (o & -> & _ & _ & E1 & E2 & _ & E3). cbn [out_of]. rewrite E1, E2, E3. cbn [nth]. ring. }
      exact V.
    + assert (X : ex_derive m3 t) by (eexists; apply m3_derive). auto_derive. repeat split; exact X.
  - intros s u. rewrite !film_interaction. ring.
  - eexists. eexists. apply (film_differentiable t).
Qed.

(** a thin film: TR with the options of the notebook rejects every step, although the
    gradient is 48/125 and a smaller total energy is near *)
Theorem hysteresis_tr_stuck_refuted :
  (forall n, exists s, tr_run hyst_tr (stop_objective film_loss) n ([[Fin (1 / 2)]], init_state hyst_tr (stop_objective film_loss) [[Fin (1 / 2)]] None)
     = Ok ([[Fin (1 / 2)]], s) /\ M_Tr.error s = Fin (48 / 125)) /\
  make_tr hyst_tr = Ok hyst_tr /\ tol hyst_tr < 48 / 125 /\
  (forall a, 1 / 2 < a < 2 -> out_of e_tot (film_loss [a] [a]) < out_of e_tot (film_loss [1 / 2] [1 / 2])).
Proof.
  split; [exact film_stuck_lemma|]. split; [unfold make_tr; cbn; destruct (Rlt_dec (1 / 4) (1 / 5)); [lra|reflexivity]|].
  split; [cbn; lra|]. intros a Ha. destruct (film_value [a] [a]) as (o & -> & _ & E & _). destruct (film_value [1 / 2] [1 / 2]) as (o' & -> & _ & E' & _).
  cbn [out_of]. rewrite E, E'. cbn [nth]. pose proof (m3_grows a Ha). assert (M1 : m3 (1 / 2) = 4 / 5) by (unfold m3; field). rewrite M1. nra.
Qed.
Print Assumptions hysteresis_tr_stuck_refuted.
