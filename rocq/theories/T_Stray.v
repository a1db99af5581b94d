(** Properties of the stray field solver of examples/mumag3.py. *)
From Coquelicot Require Import Coquelicot.
From Verif Require Import Base BaseFacts P_Vec S_RFun M_Quat M_RFun M_Domain M_Tensor M_Calc M_Integrate M_Surface M_Mumag M_Stray.
From Verif Require Import S_Calc P_AD P_Calc P_Calc2 S_Integrate P_Integrate1 P_Integrate2 P_Integrate3 S_Model P_Model S_Surface S_Mumag S_Stray.
From Verif Require Import P_Surface1 P_Surface2 P_Surface3 P_Surface4 P_Surface5 P_Mumag1 P_Mumag2 P_Mumag3 P_Mumag4 P_Mumag5 P_Mumag6.
From Verif Require Import T_Integrate T_Mumag P_Stray1 P_Stray2 P_Stray3.

(** ** C102 *)
(** the weights minimise the residual of [laplace phi1 = div m] at the points, and
    have the least norm among all minimising weights *)
Theorem stray_fit : forall svd xs ys zs c W b K X m args M U s VT, Cuboid xs ys zs = Ok c ->
  first xs < final xs -> first ys < final ys -> first zs < final zs ->
  shape W = [K; 3%nat] -> shape b = [K] -> X <> [] ->
  (forall x, In x X -> shape x = [3%nat] /\ inside_box xs ys zs (tlist x)) ->
  rep1 3 3 (fun y => m (y :: args)) M ->
  (forall Q, fit_matrix c W b X = Ok Q -> svd Q = (U, s, VT) /\ is_svd (length X) K Q U s VT) ->
  (forall a, (a < Nat.min (length X) K)%nat -> entry s [a] <> 0) ->
  exists p phi, stray_weights svd c W b X m args = Ok p /\ shape p = [K] /\
    repD 3 len3 [] (phi1 c W b p) (fun _ => phi) /\
    forall q psi, shape q = [K] -> repD 3 len3 [] (phi1 c W b q) (fun _ => psi) ->
      misfit X phi M <= misfit X psi M /\ (misfit X psi M <= misfit X phi M -> square K p <= square K q).
Proof.
  intros svd xs ys zs c W b K X m args M U s VT HC T1 T2 T3 SW Sb HX0 HX Hm HS Hs.
  assert (HT : thick xs ys zs) by (split; auto).
  destruct (weights_ok xs ys zs c W b K HC HT SW Sb X HX0 HX m args M Hm svd U s VT HS Hs) as (p & Ep & Sp & Op).
  exists p. eexists. split; [exact Ep|]. split; [exact Sp|]. split; [apply phi1_pot; eauto|].
  intros q psi Sq Hq. rewrite (misfit_same X psi (pot xs ys zs W b K (fun j => entry q [j])) M).
  - apply Op; auto.
  - intros x Hx. apply HX; auto.
  - eapply repD_unique; eauto. apply (phi1_pot xs ys zs c); auto.
Qed.
Print Assumptions stray_fit.
(** if some weights solve the equation at all points then so do the fitted ones *)
Theorem stray_fit_exact : forall svd xs ys zs c W b K X m args M U s VT q psi, Cuboid xs ys zs = Ok c ->
  first xs < final xs -> first ys < final ys -> first zs < final zs ->
  shape W = [K; 3%nat] -> shape b = [K] -> X <> [] ->
  (forall x, In x X -> shape x = [3%nat] /\ inside_box xs ys zs (tlist x)) ->
  rep1 3 3 (fun y => m (y :: args)) M ->
  (forall Q, fit_matrix c W b X = Ok Q -> svd Q = (U, s, VT) /\ is_svd (length X) K Q U s VT) ->
  (forall a, (a < Nat.min (length X) K)%nat -> entry s [a] <> 0) ->
  shape q = [K] -> repD 3 len3 [] (phi1 c W b q) (fun _ => psi) ->
  (forall x, In x X -> lap_ 3 psi (tlist x) = div_ 3 M (tlist x)) ->
  exists p phi, stray_weights svd c W b X m args = Ok p /\ shape p = [K] /\
    repD 3 len3 [] (phi1 c W b p) (fun _ => phi) /\
    forall x, In x X -> lap_ 3 phi (tlist x) = div_ 3 M (tlist x).
Proof.
  intros svd xs ys zs c W b K X m args M U s VT q psi HC T1 T2 T3 SW Sb HX0 HX Hm HS Hs Sq Hq HE.
  destruct (stray_fit svd xs ys zs c W b K X m args M U s VT HC T1 T2 T3 SW Sb HX0 HX Hm HS Hs) as (p & phi & Ep & Sp & Hp & Op).
  exists p, phi. split; auto. split; auto. split; auto. apply misfit_zero_iff.
  destruct (Op q psi Sq Hq) as (A & _). apply misfit_zero_iff in HE. lra.
Qed.
Print Assumptions stray_fit_exact.
(** a vanishing singular value makes the weights non-finite *)
Theorem stray_fit_singular : forall svd xs ys zs c W b K X m args U s VT a, Cuboid xs ys zs = Ok c ->
  first xs < final xs -> first ys < final ys -> first zs < final zs ->
  shape W = [K; 3%nat] -> shape b = [K] -> X <> [] ->
  (forall x, In x X -> shape x = [3%nat] /\ inside_box xs ys zs (tlist x)) ->
  (forall Q, fit_matrix c W b X = Ok Q -> svd Q = (U, s, VT) /\ is_svd (length X) K Q U s VT) ->
  (a < Nat.min (length X) K)%nat -> entry s [a] = 0 ->
  stray_weights svd c W b X m args = Err NonFinite.
Proof.
  intros svd xs ys zs c W b K X m args U s VT a HC T1 T2 T3 SW Sb HX0 HX HS Ha E.
  eapply weights_zero; eauto. split; auto.
Qed.
Print Assumptions stray_fit_singular.

(** one point, one hidden unit, [m x = (x_0, 0, 0)] *)
Definition one_m (l : list tensor) : res tensor :=
  match l with [x] => Ok (tvec [entry x [0%nat]; 0; 0]) | _ => Err TypeError end.
Example stray_fit_case : exists c w U s VT, Cuboid [0; 1] [0; 1] [0; 1] = Ok c /\
  first [0; 1] < final [0; 1] /\ shape (oneW w) = [1; 3]%nat /\ shape oneb = [1%nat] /\
  (forall x, In x [cube_mid] -> shape x = [3%nat] /\ inside_box [0; 1] [0; 1] [0; 1] (tlist x)) /\
  rep1 3 3 (fun y => one_m [y]) (fun i X => nth i [nth 0 X 0; 0; 0] 0) /\
  (forall Q, fit_matrix c (oneW w) oneb [cube_mid] = Ok Q -> svd1 Q = (U, s, VT) /\ is_svd 1 1 Q U s VT) /\
  (forall a, (a < Nat.min 1 1)%nat -> entry s [a] <> 0).
Proof.
  destruct cuboid_accepts as (c & HC). destruct (one_fit c HC) as (w & U & s & VT & A & B).
  exists c, w, U, s, VT. split; auto. split; [cbn; lra|]. split; [reflexivity|]. split; [reflexivity|].
  split. { intros x [<-|[]]. split; [reflexivity|apply mid_inside]. }
  split; [|auto]. intros t St. eexists. split; [reflexivity|]. split; [reflexivity|]. intros i Hi.
  destruct i as [|[|[|i]]]; try lia; cbn [tvec entry hd nth]; auto. unfold tlist. rewrite St. reflexivity.
Qed.

(** ** C103 *)
(** the whole solver inside the box, both variants *)
Theorem stray_field_solver : forall svd method R0 n xs ys zs c W b K X m args M U s VT x, Cuboid xs ys zs = Ok c ->
  first xs < final xs -> first ys < final ys -> first zs < final zs ->
  shape W = [K; 3%nat] -> shape b = [K] -> X <> [] ->
  (forall x, In x X -> shape x = [3%nat] /\ inside_box xs ys zs (tlist x)) ->
  rep1 3 3 (fun y => m (y :: args)) M ->
  (forall Q, fit_matrix c W b X = Ok Q -> svd Q = (U, s, VT) /\ is_svd (length X) K Q U s VT) ->
  (forall a, (a < Nat.min (length X) K)%nat -> entry s [a] <> 0) ->
  library_rule method R0 -> (1 <= n)%nat -> shape x = [3%nat] -> inside_box xs ys zs (tlist x) ->
  exists p phi G psi dt h1 h2,
    stray_weights svd c W b X m args = Ok p /\ repD 3 len3 [] (phi1 c W b p) (fun _ => phi) /\
    (forall Y, on_boundary xs ys zs Y -> phi Y = 0) /\
    (forall k upper Y, side_interior xs ys zs k upper Y ->
       G Y = total 3 (fun i => M i Y * side_normal k upper i) - normal_derivative k upper phi Y) /\
    (forall Y, box_rule method n xs ys zs (expanded xs ys zs G) Y (psi Y)) /\
    partials 3 phi (tlist x) /\ partials 3 psi (tlist x) /\
    surface_tensors_grad x c (SubInt (Z.of_nat n)) method = Ok dt /\
    stray_field_pre svd c W b X m args x dt = Ok h1 /\
    stray_field svd c W b X (SubInt (Z.of_nat n)) method m args x = Ok h2 /\
    shape h1 = [3%nat] /\ shape h2 = [3%nat] /\
    forall l, (l < 3)%nat -> entry h1 [l] = - pd l phi (tlist x) - pd l psi (tlist x) / (4 * PI) /\ entry h2 [l] = entry h1 [l].
Proof.
  intros svd method R0 n xs ys zs c W b K X m args M U s VT x HC T1 T2 T3 SW Sb HX0 HX Hm HS Hs HL Hn Sx IX.
  assert (HT : thick xs ys zs) by (split; auto).
  destruct (weights_ok xs ys zs c W b K HC HT SW Sb X HX0 HX m args M Hm svd U s VT HS Hs) as (p & Ep & Sp & _).
  assert (Hmp : repD 3 len3 [3%nat] (fun y => m (y :: args)) (fun q => M (hd 0%nat q))).
  { intros t St _. destruct (Hm t St) as (y & Ey & Sy & Vy). exists y. split; auto. split; auto.
    intros r Hr. inversion Hr as [|i n0 r' s' Hi Hr']; subst. inversion Hr'; subst. apply Vy. auto. }
  set (phi := pot xs ys zs W b K (fun j => entry p [j])).
  assert (Hphi : repD 3 len3 [] (phi1 c W b p) (fun _ => phi)) by (apply (phi1_pot xs ys zs c); auto).
  destruct (second_charge xs ys zs c W b p K (fun y => m (y :: args)) M len3 HC T1 T2 T3 SW Sb Sp len3_open Hmp) as (G & phi' & HG & Hphi' & _ & VG).
  assert (Eq : forall Y, length Y = 3%nat -> phi' Y = phi Y) by (eapply repD_unique; eauto).
  assert (PP : partials 3 phi (tlist x)) by (apply pot_partials; auto).
  assert (NX : ~ on_boundary xs ys zs (tlist x)) by (apply inside_off; auto).
  destruct (stray_field_variants method R0 xs ys zs c n _ G _ phi len3 x HL HC Hn
    (ex_intro _ len3 (conj len3_open (conj (boundary_len3 xs ys zs) HG))) len3_open Hphi (tlist_len3 x Sx) PP Sx NX)
    as (psi & dt & h1 & h2 & B & P & E1 & E2 & E3 & S1 & S2 & V).
  exists p, phi, G, psi, dt, h1, h2. split; auto. split; auto.
  split. { intros Y HY. destruct (first_potential xs ys zs c W b p K (tvec Y) HC T1 T2 T3 SW Sb Sp) as (y & z & a & Ey & _ & _ & _ & _ & _ & _ & Z).
           - cbn. rewrite (boundary_len3 xs ys zs Y HY). reflexivity.
           - rewrite tlist_tvec in Z. specialize (Z HY). destruct (Hphi (tvec Y)) as (y' & Ey' & _ & V').
             + cbn. rewrite (boundary_len3 xs ys zs Y HY). reflexivity.
             + rewrite tlist_tvec. apply (boundary_len3 xs ys zs Y HY).
             + rewrite Ey in Ey'. injection Ey' as <-. rewrite tlist_tvec in V'. rewrite <- (V' []); [exact Z|constructor]. }
  split. { intros k upper Y HY. rewrite (proj1 (VG k upper Y HY)). f_equal. unfold normal_derivative. change total with lsum. apply lsum_ext. intros i Hi.
           f_equal. apply pd_same3; auto. apply HY. }
  split; auto. split; auto. split; auto. split; auto.
  split. { unfold stray_field_pre. rewrite Ep. exact E2. }
  split. { unfold stray_field. rewrite Ep. exact E3. }
  auto.
Qed.
Print Assumptions stray_field_solver.
