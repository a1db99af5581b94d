(** Properties: derivatives of odeint. *)
From Coquelicot Require Import Coquelicot.
From Verif Require Import Base BaseFacts M_Tree M_Ode M_RDual S_RDual M_OdeAD S_OdeAD P_OdeAD P_OdeAD2.

(** ** Forward mode: what jvp returns is the derivative along every curve of initial values, times and
    additional arguments; F s are the dynamics with the arguments at s *)
Theorem odeint_jvp_sound J F fs x fts ts xs : dyn_tracks J F -> tree_dual fs x -> Forall2 dual_of fts ts ->
  (dodeint J x ts drk4 = Ok xs -> ltrees (fun s => odeint (F s) (point s fs) (map (fun g => g s) fts) rk4) xs) /\
  (dodeint J x ts deuler = Ok xs -> ltrees (fun s => odeint (F s) (point s fs) (map (fun g => g s) fts) explicit_euler) xs).
Proof.
  exact (fun HJ Hx Ht => conj (odeint_tracked J F drk4 rk4 fs x fts ts xs HJ track_rk4 Hx Ht)
                              (odeint_tracked J F deuler explicit_euler fs x fts ts xs HJ track_euler Hx Ht)).
Qed.
Print Assumptions odeint_jvp_sound.

(** every other integration method with a correct derivative *)
Theorem odeint_method_sound J F D m fs x fts ts xs : dyn_tracks J F -> step_tracks D m ->
  tree_dual fs x -> Forall2 dual_of fts ts -> dodeint J x ts D = Ok xs ->
  ltrees (fun s => odeint (F s) (point s fs) (map (fun g => g s) fts) m) xs.
Proof. exact (odeint_tracked J F D m fs x fts ts xs). Qed.
Print Assumptions odeint_method_sound.

(** jvp exists and is the derivative of odeint(df, y + s dy, ts + s dts, *args(s)) at s = 0 *)
Theorem odeint_jvp_exists J F y dy ts dts : dyn_tracks J F -> dyn_finite J (shape y) -> shape dy = shape y -> length dts = length ts -> ts <> [] ->
  (exists xs, odeint_jvp J y dy ts dts drk4 = Ok xs /\ ltrees (fun s => odeint (F s) (moved s y dy) (moved1 s ts dts) rk4) xs) /\
  (exists xs, odeint_jvp J y dy ts dts deuler = Ok xs /\ ltrees (fun s => odeint (F s) (moved s y dy) (moved1 s ts dts) explicit_euler) xs).
Proof.
  exact (fun HJ Fi Sy Lt Nt => conj (jvp_correct J F drk4 rk4 y dy ts dts HJ track_rk4 Fi (rk4_fin J) Sy Lt Nt)
                                   (jvp_correct J F deuler explicit_euler y dy ts dts HJ track_euler Fi (euler_fin J) Sy Lt Nt)).
Qed.
Print Assumptions odeint_jvp_exists.

Example square_sensitivity : exists xs, odeint_jvp square_jvp [[1; 2]] [[1; 0]] [0; 1; 3] [0; 0; 1] drk4 = Ok xs /\
  ltrees (fun s => odeint square_ode (moved s [[1; 2]] [[1; 0]]) (moved1 s [0; 1; 3] [0; 0; 1]) rk4) xs.
Proof.
  apply (odeint_jvp_exists square_jvp (fun _ => square_ode) [[1; 2]] [[1; 0]] [0; 1; 3] [0; 0; 1]);
    [exact square_tracks|apply square_finite|reflexivity|reflexivity|discriminate].
Qed.
(** one Euler step of y' = y ** 2 + t with respect to y: 1 + 2 y dt, and to the final time *)
Example square_euler y t h dy dt : odeint_jvp square_jvp [[y]] [[dy]] [t - h; t] [0; dt] deuler =
  Ok [[[(y, dy)]]; [[(y + h * (y * y + t), dy + h * (2 * y * dy + dt) + dt * (y * y + t))]]].
Proof.
  unfold odeint_jvp, dodeint. cbn [combine dscan_steps]. unfold deuler, square_jvp, dtree_add, dtree_map2. cbn.
  unfold dbcast1, dadd, dmul, dsub. cbn. 
  match goal with |- Ok [_; [[(?a, ?b)]]] = Ok [_; [[(?c, ?d)]]] => replace a with c by ring; replace b with d by ring end. reflexivity.
Qed.

(** the derivative with respect to an additional argument: y' = a y *)
Example growth_rate : exists xs, odeint_jvp (growth_jvp (2, 5)) [[1; 3]] [[0; 0]] [0; 1; 3] [0; 0; 0] drk4 = Ok xs /\
  ltrees (fun s => odeint (growth_ode (2 + s * 5)) (moved s [[1; 3]] [[0; 0]]) (moved1 s [0; 1; 3] [0; 0; 0]) rk4) xs.
Proof.
  apply (odeint_jvp_exists (growth_jvp (2, 5)) (fun s => growth_ode (2 + s * 5)) [[1; 3]] [[0; 0]] [0; 1; 3] [0; 0; 0]);
    [apply growth_tracks, line1_dual|apply growth_finite|reflexivity|reflexivity|discriminate].
Qed.
Example growth_euler a da y t h : odeint_jvp (growth_jvp (a, da)) [[y]] [[0]] [t - h; t] [0; 0] deuler = Ok [[[(y, 0)]]; [[(y + h * (a * y), h * (da * y))]]].
Proof.
  unfold odeint_jvp, dodeint. cbn [combine dscan_steps]. unfold deuler, growth_jvp, dtree_add, dtree_map2. cbn.
  unfold dbcast1, dadd, dmul, dsub. cbn.
  match goal with |- Ok [_; [[(?a, ?b)]]] = Ok [_; [[(?c, ?d)]]] => replace a with c by ring; replace b with d by ring end. reflexivity.
Qed.

(** ** Reverse mode: what vjp returns is the transpose of jvp, if this holds for the dynamics *)
Theorem odeint_vjp_sound J df vjp y dy ts cs : transposed J df vjp (shape y) -> shape dy = shape y -> ts <> [] ->
  length cs = length ts -> Forall (fun c => shape c = shape y) cs ->
  (exists xs b, odeint_jvp J y dy ts (map (fun _ => 0) ts) drk4 = Ok xs /\ odeint_vjp df vjp rk4 rrk4 y ts cs = Ok b /\
     shape b = shape y /\ tdot b dy = sumR (map2 (fun c x => tdot c (tangents x)) cs xs)) /\
  (exists xs b, odeint_jvp J y dy ts (map (fun _ => 0) ts) deuler = Ok xs /\ odeint_vjp df vjp explicit_euler reuler y ts cs = Ok b /\
     shape b = shape y /\ tdot b dy = sumR (map2 (fun c x => tdot c (tangents x)) cs xs)).
Proof.
  exact (fun H Sy Nt L Hc => conj (odeint_transposed J df vjp drk4 rk4 rrk4 y dy ts cs (rk4_transposed J df vjp (shape y) H) Sy Nt L Hc)
                                  (odeint_transposed J df vjp deuler explicit_euler reuler y dy ts cs (euler_transposed J df vjp (shape y) H) Sy Nt L Hc)).
Qed.
Print Assumptions odeint_vjp_sound.

(** vjp is the gradient, with respect to the initial value, of the sum of the entries of all states weighted with cs *)
Theorem odeint_gradient J df vjp y ts cs : dyn_tracks J (fun _ => df) -> transposed J df vjp (shape y) -> ts <> [] ->
  length cs = length ts -> Forall (fun c => shape c = shape y) cs ->
  (exists b, odeint_vjp df vjp rk4 rrk4 y ts cs = Ok b /\ shape b = shape y /\
     forall dy, shape dy = shape y -> exists f, locally 0 (fun s => exists ys, odeint df (moved s y dy) ts rk4 = Ok ys /\ f s = sumR (map2 tdot cs ys)) /\
       is_derive f 0 (tdot b dy)) /\
  (exists b, odeint_vjp df vjp explicit_euler reuler y ts cs = Ok b /\ shape b = shape y /\
     forall dy, shape dy = shape y -> exists f, locally 0 (fun s => exists ys, odeint df (moved s y dy) ts explicit_euler = Ok ys /\ f s = sumR (map2 tdot cs ys)) /\
       is_derive f 0 (tdot b dy)).
Proof.
  exact (fun HJ H Nt L Hc => conj (vjp_gradient J df vjp drk4 rk4 rrk4 y ts cs HJ track_rk4 (rk4_transposed J df vjp (shape y) H) Nt L Hc)
                                  (vjp_gradient J df vjp deuler explicit_euler reuler y ts cs HJ track_euler (euler_transposed J df vjp (shape y) H) Nt L Hc)).
Qed.
Print Assumptions odeint_gradient.

(** every other integration method with a correct derivative *)
Theorem odeint_method_gradient J df vjp D m r y ts cs : dyn_tracks J (fun _ => df) -> step_tracks D m -> step_transposed J df vjp (shape y) D m r -> ts <> [] ->
  length cs = length ts -> Forall (fun c => shape c = shape y) cs ->
  exists b, odeint_vjp df vjp m r y ts cs = Ok b /\ shape b = shape y /\
    forall dy, shape dy = shape y -> exists f, locally 0 (fun s => exists ys, odeint df (moved s y dy) ts m = Ok ys /\ f s = sumR (map2 tdot cs ys)) /\
      is_derive f 0 (tdot b dy).
Proof. exact (vjp_gradient J df vjp D m r y ts cs). Qed.
Print Assumptions odeint_method_gradient.

Example square_gradient : exists b, odeint_vjp square_ode square_vjp rk4 rrk4 [[1; 2]] [0; 1; 3] [[[0; 0]]; [[1; 0]]; [[2; 5]]] = Ok b /\ shape b = [2%nat] /\
  forall dy, shape dy = [2%nat] -> exists f, locally 0 (fun s => exists ys, odeint square_ode (moved s [[1; 2]] dy) [0; 1; 3] rk4 = Ok ys /\
    f s = sumR (map2 tdot [[[0; 0]]; [[1; 0]]; [[2; 5]]] ys)) /\ is_derive f 0 (tdot b dy).
Proof.
  apply (odeint_gradient square_jvp square_ode square_vjp [[1; 2]] [0; 1; 3] [[[0; 0]]; [[1; 0]]; [[2; 5]]]);
    [exact square_tracks|apply square_transposed|discriminate|reflexivity|repeat constructor].
Qed.
Example square_gradient_euler y t h c : odeint_vjp square_ode square_vjp explicit_euler reuler [[y]] [t - h; t] [[[0]]; [[c]]] = Ok [[(1 + 2 * y * h) * c]].
Proof.
  unfold odeint_vjp. cbn [rscan_steps]. unfold explicit_euler, reuler, square_ode, square_vjp, tree_add, tree_map2, tree_scalar_mul, tree_map1. cbn.
  unfold bcast1. cbn. match goal with |- Ok [[?a]] = Ok [[?b]] => replace a with b by ring end. reflexivity.
Qed.
