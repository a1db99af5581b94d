(** Properties: reverse-mode derivatives of odeint with respect to the initial value and the times. *)
From Coquelicot Require Import Coquelicot.
From Verif Require Import Base BaseFacts M_Tree M_Ode M_RDual S_RDual M_OdeAD S_OdeAD M_OdeADt S_OdeADt P_OdeAD P_OdeAD2 P_OdeADt.

(** ** vjp is the transpose of jvp, if this holds for the dynamics *)
Theorem odeint_vjp_times_sound J df vjp vjpt y dy ts dts cs : transposed_yt J df vjp vjpt (shape y) -> shape dy = shape y -> ts <> [] ->
  length dts = length ts -> length cs = length ts -> Forall (fun c => shape c = shape y) cs ->
  (exists xs b bt, odeint_jvp J y dy ts dts drk4 = Ok xs /\ odeint_vjp_times df vjp vjpt rk4 trk4 y ts cs = Ok (b, bt) /\
     shape b = shape y /\ length bt = length ts /\ tdot b dy + dotR bt dts = sumR (map2 (fun c x => tdot c (tangents x)) cs xs)) /\
  (exists xs b bt, odeint_jvp J y dy ts dts deuler = Ok xs /\ odeint_vjp_times df vjp vjpt explicit_euler teuler y ts cs = Ok (b, bt) /\
     shape b = shape y /\ length bt = length ts /\ tdot b dy + dotR bt dts = sumR (map2 (fun c x => tdot c (tangents x)) cs xs)).
Proof.
  exact (fun H Sy Nt Ld L Hc =>
    conj (odeint_transposed_yt J df vjp vjpt drk4 rk4 trk4 y dy ts dts cs (rk4_transposed_yt J df vjp vjpt (shape y) H) Sy Nt Ld L Hc)
         (odeint_transposed_yt J df vjp vjpt deuler explicit_euler teuler y dy ts dts cs (euler_transposed_yt J df vjp vjpt (shape y) H) Sy Nt Ld L Hc)).
Qed.
Print Assumptions odeint_vjp_times_sound.

(** ** vjp is the gradient of the sum of the entries of all states weighted with cs *)
Theorem odeint_times_gradient J df vjp vjpt y ts cs : dyn_tracks J (fun _ => df) -> transposed_yt J df vjp vjpt (shape y) -> ts <> [] ->
  length cs = length ts -> Forall (fun c => shape c = shape y) cs ->
  (exists b bt, odeint_vjp_times df vjp vjpt rk4 trk4 y ts cs = Ok (b, bt) /\ shape b = shape y /\ length bt = length ts /\
     forall dy dts, shape dy = shape y -> length dts = length ts ->
       exists f, locally 0 (fun s => exists ys, odeint df (moved s y dy) (moved1 s ts dts) rk4 = Ok ys /\ f s = sumR (map2 tdot cs ys)) /\
         is_derive f 0 (tdot b dy + dotR bt dts)) /\
  (exists b bt, odeint_vjp_times df vjp vjpt explicit_euler teuler y ts cs = Ok (b, bt) /\ shape b = shape y /\ length bt = length ts /\
     forall dy dts, shape dy = shape y -> length dts = length ts ->
       exists f, locally 0 (fun s => exists ys, odeint df (moved s y dy) (moved1 s ts dts) explicit_euler = Ok ys /\ f s = sumR (map2 tdot cs ys)) /\
         is_derive f 0 (tdot b dy + dotR bt dts)).
Proof.
  exact (fun HJ H Nt L Hc =>
    conj (times_gradient J df vjp vjpt drk4 rk4 trk4 y ts cs HJ track_rk4 (rk4_transposed_yt J df vjp vjpt (shape y) H) Nt L Hc)
         (times_gradient J df vjp vjpt deuler explicit_euler teuler y ts cs HJ track_euler (euler_transposed_yt J df vjp vjpt (shape y) H) Nt L Hc)).
Qed.
Print Assumptions odeint_times_gradient.

Example square_times_gradient : exists b bt,
  odeint_vjp_times square_ode square_vjp square_vjpt rk4 trk4 [[1; 2]] [0; 1; 3] [[[0; 0]]; [[1; 0]]; [[2; 5]]] = Ok (b, bt) /\ shape b = [2%nat] /\ length bt = 3%nat /\
  forall dy dts, shape dy = [2%nat] -> length dts = 3%nat ->
    exists f, locally 0 (fun s => exists ys, odeint square_ode (moved s [[1; 2]] dy) (moved1 s [0; 1; 3] dts) rk4 = Ok ys /\
      f s = sumR (map2 tdot [[[0; 0]]; [[1; 0]]; [[2; 5]]] ys)) /\ is_derive f 0 (tdot b dy + dotR bt dts).
Proof.
  apply (odeint_times_gradient square_jvp square_ode square_vjp square_vjpt [[1; 2]] [0; 1; 3] [[[0; 0]]; [[1; 0]]; [[2; 5]]]);
    [exact square_tracks|apply square_transposed_yt|discriminate|reflexivity|repeat constructor].
Qed.
(** one Euler step of y' = y ** 2 + t *)
Example square_times_euler y t h c : odeint_vjp_times square_ode square_vjp square_vjpt explicit_euler teuler [[y]] [t - h; t] [[[0]]; [[c]]] =
  Ok ([[(1 + 2 * y * h) * c]], [- ((y * y + t) * c); h * c + (y * y + t) * c]).
Proof.
  unfold odeint_vjp_times. cbn [tscan_steps]. unfold explicit_euler, teuler, square_ode, square_vjp, square_vjpt, tsum, tree_add, tree_map2, tree_scalar_mul, tree_map1. cbn.
  unfold bcast1. cbn. match goal with |- Ok ([[?a]], [?u; ?v]) = Ok ([[?b]], [?w; ?z]) => replace a with b by ring; replace u with w by ring; replace v with z by ring end. reflexivity.
Qed.
