(** Properties: reverse-mode derivatives of odeint with respect to the initial value and additional arguments. *)
From Coquelicot Require Import Coquelicot.
From Verif Require Import Base BaseFacts M_Tree M_Ode M_RDual S_RDual M_OdeAD S_OdeAD M_OdeADp S_OdeADp P_OdeAD P_OdeAD2 P_OdeADp.

(** ** vjp is the gradient of the sum of the entries of all states weighted with cs.
    F args are the dynamics df(., ., *args), J dp their derivative for the tangent dp of the arguments *)
Theorem odeint_args_gradient (F : tree -> dynamics) (J : tree -> ddynamics) vjp vjpp args y ts cs :
  (forall dp, shape dp = shape args -> dyn_tracks (J dp) (fun s => F (moved s args dp))) ->
  (forall dp, shape dp = shape args -> transposed_yp (J dp) (F args) vjp vjpp (shape y) dp) -> ts <> [] ->
  length cs = length ts -> Forall (fun c => shape c = shape y) cs ->
  (exists b w, odeint_vjp_args (F args) vjp vjpp rk4 prk4 args y ts cs = Ok (b, w) /\ shape b = shape y /\ shape w = shape args /\
     forall dy dp, shape dy = shape y -> shape dp = shape args ->
       exists f, locally 0 (fun s => exists ys, odeint (F (moved s args dp)) (moved s y dy) ts rk4 = Ok ys /\ f s = sumR (map2 tdot cs ys)) /\
         is_derive f 0 (tdot b dy + tdot w dp)) /\
  (exists b w, odeint_vjp_args (F args) vjp vjpp explicit_euler peuler args y ts cs = Ok (b, w) /\ shape b = shape y /\ shape w = shape args /\
     forall dy dp, shape dy = shape y -> shape dp = shape args ->
       exists f, locally 0 (fun s => exists ys, odeint (F (moved s args dp)) (moved s y dy) ts explicit_euler = Ok ys /\ f s = sumR (map2 tdot cs ys)) /\
         is_derive f 0 (tdot b dy + tdot w dp)).
Proof.
  exact (fun HJ H Nt L Hc =>
    conj (args_gradient F J vjp vjpp drk4 rk4 prk4 args y ts cs HJ track_rk4 (fun dp Sd => rk4_transposed_yp (J dp) (F args) vjp vjpp (shape y) dp (H dp Sd)) Nt L Hc)
         (args_gradient F J vjp vjpp deuler explicit_euler peuler args y ts cs HJ track_euler (fun dp Sd => euler_transposed_yp (J dp) (F args) vjp vjpp (shape y) dp (H dp Sd)) Nt L Hc)).
Qed.
Print Assumptions odeint_args_gradient.

(** y' = a y, args = [[2]] *)
Example growth_gradient : exists b w,
  odeint_vjp_args (growth_ode 2) (growth_vjp 2) growth_vjpp rk4 prk4 [[2]] [[1; 3]] [0; 1; 3] [[[0; 0]]; [[1; 0]]; [[2; 5]]] = Ok (b, w) /\ shape b = [2%nat] /\ shape w = [1%nat] /\
  forall dy dp, shape dy = [2%nat] -> shape dp = [1%nat] ->
    exists f, locally 0 (fun s => exists ys, odeint (growth_ode (rate (moved s [[2]] dp))) (moved s [[1; 3]] dy) [0; 1; 3] rk4 = Ok ys /\
      f s = sumR (map2 tdot [[[0; 0]]; [[1; 0]]; [[2; 5]]] ys)) /\ is_derive f 0 (tdot b dy + tdot w dp).
Proof.
  apply (odeint_args_gradient (fun args => growth_ode (rate args)) (fun dp => growth_jvp (2, rate dp)) (growth_vjp 2) growth_vjpp
    [[2]] [[1; 3]] [0; 1; 3] [[[0; 0]]; [[1; 0]]; [[2; 5]]]); [| |discriminate|reflexivity|repeat constructor].
  - intros [|[|d [|]] [|]] E; try discriminate. exact (growth_tracks _ _ (line1_dual 2 d)).
  - intros [|[|d [|]] [|]] E; try discriminate. exact (growth_transposed 2 d [2%nat]).
Qed.
(** one Euler step of y' = a y *)
Example growth_gradient_euler a y t h c : odeint_vjp_args (growth_ode a) (growth_vjp a) growth_vjpp explicit_euler peuler [[a]] [[y]] [t - h; t] [[[0]]; [[c]]] =
  Ok ([[(1 + h * a) * c]], [[h * c * y]]).
Proof.
  unfold odeint_vjp_args. cbn [pscan_steps]. unfold explicit_euler, peuler, growth_ode, growth_vjp, growth_vjpp, tdot, dotR, tree_add, tree_map2, tree_scalar_mul, tree_map1. cbn.
  unfold bcast1. cbn. match goal with |- Ok ([[?a]], [[?u]]) = Ok ([[?b]], [[?w]]) => replace a with b by ring; replace u with w by ring end. reflexivity.
Qed.
