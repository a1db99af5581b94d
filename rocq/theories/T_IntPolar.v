(** Property C130: integrals over annuli, disks, shells and balls converge. *)
From Coquelicot Require Import Coquelicot.
From Verif Require Import Base BaseFacts S_RFun M_Integrate S_Integrate S_IntPolar P_IntPolar.

(** ** C130 *)
Theorem disk_quadrature_error : forall rule K f F r o1 o2 n1 n2 r_inner phi1 phi2 h L B,
  library_rule rule K -> (2 <= n1)%nat -> (2 <= n2)%nat ->
  0 <= r_inner <= r -> phi1 <= phi2 -> 0 <= L -> tame F [o1; o2] r_inner r L B ->
  (forall p, length p = 2%nat -> f p = Ok (A0 (F p))) ->
  (r - r_inner) / INR (n1 - 1) <= h -> (phi2 - phi1) / INR (n2 - 1) <= h ->
  exists v, integrate_disk f r [o1; o2] (NTup [n1; n2]) r_inner phi1 phi2 rule = Ok (A0 v) /\
    Rabs (v - disk_integral F o1 o2 r_inner r phi1 phi2) <=
      2 * ((2 * L * r * (1 + r) + B) * h * ((r - r_inner) * (phi2 - phi1))).
Proof. exact disk_error. Qed.
Print Assumptions disk_quadrature_error.

Theorem sphere_quadrature_error : forall rule K f F r o1 o2 o3 n1 n2 n3 r_inner phi1 phi2 theta1 theta2 h L B,
  library_rule rule K -> (2 <= n1)%nat -> (2 <= n2)%nat -> (2 <= n3)%nat ->
  0 <= r_inner <= r -> phi1 <= phi2 -> theta1 <= theta2 -> 0 <= L -> tame F [o1; o2; o3] r_inner r L B ->
  (forall p, length p = 3%nat -> f p = Ok (A0 (F p))) ->
  (r - r_inner) / INR (n1 - 1) <= h -> (phi2 - phi1) / INR (n2 - 1) <= h -> (theta2 - theta1) / INR (n3 - 1) <= h ->
  exists v, integrate_sphere f r [o1; o2; o3] (NTup [n1; n2; n3]) r_inner phi1 phi2 theta1 theta2 rule = Ok (A0 v) /\
    Rabs (v - ball_integral F o1 o2 o3 r_inner r phi1 phi2 theta1 theta2) <=
      3 * ((3 * L * r ^ 2 * (1 + r) + B * (2 * r + r ^ 2)) * h * ((r - r_inner) * ((phi2 - phi1) * (theta2 - theta1)))).
Proof. exact ball_error. Qed.
Print Assumptions sphere_quadrature_error.

(** The number of nodes alone decides: with n nodes in every direction the results tend to the
    integrals as n grows. *)
Theorem disk_quadrature_converges : forall rule K f F r o1 o2 r_inner phi1 phi2 L B eps,
  library_rule rule K -> 0 <= r_inner <= r -> phi1 <= phi2 -> 0 <= L -> tame F [o1; o2] r_inner r L B ->
  (forall p, length p = 2%nat -> f p = Ok (A0 (F p))) -> 0 < eps ->
  exists N, forall n, (N <= n)%nat ->
  exists v, integrate_disk f r [o1; o2] (NInt n) r_inner phi1 phi2 rule = Ok (A0 v) /\
    Rabs (v - disk_integral F o1 o2 r_inner r phi1 phi2) < eps.
Proof. exact disk_converges. Qed.
Print Assumptions disk_quadrature_converges.

Theorem sphere_quadrature_converges : forall rule K f F r o1 o2 o3 r_inner phi1 phi2 theta1 theta2 L B eps,
  library_rule rule K -> 0 <= r_inner <= r -> phi1 <= phi2 -> theta1 <= theta2 -> 0 <= L -> tame F [o1; o2; o3] r_inner r L B ->
  (forall p, length p = 3%nat -> f p = Ok (A0 (F p))) -> 0 < eps ->
  exists N, forall n, (N <= n)%nat ->
  exists v, integrate_sphere f r [o1; o2; o3] (NInt n) r_inner phi1 phi2 theta1 theta2 rule = Ok (A0 v) /\
    Rabs (v - ball_integral F o1 o2 o3 r_inner r phi1 phi2 theta1 theta2) < eps.
Proof. exact ball_converges. Qed.
Print Assumptions sphere_quadrature_converges.

(** a function with a kink, on a disk of radius 2 with a hole, away from the origin *)
Example disk_case : tame (fun p => Rabs (nth 0 p 0 - 1)) [1; 3] 1 2 1 2.
Proof. exact disk_kink. Qed.
Example ball_case : tame (fun p => Rabs (nth 2 p 0 - 1)) [0; 0; 1] 0 3 1 3.
Proof. exact ball_kink. Qed.
