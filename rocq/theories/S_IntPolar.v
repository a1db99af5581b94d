(** Specification of integrals over annuli and shells: polar coordinates. *)
From Coquelicot Require Import Coquelicot.
From Verif Require Import Base.

Definition disk_point (o1 o2 rho phi : R) : list R := [rho * cos phi + o1; rho * sin phi + o2].
Definition disk_integral (F : list R -> R) (o1 o2 r_inner r phi1 phi2 : R) : R :=
  RInt (fun rho => RInt (fun phi => F (disk_point o1 o2 rho phi) * rho) phi1 phi2) r_inner r.

Definition ball_point (o1 o2 o3 rho phi theta : R) : list R :=
  [rho * sin phi * cos theta + o1; rho * sin phi * sin theta + o2; rho * cos phi + o3].
Definition ball_integral (F : list R -> R) (o1 o2 o3 r_inner r phi1 phi2 theta1 theta2 : R) : R :=
  RInt (fun rho => RInt (fun phi => RInt (fun theta =>
    F (ball_point o1 o2 o3 rho phi theta) * (rho ^ 2 * sin phi)) theta1 theta2) phi1 phi2) r_inner r.

(** F is bounded by B and Lipschitz (sum of the coordinate distances) on the points whose
    distance from o lies between r_inner and r *)
Definition tame (F : list R -> R) (o : list R) (r_inner r L B : R) : Prop :=
  let near p := length p = length o /\ r_inner <= normR (map2 Rminus p o) <= r in
  (forall p, near p -> Rabs (F p) <= B) /\
  (forall p q, near p -> near q -> Rabs (F p - F q) <= L * sumR (map2 (fun x y => Rabs (x - y)) p q)).
