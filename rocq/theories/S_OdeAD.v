(** Specification vocabulary for derivatives of odeint: curves of trees. *)
From Coquelicot Require Import Coquelicot.
From Verif Require Import Base M_Tree M_Ode M_RDual S_RDual M_OdeAD.

(** the entries of a curve of trees are functions of one variable *)
Definition curve := list (list (R -> R)).
Definition point (s : R) (fs : curve) : tree := map (map (fun g => g s)) fs.
(** the pairs hold values and derivatives of the entries at 0 *)
Definition tree_dual (fs : curve) (x : dtree) : Prop := Forall2 (Forall2 dual_of) fs x.
(** a computation that is successful near 0 *)
Definition ttrack (F : R -> res tree) (x : dtree) : Prop :=
  exists fs, tree_dual fs x /\ locally 0 (fun s => F s = Ok (point s fs)).
Definition ltrees (F : R -> res (list tree)) (xs : list dtree) : Prop :=
  exists fss, Forall2 tree_dual fss xs /\ locally 0 (fun s => F s = Ok (map (point s) fss)).
(** J differentiates the dynamics F s = df(., ., *args), in which the additional arguments args may depend on s *)
Definition dyn_tracks (J : ddynamics) (F : R -> dynamics) : Prop :=
  forall fs x ft t p, tree_dual fs x -> dual_of ft t -> J x t = Ok p -> ttrack (fun s => F s (point s fs) (ft s)) p.
Definition step_tracks (D : dstepper) (m : stepper) : Prop :=
  forall J F fs x ft t fd d p, dyn_tracks J F -> tree_dual fs x -> dual_of ft t -> dual_of fd d -> D J x t d = Ok p ->
    ttrack (fun s => m (F s) (point s fs) (ft s) (fd s)) p.
(** the derivative of the dynamics exists for states of this shape and has the same shape *)
Definition dyn_finite (J : ddynamics) (sh : list nat) : Prop :=
  forall x t, dshape x = sh -> exists p, J x t = Ok p /\ dshape p = sh.
(** y + s dy and ts + s dts *)
Definition moved (s : R) (y dy : tree) : tree := map2 (map2 (fun a d => a + s * d)) y dy.
Definition moved1 (s : R) (ts dts : list R) : list R := map2 (fun a d => a + s * d) ts dts.

(** ** Reverse mode *)
Definition tdot (a b : tree) : R := sumR (map2 dotR a b).
Definition values (x : dtree) : tree := map (map fst) x.
Definition tangents (x : dtree) : tree := map (map snd) x.
(** for states of shape sh, J computes the value of df and vjp is the transpose of its derivative in y *)
Definition transposed (J : ddynamics) (df : dynamics) (vjp : rdynamics) (sh : list nat) : Prop :=
  forall x t, dshape x = sh -> exists p, J x (t, 0) = Ok p /\ dshape p = sh /\ df (values x) t = Ok (values p) /\
    forall c, shape c = sh -> exists r, vjp (values x) t c = Ok r /\ shape r = sh /\ tdot r (tangents x) = tdot c (tangents p).
(** the same for one step, with constant times *)
Definition step_transposed (J : ddynamics) (df : dynamics) (vjp : rdynamics) (sh : list nat) (D : dstepper) (m : stepper) (r : rstepper) : Prop :=
  forall x t d, dshape x = sh -> exists p, D J x (t, 0) (d, 0) = Ok p /\ dshape p = sh /\ m df (values x) t d = Ok (values p) /\
    forall c, shape c = sh -> exists b, r df vjp (values x) t d c = Ok b /\ shape b = sh /\ tdot b (tangents x) = tdot c (tangents p).
