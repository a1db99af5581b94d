(** C92-C94: volumes, arrays of samples, the classes Sphere, Disk and Annulus. *)
From Coquelicot Require Import Coquelicot.
From Verif Require Import Base BaseFacts S_RFun M_Tensor M_Domain S_Model S_Domain T_Domain P_Vec P_Domain4 P_Surface1 M_Batch S_Batch P_Batch P_Batch2.

(** ** C92: support() is the volume *)
Theorem hypercube_support_volume : forall l u h, Hypercube l u = Ok h ->
  hc_support h = volume_integral l u (fun _ => 1).
Proof. exact hypercube_volume. Qed.
Print Assumptions hypercube_support_volume.
Example hypercube_support_case : exists h, Hypercube [0; 1] [2; 4] = Ok h /\ hc_support h = 6.
Proof. eexists. split; [reflexivity|]. cbn. ring. Qed.

Theorem round_supports :
  (forall r o d, Spherical (A0 r) o = Ok d -> 0 <= r -> Disk_support d = disk_area r) /\
  (forall r o d, Spherical (A0 r) o = Ok d -> 0 <= r -> Sphere_support d = ball_volume r) /\
  (forall r1 r2 o d, Annulus (A0 r1) (A0 r2) o = Ok d -> 0 <= r1 -> 0 <= r2 ->
     Annulus_support d = disk_area r2 - disk_area r1).
Proof.
  repeat split.
  - intros r o d H Hr. apply Spherical_iff in H as (r' & o' & E & -> & ->). injection E as <-. rewrite disk_area_ok; auto.
  - intros r o d H Hr. apply Spherical_iff in H as (r' & o' & E & -> & ->). injection E as <-. rewrite ball_volume_ok; auto.
  - intros r1 r2 o d H H1 H2. apply Annulus_iff in H as (a & b & o' & E1 & E2 & -> & ->). injection E1 as <-. injection E2 as <-.
    rewrite !disk_area_ok by auto. unfold Annulus_support, annulus_support. cbn [a_r1 a_r2]. ring.
Qed.
Print Assumptions round_supports.
Example round_supports_case : exists d, Spherical (A0 2) (A1 [0; 0]) = Ok d /\ Disk_support d = 4 * PI.
Proof. eexists. split; [reflexivity|]. unfold Disk_support, disk_support. cbn [s_radius]. ring. Qed.

(** ** C93: arrays of samples are transformed sample by sample *)
Theorem hypercube_batch : forall l u h, Hypercube l u = Ok h ->
  pointwise (length l) (length l) (Hypercube_transform h) (fun v => flat (hc_transform h (A1 v))).
Proof. exact hypercube_pointwise. Qed.
Print Assumptions hypercube_batch.

Theorem hypercube_boundary_batch : forall l u h b x, Hypercube l u = Ok h -> proper_box l u -> (2 <= length l)%nat ->
  (length l = 2%nat -> b <> []) -> shape x = b ++ [(length l - 1)%nat] ->
  exists y, Hypercube_transform_bnd h x = Ok y /\ nshape y = b ++ [length l] /\
    forall p, inside b p -> point (length l) y p = flat (hc_transform_bnd h (A1 (sample (length l - 1) x p))).
Proof. exact hypercube_bnd_pointwise. Qed.
Print Assumptions hypercube_boundary_batch.

(** a 1-d array of samples of a rectangle is an array of scalar samples *)
Theorem rectangle_boundary_scalars : forall l u h k x, Hypercube l u = Ok h -> proper_box l u -> length l = 2%nat ->
  shape x = [k] ->
  exists y, Hypercube_transform_bnd h x = Ok y /\ nshape y = [k; 2%nat] /\
    forall i, (i < k)%nat -> point 2 y [i] = flat (hc_transform_bnd h (A1 [entry x [i]])).
Proof. exact hypercube_bnd_scalars. Qed.
Print Assumptions rectangle_boundary_scalars.

Theorem interval_boundary_batch : forall a b h s x, Hypercube [a] [b] = Ok h -> shape x = s ++ [1%nat] ->
  exists y, Hypercube_transform_bnd h x = Ok y /\ nshape y = s ++ [1%nat] /\
    forall p, inside s p -> point 1 y p = flat (hc_transform_bnd h (A1 (sample 1 x p))).
Proof. exact hypercube_bnd_ends. Qed.
Print Assumptions interval_boundary_batch.

Theorem round_batch :
  (forall r1 r2 o d, Annulus (A0 r1) (A0 r2) (A1 o) = Ok d -> length o = 2%nat ->
     pointwise 2 2 (Annulus_transform d) (fun v => transform_annulus (A1 v) r1 r2 o)) /\
  (forall r o d, Spherical (A0 r) (A1 o) = Ok d -> length o = 2%nat ->
     pointwise 2 2 (Disk_transform d) (fun v => transform_circle (A1 v) r o)) /\
  (forall r o d, Spherical (A0 r) (A1 o) = Ok d -> length o = 3%nat ->
     pointwise 3 3 (Sphere_transform d) (fun v => transform_sphere (A1 v) r o) /\
     pointwise 2 3 (Sphere_transform_bnd d) (fun v => transform_sphere_bnd (A1 v) r o)).
Proof.
  repeat split.
  - intros r1 r2 o d H Lo. injection H as <-. exact (batch_annulus r1 r2 o Lo).
  - intros r o d H Lo. injection H as <-. exact (batch_annulus 0 r o Lo).
  - injection H as <-. exact (batch_sphere r o H0).
  - injection H as <-. exact (batch_sphere_bnd r o H0).
Qed.
Print Assumptions round_batch.

Theorem parallelogram_batch : forall a b c p, Parallelogram a b c = Ok p ->
  pointwise 2 (length a) (b_par_transform p) (fun v => par_transform p (A1 v)).
Proof. exact batch_par. Qed.
Print Assumptions parallelogram_batch.

Theorem polyline_batch : forall points n, (2 <= length points)%nat -> Forall (fun z => length z = n) points ->
  (forall k s, shape s = [k] -> exists y, b_polyline s points = Ok y /\ nshape y = [k; n] /\
     forall i, (i < k)%nat -> point n y [i] = transform_polyline (entry s [i]) points) /\
  (forall s, shape s = [] -> exists y, b_polyline s points = Ok y /\ nshape y = [n] /\
     point n y [] = transform_polyline (entry s []) points) /\
  (forall s, (2 <= length (shape s))%nat -> b_polyline s points = Err AssertionError).
Proof.
  intros points n H2 F. split; [|split].
  - intros k s Ss. apply batch_polyline; auto.
  - intros s Ss. apply batch_polyline_scalar; auto.
  - intros s Hs. destruct points as [|p0 rest]; [cbn in H2; lia|].
    eapply batch_polyline_rank; eauto. eapply all_same_forall; eauto.
Qed.
Print Assumptions polyline_batch.

Theorem parallelogram_boundary_batch : forall a b c p, Parallelogram a b c = Ok p ->
  (forall k s, shape s = [k] -> exists y, b_par_transform_bnd p s = Ok y /\ nshape y = [k; length a] /\
     forall i, (i < k)%nat -> point (length a) y [i] = par_transform_bnd p (entry s [i])) /\
  (forall s, shape s = [] -> exists y, b_par_transform_bnd p s = Ok y /\ nshape y = [length a] /\
     point (length a) y [] = par_transform_bnd p (entry s [])) /\
  (forall s, (2 <= length (shape s))%nat -> b_par_transform_bnd p s = Err AssertionError).
Proof.
  intros a b c p H. apply Parallelogram_ok in H as (Lb & Lc & ->).
  apply polyline_batch; [cbn; lia|]. cbn [pa pb pc]. repeat constructor; repeat rewrite map2_length; lia.
Qed.
Print Assumptions parallelogram_boundary_batch.

Theorem triangle_batch : forall a b c, length a = 2%nat -> length b = 2%nat -> length c = 2%nat ->
  pointwise 2 2 (fun x => b_triangle x a b c) (fun v => flat (transform_triangle (A1 v) a b c)).
Proof. exact batch_triangle. Qed.
Print Assumptions triangle_batch.

Theorem includes_batch :
  (forall r o d b x, Spherical (A0 r) (A1 o) = Ok d -> shape x = b ++ [length o] ->
     exists y, Spherical_includes d x = Ok y /\ tshape y = b /\
       forall p, inside b p -> tentry y p = spherical_includes r o (sample (length o) x p)) /\
  (forall l u h b x, Hypercube l u = Ok h -> shape x = b ++ [length l] ->
     exists y, b_hc_includes h x = Ok y /\ tshape y = b ++ [length l] /\
       forall p, inside b p ->
         hc_includes h (sample (length l) x p) = Ok (map (fun k => tentry y (p ++ [k])) (seq 0 (length l)))).
Proof.
  split.
  - intros r o d b x H Sx. injection H as <-. exact (batch_spherical_includes r o b x Sx).
  - intros l u h b x H Sx. apply Hypercube_inv in H as (L & ->). apply batch_hc_includes; auto.
Qed.
Print Assumptions includes_batch.

(** all points of an array lie in the domain *)
Theorem batch_points_inside :
  (forall l u h b x, Hypercube l u = Ok h -> weak_box l u -> shape x = b ++ [length l] ->
     (forall p k, inside b p -> (k < length l)%nat -> 0 <= entry x (p ++ [k])) ->
     exists y, Hypercube_transform h x = Ok y /\ nshape y = b ++ [length l] /\
       forall p, inside b p -> exists q, point (length l) y p = Ok q /\ inside_closed l u q) /\
  (forall r1 r2 o1 o2 d b x, Annulus (A0 r1) (A0 r2) (A1 [o1; o2]) = Ok d -> 0 <= r1 <= r2 -> shape x = b ++ [2%nat] ->
     exists y, Annulus_transform d x = Ok y /\ nshape y = b ++ [2%nat] /\
       forall p, inside b p -> exists q, point 2 y p = Ok q /\ r1 <= dist q [o1; o2] <= r2) /\
  (forall r o1 o2 o3 d b x, Spherical (A0 r) (A1 [o1; o2; o3]) = Ok d -> 0 < r -> shape x = b ++ [3%nat] ->
     exists y, Sphere_transform d x = Ok y /\ nshape y = b ++ [3%nat] /\
       forall p, inside b p -> exists q, point 3 y p = Ok q /\ dist q [o1; o2; o3] < r).
Proof.
  split; [|split].
  - intros l u h b x H W Sx P. destruct (hypercube_batch l u h H b x Sx) as (y & E & Sy & Ey).
    exists y. split; [exact E|]. split; [exact Sy|]. intros p Hp. rewrite Ey by auto.
    destruct (hypercube_transform_in_box l u h (sample (length l) x p) H W) as (q & -> & I & _).
    + apply sample_length.
    + apply Forall_forall. intros e He. unfold sample in He. apply in_map_iff in He as (k & <- & Hk). apply in_seq in Hk. apply P; auto; lia.
    + exists q. auto.
  - intros r1 r2 o1 o2 d b x H Hr Sx. destruct (proj1 round_batch r1 r2 [o1; o2] d H eq_refl b x Sx) as (y & E & Sy & Ey).
    exists y. split; [exact E|]. split; [exact Sy|]. intros p Hp. rewrite Ey by auto. rewrite sample2.
    destruct (annulus_transform_inside (entry x (p ++ [0%nat])) (entry x (p ++ [1%nat])) r1 r2 o1 o2 Hr) as (q & -> & A & _ & B & _).
    exists q. auto.
  - intros r o1 o2 o3 d b x H Hr Sx.
    destruct (proj1 (proj2 (proj2 round_batch) r [o1; o2; o3] d H eq_refl) b x Sx) as (y & E & Sy & Ey).
    exists y. split; [exact E|]. split; [exact Sy|]. intros p Hp. rewrite Ey by auto. rewrite sample3.
    destruct (sphere_transform_inside (entry x (p ++ [0%nat])) (entry x (p ++ [1%nat])) (entry x (p ++ [2%nat])) r o1 o2 o3 Hr)
      as (q & -> & A & _). exists q. auto.
Qed.
Print Assumptions batch_points_inside.
Example batch_case : exists h y, Hypercube [0; 0] [2; 4] = Ok h /\
  Hypercube_transform h (mkT [3%nat; 2%nat] (fun p => 1 / 2)) = Ok y /\ point 2 y [1%nat] = Ok [1; 2].
Proof.
  destruct (hypercube_batch [0; 0] [2; 4] _ eq_refl [3%nat] (mkT [3%nat; 2%nat] (fun p => 1 / 2)) eq_refl) as (y & E & Sy & Ey).
  eexists. exists y. split; [reflexivity|]. split; [exact E|]. specialize (Ey [1%nat]). cbn [length] in Ey.
  rewrite Ey by (repeat constructor). unfold sample. cbn. unfold wrap1. destruct (Rlt_dec 1 (1 / 2)); [lra|].
  f_equal. f_equal; [field|]. f_equal. field.
Qed.

(** the constructors check ranks, the transforms the dimension of the origin *)
Theorem round_constructors :
  (forall r o, (exists d, Spherical r o = Ok d) <-> exists r' o', r = A0 r' /\ o = A1 o') /\
  (forall r o, (forall d, Spherical r o <> Ok d) -> Spherical r o = Err AssertionError) /\
  (forall r1 r2 o, (exists d, Annulus r1 r2 o = Ok d) <-> exists a b o', r1 = A0 a /\ r2 = A0 b /\ o = A1 o') /\
  (forall r1 r2 o, (forall d, Annulus r1 r2 o <> Ok d) -> Annulus r1 r2 o = Err AssertionError).
Proof.
  split; [|split; [|split]].
  - intros r o. split.
    + intros (d & H). apply Spherical_iff in H as (r' & o' & -> & -> & _). eauto.
    + intros (r' & o' & -> & ->). eexists. reflexivity.
  - intros r o H. unfold Spherical in *. destruct r as [r|], o as [|o]; auto. destruct (H (mkSph r o) eq_refl).
  - intros r1 r2 o. split.
    + intros (d & H). apply Annulus_iff in H as (a & b & o' & -> & -> & -> & _). eauto 8.
    + intros (x & y & z & E1 & E2 & E3). subst. eexists. reflexivity.
  - intros r1 r2 o H. unfold Annulus in *. destruct r1 as [a|], r2 as [b|], o as [|o]; auto. destruct (H (mkAnn a b o) eq_refl).
Qed.
Print Assumptions round_constructors.

Theorem round_wrong_origin : forall r r1 r2 o b x,
  (shape x = b ++ [2%nat] -> length o <> 2%nat -> Annulus_transform (mkAnn r1 r2 o) x = Err AssertionError /\
     Disk_transform (mkSph r o) x = Err AssertionError) /\
  (length o <> 2%nat -> Disk_transform_bnd (mkSph r o) x = Err AssertionError) /\
  (shape x = b ++ [3%nat] -> length o <> 3%nat -> Sphere_transform (mkSph r o) x = Err AssertionError) /\
  (shape x = b ++ [2%nat] -> length o <> 3%nat -> Sphere_transform_bnd (mkSph r o) x = Err AssertionError).
Proof.
  intros r r1 r2 o b x. repeat split; intros.
  - eapply wrong_origin_annulus; eauto.
  - eapply wrong_origin_annulus; eauto.
  - eapply wrong_origin_circle_bnd; eauto.
  - eapply wrong_origin_sphere; eauto.
  - eapply wrong_origin_sphere_bnd; eauto.
Qed.
Print Assumptions round_wrong_origin.

(** ** C94: Disk.transform_bnd and axes of size 1 *)
Theorem circle_boundary_batch_partial : forall r o d b x, Spherical (A0 r) (A1 o) = Ok d -> length o = 2%nat ->
  no_ones b -> shape x = b \/ shape x = b ++ [1%nat] ->
  exists y, Disk_transform_bnd d x = Ok y /\ nshape y = b ++ [2%nat] /\
    forall p, inside b p -> point 2 y p =
      transform_circle_bnd (entry x (if Nat.eqb (length (shape x)) (length b) then p else p ++ [0%nat])) r o.
Proof. intros r o d b x H Lo N Sx. injection H as <-. apply batch_circle_bnd; auto. Qed.
Print Assumptions circle_boundary_batch_partial.

(** full claim: an array of k scalar samples gives an array of k points *)
Definition circle_boundary_full : Prop := forall r o d k x, Spherical (A0 r) (A1 o) = Ok d -> length o = 2%nat ->
  shape x = [k] -> exists y, Disk_transform_bnd d x = Ok y /\ nshape y = [k; 2%nat].
(** one sample in an array of length 1 gives a single point, not an array of one point *)
Theorem circle_boundary_batch_refuted : ~ circle_boundary_full.
Proof.
  intros F. destruct (F 1 [0; 0] _ 1%nat (mkT [1%nat] (fun _ => 0)) eq_refl eq_refl eq_refl) as (y & E & Sy).
  destruct (b_circle_bnd_ok (mkT [1%nat] (fun _ => 0)) 1 0 0) as (y' & E' & Sy' & _).
  unfold Disk_transform_bnd in E. cbn [s_radius s_origin] in E. rewrite E' in E. injection E as <-. rewrite Sy' in Sy. discriminate Sy.
Qed.
Print Assumptions circle_boundary_batch_refuted.
