(** Properties C23-C33 and C78: domain.py. *)
From Coquelicot Require Import Coquelicot.
From Verif Require Import Base BaseFacts M_RFun S_RFun P_Vec M_Domain S_Domain
  P_Domain1 P_Domain2 P_Domain3 P_Domain4.

(** ** C23 Hypercube.transform *)
Theorem hypercube_transform_in_box : forall l u h x, Hypercube l u = Ok h -> weak_box l u -> length x = length l ->
  Forall (fun e => 0 <= e) x ->
  exists y, hc_transform h (A1 x) = Ok (A1 y) /\ inside_closed l u y /\
    hc_includes h y = Ok (repeat true (length y)).
Proof. exact transform_in_box. Qed.
Print Assumptions hypercube_transform_in_box.

Theorem hypercube_transform_onto : forall l u h y, Hypercube l u = Ok h -> weak_box l u -> inside_closed l u y ->
  exists x, length x = length l /\ Forall (fun e => 0 <= e <= 1) x /\ hc_transform h (A1 x) = Ok (A1 y).
Proof. exact transform_onto. Qed.
Print Assumptions hypercube_transform_onto.

Theorem hypercube_transform_one_to_one : forall l u h x x', Hypercube l u = Ok h -> proper_box l u ->
  length x = length l -> length x' = length l ->
  Forall (fun e => 0 <= e <= 1) x -> Forall (fun e => 0 <= e <= 1) x' ->
  hc_transform h (A1 x) = hc_transform h (A1 x') -> x = x'.
Proof. exact transform_inj. Qed.
Print Assumptions hypercube_transform_one_to_one.

Theorem hypercube_transform_affine : forall l u h x, Hypercube l u = Ok h -> length x = length l ->
  Forall (fun e => 0 <= e <= 1) x ->
  exists y, hc_transform h (A1 x) = Ok (A1 y) /\ length y = length l /\
    forall i, (i < length l)%nat -> nth i y 0 = nth i l 0 + nth i x 0 * edge l u i.
Proof. exact transform_affine. Qed.
Print Assumptions hypercube_transform_affine.

Theorem hypercube_transform_wraps : forall l u h x, Hypercube l u = Ok h -> length x = length l ->
  hc_transform h (A1 x) =
  hc_transform h (A1 (map (fun e => if Rlt_dec 1 e then e - IZR (Int_part e) else e) x)).
Proof. exact transform_wraps. Qed.
Print Assumptions hypercube_transform_wraps.

(** Negative coordinates are not wrapped: the image is outside the box. *)
Theorem hypercube_transform_negative : forall l u h x i y, Hypercube l u = Ok h -> proper_box l u ->
  length x = length l -> (i < length l)%nat -> nth i x 0 < 0 ->
  hc_transform h (A1 x) = Ok (A1 y) -> nth i y 0 < nth i l 0.
Proof. exact transform_negative. Qed.
Print Assumptions hypercube_transform_negative.

Theorem hypercube_rejects :
  (forall l u, length l <> length u <-> Hypercube l u = Err AssertionError) /\
  (forall l u h x, Hypercube l u = Ok h -> length x <> length l -> length x <> 1%nat -> length l <> 1%nat ->
     hc_transform h (A1 x) = Err TypeError).
Proof. exact (conj Hypercube_rejects transform_bad_dim). Qed.
Print Assumptions hypercube_rejects.

Example box_example : Hypercube [0; 1] [2; 5] = Ok (mkHypercube [0; 1] [2; 5]) /\ proper_box [0; 1] [2; 5] /\
  inside_closed [0; 1] [2; 5] [1; 2].
Proof.
  split; [reflexivity|]. split.
  - split; [reflexivity|]. intros [|[|i]] H; simpl in *; try lra; lia.
  - split; [reflexivity|]. split; [reflexivity|]. intros [|[|i]] H; simpl in *; try lra; lia.
Qed.

(** ** C24 Hypercube.transform_bnd *)
Theorem hypercube_bnd_on_boundary : forall l u h x, Hypercube l u = Ok h -> proper_box l u -> (2 <= length l)%nat ->
  length x = (length l - 1)%nat ->
  exists y, hc_transform_bnd h (A1 x) = Ok (A1 y) /\ on_boundary l u y.
Proof.
  intros l u h x Hh Hb Hd Hx. destruct (bnd_on_face l u h x Hh Hb Hd Hx) as (y & k & E & Hk & [I F] & _).
  exists y. split; auto. split; auto. exists (face_axis (length l) k).
  split; [apply Nat.mod_upper_bound; lia|]. destruct (Nat.ltb k (length l)); auto.
Qed.
Print Assumptions hypercube_bnd_on_boundary.

(** [0,1) is divided into consecutive intervals, one per face, with lengths proportional
    to the face areas, and the interval that contains the first coordinate (mod 1)
    determines the face. *)
Theorem hypercube_bnd_face_intervals : forall l u, proper_box l u -> (2 <= length l)%nat ->
  exists c : nat -> R, c 0%nat = 0 /\ c (2 * length l)%nat = 1 /\
  (forall k, (k < 2 * length l)%nat ->
     c (S k) - c k = face_area l u k / sumR (map (face_area l u) (seq 0 (2 * length l))) /\ c k < c (S k)) /\
  (forall h x k y, Hypercube l u = Ok h -> length x = (length l - 1)%nat -> (k < 2 * length l)%nat ->
     c k <= mod1 (nth 0 x 0) < c (S k) -> hc_transform_bnd h (A1 x) = Ok (A1 y) -> on_face l u k y).
Proof. exact bnd_intervals. Qed.
Print Assumptions hypercube_bnd_face_intervals.

Theorem hypercube_bnd_onto : forall l u h y i upper, Hypercube l u = Ok h -> proper_box l u -> (2 <= length l)%nat ->
  length y = length l -> (i < length l)%nat ->
  nth i y 0 = nth i (if upper : bool then u else l) 0 ->
  (forall j, (j < length l)%nat -> j <> i -> nth j l 0 <= nth j y 0 < nth j u 0) ->
  exists x, length x = (length l - 1)%nat /\ Forall (fun e => 0 <= e < 1) x /\
    hc_transform_bnd h (A1 x) = Ok (A1 y).
Proof. exact bnd_onto. Qed.
Print Assumptions hypercube_bnd_onto.

Theorem hypercube_bnd_interval : forall a b h x, Hypercube [a] [b] = Ok h ->
  hc_transform_bnd h (A1 [x]) = Ok (A1 [if Rlt_dec (1 / 2) (mod1 x) then b else a]).
Proof. exact bnd_dim1. Qed.
Print Assumptions hypercube_bnd_interval.

Theorem hypercube_bnd_rejects : forall l u h x, Hypercube l u = Ok h -> length l <> 1%nat ->
  length x <> (length l - 1)%nat -> hc_transform_bnd h (A1 x) = Err AssertionError.
Proof. exact bnd_bad_dim. Qed.
Print Assumptions hypercube_bnd_rejects.

Example bnd_areas : map (face_area [0; 1] [2; 5]) (seq 0 4) = [4; 2; 4; 2].
Proof. unfold face_area, edge, face_axis, prodR. simpl. f_equal; [field|]. f_equal; [field|]. f_equal; [field|]. f_equal; field. Qed.

(** ** C25 Hypercube.normal_vec *)
(** The full statement: every boundary point has a normal. *)
Definition normal_vec_full (rtol atol : R) : Prop :=
  forall l u h x, Hypercube l u = Ok h -> proper_box l u -> on_boundary l u x ->
    exists n, hc_normal_vec h rtol atol x = Some n /\ outward_unit_normal l u x n.

Theorem hypercube_normal_vec_partial : forall l u x rtol atol, proper_box l u -> 0 < atol -> 0 <= rtol ->
  resolved l u rtol atol x -> inside_closed l u x ->
  (forall n, hc_normal_vec (mkHypercube l u) rtol atol x = Some n ->
     outward_unit_normal l u x n /\ on_boundary l u x) /\
  ((exists n, hc_normal_vec (mkHypercube l u) rtol atol x = Some n) <->
     on_boundary l u x /\ ~ ((exists i, touches l x i) /\ (exists j, touches u x j))).
Proof.
  exact (fun l u x rtol atol Hb Ha Hr Hres Hx =>
    conj (normal_vec_sound l u x rtol atol Hb Ha Hr Hres Hx) (normal_vec_defined l u x rtol atol Hb Ha Hr Hres Hx)).
Qed.
Print Assumptions hypercube_normal_vec_partial.

Theorem hypercube_normal_vec_which_face : forall l u x rtol atol, proper_box l u -> 0 < atol -> 0 <= rtol ->
  resolved l u rtol atol x -> inside_closed l u x ->
  (forall i, first_touch l x i -> (forall j, ~ touches u x j) ->
     hc_normal_vec (mkHypercube l u) rtol atol x = Some (axis_vec (length l) i (-1))) /\
  (forall i, first_touch u x i -> (forall j, ~ touches l x j) ->
     hc_normal_vec (mkHypercube l u) rtol atol x = Some (axis_vec (length l) i 1)) /\
  (forall i j, touches l x i -> touches u x j -> hc_normal_vec (mkHypercube l u) rtol atol x = None) /\
  ((forall i, ~ touches l x i) -> (forall i, ~ touches u x i) -> hc_normal_vec (mkHypercube l u) rtol atol x = None).
Proof. exact normal_vec_cases. Qed.
Print Assumptions hypercube_normal_vec_which_face.

Theorem hypercube_normal_vec_outside : forall l u rtol atol x i,
  length x = length l -> length u = length l -> (i < length l)%nat ->
  nth i x 0 <= nth i l 0 - (atol + rtol * Rabs (nth i l 0)) \/
  nth i u 0 + (atol + rtol * Rabs (nth i u 0)) <= nth i x 0 ->
  hc_normal_vec (mkHypercube l u) rtol atol x = None.
Proof. exact normal_vec_outside. Qed.
Print Assumptions hypercube_normal_vec_outside.

Lemma unit_square_resolved x rtol atol : length x = 2%nat -> 0 < atol -> 0 <= rtol -> atol + rtol < 1 ->
  (forall i, (i < 2)%nat -> nth i x 0 = 0 \/ nth i x 0 = 1) -> resolved [0; 0] [1; 1] rtol atol x.
Proof.
  intros L Ha Hr Hs H i Hi. simpl in Hi. specialize (H i Hi).
  assert (nth i [0; 0] 0 = 0 /\ nth i [1; 1] 0 = 1) as [-> ->] by (destruct i as [|[|]]; simpl; auto; lia).
  rewrite Rabs_R0, Rabs_R1. destruct H as [-> | ->].
  - split; auto. right. rewrite Rabs_left by lra. lra.
  - split; auto. right. rewrite Rabs_right by lra. lra.
Qed.
Lemma unit_square_proper : proper_box [0; 0] [1; 1].
Proof. split; auto. intros [|[|i]] H; simpl in *; try lra; lia. Qed.

(** False: at a corner that lies on a lower and on an upper face there is no result. *)
Theorem hypercube_normal_vec_refuted : forall rtol atol, 0 < atol -> 0 <= rtol -> atol + rtol < 1 ->
  ~ normal_vec_full rtol atol.
Proof.
  intros rtol atol Ha Hr Hs F.
  assert (IC : inside_closed [0; 0] [1; 1] [0; 1]).
  { split; [reflexivity|]. split; [reflexivity|]. intros [|[|i]] H; simpl in *; try lra; lia. }
  destruct (F [0; 0] [1; 1] (mkHypercube [0; 0] [1; 1]) [0; 1]) as (n & E & _).
  - reflexivity.
  - apply unit_square_proper.
  - split; auto. exists 0%nat. simpl. split; [lia|auto].
  - destruct (normal_vec_cases [0; 0] [1; 1] [0; 1] rtol atol unit_square_proper Ha Hr) as (_ & _ & C & _); auto.
    + apply unit_square_resolved; auto. intros [|[|i]] H; simpl; auto; lia.
    + rewrite (C 0%nat 1%nat) in E; [discriminate| |]; split; simpl; auto; lia.
Qed.
Print Assumptions hypercube_normal_vec_refuted.

Theorem hypercube_normal_vec_batch_partial : forall h rtol atol xs ns, xs <> [] ->
  Forall2 (fun x n => hc_normal_vec h rtol atol x = Some n) xs ns -> hc_normal_vec_batch h rtol atol xs = Some ns.
Proof. exact batch_pointwise. Qed.
Print Assumptions hypercube_normal_vec_batch_partial.

(** False for batches in general: a sample far outside the box gets a normal when
    another sample of the batch is in the box. *)
Theorem hypercube_normal_vec_batch_refuted :
  let h := mkHypercube [0; 0] [1; 1] in
  hc_normal_vec h (1 / 100000) (1 / 100000000) [0; 5] = None /\
  hc_normal_vec_batch h (1 / 100000) (1 / 100000000) [[0; 1 / 2]; [0; 5]] = Some [[-1; 0]; [-1; 0]].
Proof.
  cbv zeta. split.
  - apply normal_vec_outside with (i := 1%nat); simpl; auto. right. rewrite Rabs_R1. lra.
  - assert (C : forall x, 0 < x -> (x = 1 / 2 \/ x = 5) ->
       hc_normal (mkHypercube [0; 0] [1; 1]) (1 / 100000) (1 / 100000000) [0; x] = [-1; 0]).
    { intros x Hx Hc. unfold hc_normal, isclose. cbn [lb ub map2].
      assert (E1 : Rleb (Rabs (0 - 0)) (1 / 100000000 + 1 / 100000 * Rabs 0) = true)
        by (apply Rleb_true; rewrite Rminus_0_r, Rabs_R0; lra).
      assert (E2 : Rleb (Rabs (x - 0)) (1 / 100000000 + 1 / 100000 * Rabs 0) = false)
        by (apply Rleb_false; rewrite Rminus_0_r, Rabs_R0, Rabs_right; lra).
      assert (E3 : Rleb (Rabs (0 - 1)) (1 / 100000000 + 1 / 100000 * Rabs 1) = false)
        by (apply Rleb_false; rewrite Rabs_R1, Rabs_left; lra).
      assert (E4 : Rleb (Rabs (x - 1)) (1 / 100000000 + 1 / 100000 * Rabs 1) = false).
      { apply Rleb_false. rewrite Rabs_R1. destruct Hc as [-> | ->]; [rewrite Rabs_left|rewrite Rabs_right]; lra. }
      rewrite E1, E2, E3, E4. unfold first_only, cumsum. cbn.
      repeat (destruct (Rlt_dec 1 _); [exfalso; lra|]). f_equal; [ring|]. f_equal; ring. }
    unfold hc_normal_vec_batch.
    assert (D : hc_in_domain (mkHypercube [0; 0] [1; 1]) (1 / 100000) (1 / 100000000) [0; 1 / 2] = true).
    { apply in_domain_true; try lra. split; [reflexivity|]. split; [reflexivity|].
      intros [|[|i]] H; simpl in *; try lra; lia. }
    cbn [existsb]. rewrite D. cbn [orb map]. rewrite !C by (auto; lra). cbn [forallb].
    assert (N : Reqb (normR [-1; 0]) 1 = true).
    { apply Reqb_true. unfold normR, sumR. simpl. replace (-1 * -1 + (0 * 0 + 0)) with 1 by ring. apply sqrt_1. }
    rewrite N. reflexivity.
Qed.
Print Assumptions hypercube_normal_vec_batch_refuted.

Example normal_vec_corner : hc_normal_vec (mkHypercube [0; 0] [1; 1]) (1 / 100000) (1 / 100000000) [0; 0] = Some [-1; 0].
Proof.
  destruct (normal_vec_cases [0; 0] [1; 1] [0; 0] (1 / 100000) (1 / 100000000) unit_square_proper) as (C & _); try lra.
  - apply unit_square_resolved; auto; try lra. intros [|[|i]] H; simpl; auto; lia.
  - split; [reflexivity|]. split; [reflexivity|]. intros [|[|i]] H; simpl in *; try lra; lia.
  - rewrite (C 0%nat); [reflexivity| |].
    + split; [split; simpl; auto; lia|]. intros j H; lia.
    + intros [|[|j]] [H1 H2]; simpl in *; try lra; lia.
Qed.

(** ** C26 Disk, Annulus and Sphere transforms *)
Theorem annulus_transform_inside : forall x0 x1 r1 r2 o1 o2, 0 <= r1 <= r2 ->
  exists y, transform_annulus (A1 [x0; x1]) r1 r2 [o1; o2] = Ok y /\
    r1 <= dist y [o1; o2] /\ (r1 < r2 -> dist y [o1; o2] < r2) /\ dist y [o1; o2] <= r2 /\
    dist y [o1; o2] ^ 2 - r1 ^ 2 = mod1 x1 * (r2 ^ 2 - r1 ^ 2) /\
    y = [dist y [o1; o2] * cos (2 * PI * mod1 x0) + o1; dist y [o1; o2] * sin (2 * PI * mod1 x0) + o2].
Proof. exact annulus_dist. Qed.
Print Assumptions annulus_transform_inside.

Theorem annulus_transform_onto : forall r1 r2 o1 o2 y1 y2, 0 <= r1 < r2 -> r1 <= dist [y1; y2] [o1; o2] < r2 ->
  exists x0 x1, 0 <= x0 < 1 /\ 0 <= x1 < 1 /\ transform_annulus (A1 [x0; x1]) r1 r2 [o1; o2] = Ok [y1; y2].
Proof. exact annulus_onto. Qed.
Print Assumptions annulus_transform_onto.

Theorem annulus_transform_one_to_one : forall r1 r2 o1 o2 x0 x1 z0 z1, 0 <= r1 < r2 ->
  0 <= x0 < 1 -> 0 <= x1 < 1 -> 0 <= z0 < 1 -> 0 <= z1 < 1 -> (0 < r1 \/ 0 < x1) ->
  transform_annulus (A1 [x0; x1]) r1 r2 [o1; o2] = transform_annulus (A1 [z0; z1]) r1 r2 [o1; o2] ->
  x0 = z0 /\ x1 = z1.
Proof. exact annulus_inj. Qed.
Print Assumptions annulus_transform_one_to_one.

Theorem disk_transform_inside : forall x0 x1 r o1 o2, 0 < r ->
  exists y, transform_circle (A1 [x0; x1]) r [o1; o2] = Ok y /\ spherical_includes r [o1; o2] y = true /\
    dist y [o1; o2] ^ 2 / r ^ 2 = mod1 x1.
Proof. exact disk_includes. Qed.
Print Assumptions disk_transform_inside.

Theorem sphere_transform_inside : forall x0 x1 x2 r o1 o2 o3, 0 < r ->
  exists y, transform_sphere (A1 [x0; x1; x2]) r [o1; o2; o3] = Ok y /\
    dist y [o1; o2; o3] < r /\ spherical_includes r [o1; o2; o3] y = true /\
    dist y [o1; o2; o3] ^ 3 / r ^ 3 = mod1 x2 /\
    nth 2 y 0 - o3 = dist y [o1; o2; o3] * (2 * mod1 x0 - 1).
Proof. exact sphere_dist. Qed.
Print Assumptions sphere_transform_inside.

(** all points of the open ball but those straight above the centre *)
Theorem sphere_transform_onto : forall r o1 o2 o3 y1 y2 y3, 0 < r -> dist [y1; y2; y3] [o1; o2; o3] < r ->
  (y1 <> o1 \/ y2 <> o2 \/ y3 <= o3) ->
  exists x0 x1 x2, 0 <= x0 < 1 /\ 0 <= x1 < 1 /\ 0 <= x2 < 1 /\
    transform_sphere (A1 [x0; x1; x2]) r [o1; o2; o3] = Ok [y1; y2; y3].
Proof. exact sphere_onto. Qed.
Print Assumptions sphere_transform_onto.

(** C78: the Jacobian determinant of the transforms is constant and its modulus is support(). *)
Theorem annulus_transform_uniform : forall r1 r2 o1 o2 x0 x1, 0 <= r1 < r2 -> 0 < x0 < 1 -> 0 < x1 < 1 ->
  exists J, jacobian (fun x => transform_annulus (A1 x) r1 r2 [o1; o2]) [x0; x1] J 2 /\
    det22 J = - annulus_support r1 r2.
Proof. exact annulus_jacobian. Qed.
Print Assumptions annulus_transform_uniform.

Theorem disk_transform_uniform : forall r o1 o2 x0 x1, 0 < r -> 0 < x0 < 1 -> 0 < x1 < 1 ->
  exists J, jacobian (fun x => transform_circle (A1 x) r [o1; o2]) [x0; x1] J 2 /\ det22 J = - disk_support r.
Proof.
  intros r o1 o2 x0 x1 Hr H0 H1. destruct (annulus_jacobian 0 r o1 o2 x0 x1) as (J & HJ & D); auto; [lra|].
  exists J. split; [exact HJ|]. rewrite D. unfold annulus_support, disk_support. ring.
Qed.
Print Assumptions disk_transform_uniform.

Theorem sphere_transform_uniform : forall r o1 o2 o3 x0 x1 x2, 0 < r -> 0 < x0 < 1 -> 0 < x1 < 1 -> 0 < x2 < 1 ->
  exists J, jacobian (fun x => transform_sphere (A1 x) r [o1; o2; o3]) [x0; x1; x2] J 3 /\
    det33 J = - sphere_support r.
Proof. exact sphere_jacobian. Qed.
Print Assumptions sphere_transform_uniform.

Theorem sphere_bnd_transform_uniform : forall r o1 o2 o3 x0 x1, 0 < r -> 0 < x0 < 1 -> 0 < x1 < 1 ->
  exists J, jacobian (fun x => transform_sphere_bnd (A1 x) r [o1; o2; o3]) [x0; x1] J 3 /\
    gram 3 J = (4 * PI * r ^ 2) ^ 2.
Proof. exact sphere_bnd_gram. Qed.
Print Assumptions sphere_bnd_transform_uniform.

Example annulus_example : 0 <= 1 < 2 /\ transform_annulus (A1 [0; 0]) 1 2 [5; 6] = Ok [1 * 1 + 5; 1 * 0 + 6].
Proof.
  split; [lra|]. rewrite annulus_ok by lra. rewrite mod1_id by lra. rewrite Rmult_0_r, cos_0, sin_0.
  replace (0 * (2 ^ 2 - 1 ^ 2) + 1 ^ 2) with 1 by ring. rewrite sqrt_1. reflexivity.
Qed.

(** ** C27 boundary transforms *)
Theorem sphere_bnd_on_sphere : forall x0 x1 r o1 o2 o3, 0 <= r ->
  exists y, transform_sphere_bnd (A1 [x0; x1]) r [o1; o2; o3] = Ok y /\ dist y [o1; o2; o3] = r.
Proof. exact sphere_bnd_dist. Qed.
Print Assumptions sphere_bnd_on_sphere.

Theorem disk_bnd_on_circle : forall s r o1 o2, 0 <= r ->
  exists y, transform_circle_bnd s r [o1; o2] = Ok y /\ dist y [o1; o2] = r.
Proof. exact circle_bnd_dist. Qed.
Print Assumptions disk_bnd_on_circle.

Theorem disk_bnd_onto : forall r o1 o2 y1 y2, 0 < r -> dist [y1; y2] [o1; o2] = r ->
  exists s, 0 <= s < 1 /\ transform_circle_bnd s r [o1; o2] = Ok [y1; y2].
Proof. exact circle_bnd_onto. Qed.
Print Assumptions disk_bnd_onto.

Theorem sphere_bnd_onto_partial : forall r o1 o2 o3 y1 y2 y3, 0 < r -> dist [y1; y2; y3] [o1; o2; o3] = r ->
  [y1; y2; y3] <> [o1; o2; o3 + r] ->
  exists x0 x1, 0 <= x0 < 1 /\ 0 <= x1 < 1 /\ transform_sphere_bnd (A1 [x0; x1]) r [o1; o2; o3] = Ok [y1; y2; y3].
Proof. exact sphere_bnd_onto. Qed.
Print Assumptions sphere_bnd_onto_partial.

Theorem sphere_bnd_onto_refuted : forall r o1 o2 o3, 0 < r ->
  dist [o1; o2; o3 + r] [o1; o2; o3] = r /\
  forall x0 x1, transform_sphere_bnd (A1 [x0; x1]) r [o1; o2; o3] <> Ok [o1; o2; o3 + r].
Proof.
  intros r o1 o2 o3 Hr. split; [|intros; apply sphere_bnd_misses_pole; auto].
  rewrite dist3. replace ((o1 - o1) * (o1 - o1) + (o2 - o2) * (o2 - o2) + (o3 + r - o3) * (o3 + r - o3)) with (Rsqr r)
    by (unfold Rsqr; ring). apply sqrt_Rsqr. lra.
Qed.
Print Assumptions sphere_bnd_onto_refuted.

Theorem spherical_normal_vec_on_boundary : forall r o rtol atol y, 0 < r -> 0 <= rtol -> 0 <= atol -> dist y o = r ->
  spherical_normal_vec r o rtol atol y = Ok (Some (vscal (/ r) (vsub y o))).
Proof. exact spherical_normal_on. Qed.
Print Assumptions spherical_normal_vec_on_boundary.

Theorem spherical_normal_vec_off_boundary : forall r o rtol atol y,
  atol + rtol * Rabs r < Rabs (dist y o - r) -> spherical_normal_vec r o rtol atol y = Ok None.
Proof. exact spherical_normal_off. Qed.
Print Assumptions spherical_normal_vec_off_boundary.

(** within the tolerance the result is the unit vector pointing from the origin to y *)
Theorem spherical_normal_vec_unit : forall r o rtol atol y,
  Rabs (dist y o - r) <= atol + rtol * Rabs r -> 0 < dist y o ->
  exists n, spherical_normal_vec r o rtol atol y = Ok (Some n) /\ normR n = 1 /\ vsub y o = vscal (dist y o) n.
Proof. exact spherical_normal_unit. Qed.
Print Assumptions spherical_normal_vec_unit.

Example normal_example : dist [3; 4] [0; 0] = 5.
Proof. rewrite dist2. replace ((3 - 0) * (3 - 0) + (4 - 0) * (4 - 0)) with (5 * 5) by ring. apply sqrt_square. lra. Qed.

(** ** C28 *)
Theorem disk_bnd_one_to_one_refuted : forall r o1 o2,
  ~ (forall s t, 0 <= s < 1 -> 0 <= t < 1 ->
       transform_circle_bnd s r [o1; o2] = transform_circle_bnd t r [o1; o2] -> s = t).
Proof.
  intros r o1 o2 H. specialize (H 0 (0 + 1 / 2) ltac:(lra) ltac:(lra) (circle_bnd_period 0 r o1 o2 ltac:(lra))). lra.
Qed.
Print Assumptions disk_bnd_one_to_one_refuted.

(** [0,1/2) covers the circle once, and so does [1/2,1). *)
Theorem disk_bnd_one_to_one_partial : forall r o1 o2,
  (forall s, 0 <= s < 1 / 2 -> transform_circle_bnd s r [o1; o2] = transform_circle_bnd (s + 1 / 2) r [o1; o2]) /\
  (0 < r -> forall s t, 0 <= s < 1 / 2 -> 0 <= t < 1 / 2 ->
     transform_circle_bnd s r [o1; o2] = transform_circle_bnd t r [o1; o2] -> s = t).
Proof.
  exact (fun r o1 o2 => conj (fun s => circle_bnd_period s r o1 o2) (fun Hr s t => circle_bnd_inj_half s t r o1 o2 Hr)).
Qed.
Print Assumptions disk_bnd_one_to_one_partial.

(** ** C29 *)
Theorem spherical_normal_vec_batch_partial : forall r o rtol atol xs, 0 < r -> 0 <= rtol -> 0 <= atol ->
  Forall (fun x => dist x o = r /\ length x = length o) xs -> (length xs = 1%nat \/ length xs = length o) ->
  spherical_normal_vec_batch r o rtol atol xs = Ok (Some (map (fun x => vscal (/ r) (vsub x o)) xs)).
Proof. exact batch_ok. Qed.
Print Assumptions spherical_normal_vec_batch_partial.

Theorem spherical_normal_vec_batch_refuted : forall r o rtol atol xs, 0 < r -> 0 <= rtol -> 0 <= atol -> xs <> [] ->
  Forall (fun x => dist x o = r /\ length x = length o) xs ->
  length xs <> 1%nat -> length xs <> length o -> length o <> 1%nat ->
  spherical_normal_vec_batch r o rtol atol xs = Err TypeError.
Proof. exact batch_type_error. Qed.
Print Assumptions spherical_normal_vec_batch_refuted.

(** for as many samples as coordinates column j is divided by the norm of sample j *)
Theorem spherical_normal_vec_batch_columns_refuted :
  spherical_normal_vec_batch 1 [0; 0] 0 (1 / 2) [[1; 0]; [3 / 4; 1]] = Ok (Some [[1; 0]; [3 / 4; 4 / 5]]) /\
  spherical_normal_vec 1 [0; 0] 0 (1 / 2) [3 / 4; 1] = Ok (Some [3 / 5; 4 / 5]).
Proof. exact batch_columns. Qed.
Print Assumptions spherical_normal_vec_batch_columns_refuted.

Example batch_error_case : Forall (fun x => dist x [0; 0] = 5 /\ length x = length [0; 0]) [[3; 4]; [3; 4]; [3; 4]].
Proof. repeat constructor; apply normal_example. Qed.

(** ** C30 *)
Theorem affine_plane_interpolates : forall a b c, length b = length a -> length c = length a ->
  exists B o, affine_plane a b c = Ok (B, o) /\ length B = length a /\ length o = length a /\
    affine_at B o 0 0 = a /\ affine_at B o 1 0 = b /\ affine_at B o 0 1 = c.
Proof.
  intros a b c Hb Hc. do 2 eexists. split; [apply affine_plane_ok; auto|].
  split; [rewrite map2_length_eq; vlen|]. split; auto.
  rewrite !affine_plane_at by auto. repeat split; (apply vec_ext; [vlen|]; intros; vnth; ring).
Qed.
Print Assumptions affine_plane_interpolates.

Theorem affine_plane_is_unique : forall a b c B o, length b = length a -> length c = length a ->
  length B = length a -> length o = length a ->
  affine_at B o 0 0 = a -> affine_at B o 1 0 = b -> affine_at B o 0 1 = c ->
  affine_plane a b c = Ok (B, o).
Proof. exact affine_plane_unique. Qed.
Print Assumptions affine_plane_is_unique.

Theorem parallelogram_transform : forall a b c p s t, Parallelogram a b c = Ok p -> 0 <= s <= 1 -> 0 <= t <= 1 ->
  par_transform p (A1 [s; t]) = Ok (vadd a (vadd (vscal s (vsub b a)) (vscal t (vsub c a)))).
Proof. exact par_transform_ok. Qed.
Print Assumptions parallelogram_transform.

Theorem parallelogram_support : forall a b c p, Parallelogram a b c = Ok p ->
  exists A, par_support p = Ok A /\ 0 <= A /\
    A ^ 2 = dotR (vsub b a) (vsub b a) * dotR (vsub c a) (vsub c a) - dotR (vsub b a) (vsub c a) ^ 2.
Proof. exact par_support_ok. Qed.
Print Assumptions parallelogram_support.

Theorem parallelogram_support_3d : forall a b c p, Parallelogram (list3 a) (list3 b) (list3 c) = Ok p ->
  par_support p = Ok (norm3 (cross3 (vsub3 b a) (vsub3 c a))).
Proof. exact par_support_3d. Qed.
Print Assumptions parallelogram_support_3d.

Theorem parallelogram_constructor :
  (forall a b c, length b = length a -> length c = length a -> exists p, Parallelogram a b c = Ok p) /\
  (forall a b c, ~ (length a = length b /\ length b = length c) -> Parallelogram a b c = Err AssertionError).
Proof. exact (conj Parallelogram_def Parallelogram_rejects). Qed.
Print Assumptions parallelogram_constructor.

(** ** C31 *)
(** the constructor does not reject degenerate parallelograms; b = a would start the
    polyline with a segment of length 0 *)
Theorem parallelogram_bnd_partial : forall b c p, length c = length b -> Forall (fun e => e = 0) (pa p) ->
  Parallelogram (pa p) b c = Ok p -> b <> pa p ->
  (forall s, exists y, par_transform_bnd p s = Ok y /\ on_parallelogram_boundary (pa p) b c y) /\
  (forall y, on_parallelogram_boundary (pa p) b c y -> exists s, 0 <= s < 1 /\ par_transform_bnd p s = Ok y).
Proof.
  exact (fun b c p L Z P N => conj (fun s => par_bnd_zero b c s p L Z P N) (fun y => par_bnd_zero_onto b c p y L Z P N)).
Qed.
Print Assumptions parallelogram_bnd_partial.

Lemma seg_axis_x p1 p2 q1 q2 y1 y2 : on_segment [p1; p2] [q1; q2] [y1; y2] -> p1 <= 4 -> q1 <= 4 -> y1 <= 4.
Proof.
  intros (t & Ht & E) Hp Hq. unfold vadd, vscal, vsub in E. simpl in E. injection E as -> _. nra.
Qed.

(** False when a is not the origin: the boundary is traced around a, a+b, a+b+c, c. *)
Theorem parallelogram_bnd_refuted :
  ~ (forall a b c p s y, Parallelogram a b c = Ok p -> par_transform_bnd p s = Ok y ->
       on_parallelogram_boundary a b c y).
Proof.
  intros H. destruct (Parallelogram_def [3; 0] [4; 0] [3; 4]) as [p Hp]; auto.
  assert (E : par_transform_bnd p (1 / 5) = Ok [7; 0]).
  { apply Parallelogram_ok in Hp as (_ & _ & ->). unfold par_transform_bnd. cbn [pa pb pc map2].
    rewrite polyline_walk.
    - rewrite mod1_id by lra. f_equal.
      assert (Q : forall a b c d s, 0 <= s -> (a - c) * (a - c) + (b - d) * (b - d) = s * s -> dist [a; b] [c; d] = s).
      { intros. rewrite dist2. rewrite H1. apply sqrt_square; auto. }
      cbn [walk polyline_length].
      rewrite (Q (3 + 4) (0 + 0) 3 0 4) by lra. rewrite (Q (3 + 4 + 3) (0 + 0 + 4) (3 + 4) (0 + 0) 5) by lra.
      rewrite (Q 3 4 (3 + 4 + 3) (0 + 0 + 4) 7) by lra. rewrite (Q 3 0 3 4 4) by lra.
      destruct (Rle_dec (1 / 5 * (4 + (5 + (7 + (4 + 0))))) 4) as [C|C]; [|exfalso; apply C; lra].
      unfold vadd, vscal, vsub. simpl. f_equal; [field|]. f_equal; field.
    - repeat constructor.
    - left. intros C. injection C as C _. lra. }
  specialize (H _ _ _ _ _ _ Hp E). unfold on_parallelogram_boundary, vadd, vsub in H. simpl in H.
  destruct H as [H|[H|[H|H]]]; apply seg_axis_x in H; lra.
Qed.
Print Assumptions parallelogram_bnd_refuted.

Example parallelogram_bnd_example : exists p, Parallelogram [0; 0] [1; 0] [0; 1] = Ok p /\ pa p = [0; 0].
Proof.
  destruct (Parallelogram_def [0; 0] [1; 0] [0; 1]) as [p Hp]; auto. exists p. split; auto.
  apply Parallelogram_ok in Hp as (_ & _ & ->). reflexivity.
Qed.

(** ** C32 *)
Theorem triangle_partial : forall a1 a2 p q,
  (forall x0 x1, exists y, transform_triangle (A1 [x0; x1]) [a1; a2] [a1 + p; a2] [a1; a2 + q] = Ok (A1 y) /\
     in_triangle [a1; a2] [a1 + p; a2] [a1; a2 + q] y) /\
  (forall s t, 0 <= s < 1 -> 0 <= t < 1 -> s + t <= 1 ->
     transform_triangle (A1 [s; t]) [a1; a2] [a1 + p; a2] [a1; a2 + q] = Ok (A1 [a1 + s * p; a2 + t * q])).
Proof.
  intros a1 a2 p q. split.
  - intros x0 x1. destruct (triangle_aligned x0 x1 a1 a2 p q) as (y0 & y1 & H0 & H1 & H2 & E).
    eexists; split; [exact E|]. exists y0, y1. repeat split; auto. unfold vadd, vscal, vsub. simpl.
    f_equal; [ring|]. f_equal; ring.
  - intros. apply triangle_aligned_onto; auto.
Qed.
Print Assumptions triangle_partial.

(** False for other triangles: for a = (0,0), b = (1,1), c = (1,0) the sample (9/10, 0)
    is mapped to (9/5, 0). *)
Theorem triangle_refuted :
  ~ (forall a b c x y, transform_triangle (A1 x) a b c = Ok (A1 y) -> in_triangle a b c y).
Proof.
  intros H. assert (E : transform_triangle (A1 [9 / 10; 0]) [0; 0] [1; 1] [1; 0] = Ok (A1 [9 / 5; 0])).
  { unfold transform_triangle. cbn. rewrite !mod1_id by lra. rewrite !Rabs_right by lra.
    destruct (Rlt_dec 1 (9 / 10 + 0)); [lra|]. cbn. do 2 f_equal. f_equal; [field|]. f_equal; ring. }
  apply H in E. destruct E as (s & t & Hs & Ht & Hst & E). unfold vadd, vscal, vsub in E. simpl in E.
  injection E as E1 _. lra.
Qed.
Print Assumptions triangle_refuted.

Theorem triangle_3d_refuted : forall x0 x1 a b c, length a = 3%nat -> length b = 3%nat -> length c = 3%nat ->
  transform_triangle (A1 [x0; x1]) a b c = Err TypeError.
Proof. exact triangle_3d_error. Qed.
Print Assumptions triangle_3d_refuted.

(** ** C33 *)
Theorem polyline_is_arc_length : forall p q rest s, Forall (fun r => length r = length p) (q :: rest) -> q <> p ->
  transform_polyline s (p :: q :: rest) = Ok (walk p (q :: rest) (mod1 s * polyline_length p (q :: rest))).
Proof. intros p q rest s H N. exact (polyline_walk p q rest s H (or_introl N)). Qed.
Print Assumptions polyline_is_arc_length.

Theorem polyline_image : forall p q rest s, Forall (fun r => length r = length p) (q :: rest) -> q <> p ->
  exists y, transform_polyline s (p :: q :: rest) = Ok y /\ on_polyline p (q :: rest) y.
Proof.
  intros p q rest s H N. eexists; split; [exact (polyline_walk p q rest s H (or_introl N))|].
  apply walk_on_polyline; auto; [discriminate|]. pose proof (mod1_range s). pose proof (polyline_length_nonneg p (q :: rest)). nra.
Qed.
Print Assumptions polyline_image.

Theorem polyline_covers : forall p q rest y, Forall (fun r => length r = length p) (q :: rest) -> q <> p ->
  on_polyline p (q :: rest) y -> y <> last rest q ->
  exists s, 0 <= s < 1 /\ transform_polyline s (p :: q :: rest) = Ok y.
Proof. exact polyline_onto. Qed.
Print Assumptions polyline_covers.

(** A first segment of length 0 gives nan at s = 0 only. *)
Theorem polyline_degenerate_start :
  (forall p rest, Forall (fun r => length r = length p) (p :: rest) -> p <> [] ->
     transform_polyline 0 (p :: p :: rest) = Err NonFinite) /\
  (forall p rest s, Forall (fun r => length r = length p) (p :: rest) ->
     0 < mod1 s * polyline_length p (p :: rest) ->
     transform_polyline s (p :: p :: rest) = Ok (walk p (p :: rest) (mod1 s * polyline_length p (p :: rest)))).
Proof. exact (conj polyline_zero_first (fun p rest s H P => polyline_walk p p rest s H (or_intror P))). Qed.
Print Assumptions polyline_degenerate_start.

Theorem polyline_needs_two_points : forall s,
  transform_polyline s [] = Err ValueError /\ forall p, transform_polyline s [p] = Err ValueError.
Proof. exact polyline_too_few. Qed.
Print Assumptions polyline_needs_two_points.

Example polyline_example : Forall (fun r => length r = length [0; 0]) [[3; 4]; [3; 5]] /\ [3; 4] <> [0; 0] /\
  polyline_length [0; 0] [[3; 4]; [3; 5]] = 6.
Proof.
  split; [repeat constructor|]. split; [intros C; injection C as C _; lra|]. cbn [polyline_length].
  rewrite normal_example, dist2. replace ((3 - 3) * (3 - 3) + (5 - 4) * (5 - 4)) with 1 by ring. rewrite sqrt_1. ring.
Qed.
