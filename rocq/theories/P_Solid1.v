(** Proofs about solids, part 1: values and signs. *)
From Coquelicot Require Import Coquelicot.
From Verif Require Import Base BaseFacts M_Quat S_Quat P_Quat M_RFun S_RFun P_RFun1 P_Vec P_RFun2 M_Solid S_Solid.

Section Induction.
Variable P : solid -> Prop.
Hypothesis HP : forall p, P (Prim p).
Hypothesis HM : forall m a, P a -> P (Move m a).
Hypothesis HN : forall a, P a -> P (Negate a).
Hypothesis HO : forall o s a b, P a -> P b -> P (Op2 o s a b).
Hypothesis HA : forall s l, Forall P l -> P (All s l).
Hypothesis HY : forall s l, Forall P l -> P (Any s l).
Fixpoint solid_rect' (t : solid) : P t :=
  match t with
  | Prim p => HP p
  | Move m a => HM m a (solid_rect' a)
  | Negate a => HN a (solid_rect' a)
  | Op2 o s a b => HO o s a b (solid_rect' a) (solid_rect' b)
  | All s l => HA s l ((fix go l : Forall P l := match l with
       | [] => Forall_nil P | a :: t => Forall_cons a (solid_rect' a) (go t) end) l)
  | Any s l => HY s l ((fix go l : Forall P l := match l with
       | [] => Forall_nil P | a :: t => Forall_cons a (solid_rect' a) (go t) end) l)
  end.
End Induction.

Lemma fold_and {A} (P : A -> Prop) l : fold_right and True (map P l) <-> Forall P l.
Proof. induction l; simpl; [split; auto|]. rewrite IHl, Forall_cons_iff. tauto. Qed.
Lemma fold_or {A} (P : A -> Prop) l : fold_right or False (map P l) <-> Exists P l.
Proof. induction l; simpl; [rewrite Exists_nil; tauto|]. rewrite IHl, Exists_cons. tauto. Qed.

Lemma len2 (x : list R) : length x = 2%nat -> x = [nth 0 x 0; nth 1 x 0].
Proof. destruct x as [|a [|b [|c x]]]; simpl; intros; try lia. reflexivity. Qed.
Lemma len3 (x : list R) : length x = 3%nat -> x = [nth 0 x 0; nth 1 x 0; nth 2 x 0].
Proof. destruct x as [|a [|b [|c [|d x]]]]; simpl; intros; try lia. reflexivity. Qed.

(** factor applied to the values *)
Definition factor (m : move) : R := match m with Scale k => k | _ => 1 end.

Lemma bind_1 (r : res R) : r = bind r (fun v => Ok (1 * v)).
Proof. destruct r; simpl; [rewrite Rmult_1_l|]; reflexivity. Qed.

Lemma quot_vscal_inv a x : length x = length a -> Forall (fun e => e <> 0) a -> map2 Rmult a (quot x a) = x.
Proof.
  intros L F. revert x L. induction F as [|e a He F IH]; intros [|y x0] L; simpl in *; try lia; auto.
  f_equal; [field; auto|]. apply IH. lia.
Qed.

Lemma back_length n m x : good_move n m -> length x = n -> length (back m x) = source m n.
Proof.
  intros G H. destruct m; simpl in *; auto.
  - rewrite vsub_length; congruence.
  - rewrite vscal_length; auto.
  - rewrite quot_length; destruct G; congruence.
  - destruct G; auto.
  - destruct G as (? & ? & ?). rewrite mirror_length; congruence.
  - destruct G as (? & ? & ?). unfold foot. rewrite vsub_length; rewrite ?vscal_length; congruence.
  - destruct around_y; reflexivity.
Qed.

Lemma move_eval n m f : good_move n m -> exists g, build_move m f = Ok g /\
  forall x, length x = n -> g (A1 x) = bind (f (A1 (back m x))) (fun v => Ok (factor m * v)).
Proof.
  intros G. destruct m; simpl in G; cbn [build_move factor].
  - eexists; split; [reflexivity|]. intros x H. rewrite <- bind_1. apply translate_list. congruence.
  - destruct (scale_ok f (A0 k) eq_refl) as (g & E). exists g. split; auto. intros x H.
    assert (Ex : x = vscal k (back (Scale k) x)).
    { apply vec_ext; [simpl; rewrite !vscal_length; auto|]. intros i Hi. simpl. rewrite !nth_vscal. field. lra. }
    rewrite Ex at 1. apply scale_value; auto. lra.
  - destruct G as [G1 G2]. eexists; split; [reflexivity|]. intros x H. rewrite <- bind_1.
    rewrite <- (scale_wn_vector f axes (back (Stretch axes) x)); auto.
    + simpl. rewrite quot_vscal_inv by (auto; congruence). reflexivity.
    + simpl. rewrite quot_length; congruence.
  - eexists; split; [reflexivity|]. intros x H. rewrite <- bind_1. subst n. rewrite (len2 x H) at 1.
    rewrite rotate2d_value. simpl. unfold ccw. simpl. rewrite cos_neg, sin_neg. do 2 f_equal.
    f_equal; [ring|]. f_equal; ring.
  - destruct G as [G1 G2]. destruct n0 as [n1 n2 n3], o as [o1 o2 o3].
    destruct (rotate3d_axis_ok f angle n1 n2 n3 o1 o2 o3 G2) as (g & E & V). exists g. split; auto.
    intros x H. rewrite <- bind_1. subst n. rewrite (len3 x H) at 1.
    exact (V (mk3 (nth 0 x 0) (nth 1 x 0) (nth 2 x 0))).
  - destruct o as [o1 o2 o3]. destruct (rotate3d_euler f a b c o1 o2 o3) as (g & E & V). exists g. split; auto.
    intros x H. rewrite <- bind_1. subst n. rewrite (len3 x H) at 1.
    exact (V (mk3 (nth 0 x 0) (nth 1 x 0) (nth 2 x 0))).
  - destruct G as (G1 & G2 & G3). eexists; split; [reflexivity|]. intros x H. rewrite <- bind_1.
    apply reflect_value; congruence.
  - destruct G as (G1 & G2 & G3). eexists; split; [reflexivity|]. intros x H. rewrite <- bind_1.
    apply project_value; congruence.
  - eexists; split; [reflexivity|]. intros x H. rewrite <- bind_1. subst n. rewrite (len3 x H) at 1.
    assert (Q : forall u v, 0 <= u ^ 2 + v ^ 2).
    { intros u v. pose proof (pow2_ge_0 u). pose proof (pow2_ge_0 v). lra. }
    unfold revolution. destruct around_y; cbn [Z.eqb]; rewrite fsqrt_ok by apply Q; reflexivity.
Qed.

(** *** Signs of the primitives *)
Lemma lower_corner e : lower e false = repeat 0 (length e).
Proof. unfold lower. induction e; simpl; f_equal; auto. Qed.
Lemma upper_corner e : upper e false = e.
Proof. unfold upper. apply map_id. Qed.

Lemma cuboid_membership e c s x : sign_correct s -> x <> [] -> length e = length x ->
  membership (cuboid (A1 e) c s (A1 x)) (lower e c) (upper e c) x.
Proof.
  intros S Hx He. destruct c.
  - apply cuboid_centered; auto.
  - rewrite lower_corner, upper_corner, He. apply cuboid_corner; auto.
Qed.
Lemma membership_decides r lb ub x : membership r lb ub x ->
  decides r (strictly_inside lb ub x) (~ inside_closed lb ub x).
Proof. intros (v & E & P & _ & N). exists v. auto. Qed.

Lemma ge1_nonempty {A} (x : list A) : (1 <= length x)%nat -> x <> [].
Proof. destruct x; simpl; [lia|discriminate]. Qed.

Lemma prim_decides n p x : good_prim sign_correct n p -> length x = n -> regular (Prim p) x ->
  decides (build_prim p (A1 x)) (prim_inside p x) (prim_outside p x).
Proof.
  intros G H Rg. destruct p; simpl in *.
  - destruct G as (G1 & G2 & G3). apply membership_decides, cuboid_membership; auto; [|congruence].
    apply ge1_nonempty; lia.
  - destruct G as (G2 & G3). rewrite cube_is_cuboid. apply membership_decides, cuboid_membership; auto.
    + apply ge1_nonempty; lia.
    + apply repeat_length.
  - apply sphere_decides; auto.
  - destruct G as [G1 G2]. destruct x as [|a [|b x]]; simpl in H; try lia.
    exact (proj1 (cylinder_decides r a b x G2)).
  - destruct G as [G1 G2]. apply ellipsoid_decides; auto. congruence.
  - destruct (G x H) as (v & E & _). exists v. rewrite E. split; [reflexivity|].
    split; split; [eauto|intros (w & Ew & P); congruence|eauto|intros (w & Ew & P); congruence].
Qed.

(** *** Signs of programs *)
Lemma decides_iff r (P P' N N' : Prop) : decides r P N -> (P <-> P') -> (N <-> N') -> decides r P' N'.
Proof. intros (v & E & H1 & H2) HP HN. exists v. rewrite <- HP, <- HN. auto. Qed.

Definition signed (t : solid) : Prop := forall n, good sign_correct n t ->
  exists f, build t = Ok f /\ forall x, length x = n -> regular t x ->
    decides (f (A1 x)) (inside t x) (outside t x).

Lemma signed_list l : Forall signed l -> forall n, Forall (good sign_correct n) l ->
  exists fs, sequence (map build l) = Ok fs /\ length fs = length l /\
    forall x, length x = n -> Forall (fun a => regular a x) l ->
      Forall2 (fun f a => decides (f (A1 x)) (inside a x) (outside a x)) fs l.
Proof.
  intros Hl n. induction Hl as [|a l Ha Hl IH]; intros G.
  - exists []. split; [reflexivity|]. split; [reflexivity|]. intros. constructor.
  - apply Forall_cons_iff in G as [G1 G2]. destruct (Ha n G1) as (f & Ef & Df).
    destruct (IH G2) as (fs & Es & Ls & Ds). exists (f :: fs). simpl. rewrite Ef. simpl. rewrite Es. simpl.
    split; auto. split; [lia|]. intros x Hx Rg. apply Forall_cons_iff in Rg as [R1 R2].
    constructor; auto.
Qed.

Lemma scalar_values fs l x (P N : solid -> Prop) : Forall2 (fun f a => decides (f (A1 x)) (P a) (N a)) fs l ->
  exists vs, Forall2 (fun df d => df (A1 x) = Ok d) (map scalar_adf fs) (map A0 vs) /\
    Forall2 (fun f v => f (A1 x) = Ok v) fs vs /\
    (Forall (fun v => 0 < v) vs <-> Forall P l) /\ (Exists (fun v => v < 0) vs <-> Exists N l) /\
    (Exists (fun v => 0 < v) vs <-> Exists P l) /\ (Forall (fun v => v < 0) vs <-> Forall N l) /\
    length vs = length l.
Proof.
  induction 1 as [|f a fs l (v & E & Pv & Nv) _ (vs & F & F' & H1 & H2 & H3 & H4 & HL)].
  - exists []. simpl. rewrite !Exists_nil. repeat split; auto.
  - exists (v :: vs). simpl. rewrite !Forall_cons_iff, !Exists_cons, H1, H2, H3, H4, Pv, Nv.
    repeat split; try tauto; try (constructor; auto); [|lia]. unfold scalar_adf. rewrite E. reflexivity.
Qed.

Lemma concat_scalars vs : concat (map ravel (map A0 vs)) = vs.
Proof. induction vs; simpl; congruence. Qed.

Lemma solid_signed t : signed t.
Proof.
  induction t using solid_rect'; intros n G.
  - simpl in G. eexists. split; [reflexivity|]. intros x Hx Rg. eapply prim_decides; eauto.
  - destruct G as [G1 G2]. destruct (IHt _ G2) as (f & Ef & Df).
    destruct (move_eval n m f G1) as (g & Eg & Vg). exists g. simpl. rewrite Ef. simpl. split; auto.
    intros x Hx Rg. destruct (Df (back m x) (back_length n m x G1 Hx) Rg) as (v & E & P & N).
    rewrite Vg, E by auto. simpl. eexists. split; [reflexivity|].
    assert (F : 0 < factor m) by (destruct m; simpl in *; lra). rewrite <- P, <- N.
    rewrite <- !sg_pos_iff, <- !sg_neg_iff. rewrite sg_mult_pos by auto. tauto.
  - destruct (IHt _ G) as (f & Ef & Df). exists (negate f). simpl. rewrite Ef. split; auto.
    intros x Hx Rg. destruct (Df x Hx Rg) as (v & E & P & N). unfold negate. rewrite E. simpl.
    eexists. split; [reflexivity|]. rewrite <- P, <- N. lra.
  - destruct G as (G0 & G1 & G2). destruct (IHt1 _ G1) as (f & Ef & Df). destruct (IHt2 _ G2) as (g & Eg & Dg).
    exists (build_op2 o s f g). simpl. rewrite Ef, Eg. split; auto. intros x Hx [R1 R2].
    destruct (Df x Hx R1) as (a & Ea & Pa & Na). destruct (Dg x Hx R2) as (b & Eb & Pb & Nb).
    destruct (set_operations_dec s f g (A1 x) a b G0 Ea Eb) as (_ & D1 & D2 & D3 & D4 & D5 & D6).
    clear - Pa Na Pb Nb D1 D2 D3 D4 D5 D6.
    destruct o; cbn [inside outside op2_inside op2_outside build_op2];
      eapply decides_iff; try eassumption; tauto.
  - simpl in G. rewrite fold_and in G. destruct G as (G0 & G1 & G2).
    destruct (signed_list l H n G2) as (fs & Es & Ls & Ds). eexists. simpl. rewrite Es. split; [reflexivity|].
    intros x Hx Rg. simpl in Rg. rewrite fold_and in Rg.
    destruct (scalar_values fs l x (fun a => inside a x) (fun a => outside a x) (Ds x Hx Rg))
      as (vs & F & _ & H1 & H2 & _ & _ & HL).
    pose proof (compose_conj s (map scalar_adf fs) (A1 x) (map A0 vs) G0 F) as D. rewrite concat_scalars in D.
    eapply decides_iff; [apply D| |]; cbn [inside outside]; rewrite ?fold_and, ?fold_or; try assumption.
    destruct vs, l; simpl in *; congruence.
  - simpl in G. rewrite fold_and in G. destruct G as (G0 & G1 & G2).
    destruct (signed_list l H n G2) as (fs & Es & Ls & Ds). eexists. simpl. rewrite Es. split; [reflexivity|].
    intros x Hx Rg. simpl in Rg. rewrite fold_and in Rg.
    destruct (scalar_values fs l x (fun a => inside a x) (fun a => outside a x) (Ds x Hx Rg))
      as (vs & F & _ & _ & _ & H1 & H2 & HL).
    pose proof (compose_disj s (map scalar_adf fs) (A1 x) (map A0 vs) G0 F) as D. rewrite concat_scalars in D.
    eapply decides_iff; [apply D| |]; cbn [inside outside]; rewrite ?fold_and, ?fold_or; try assumption.
    destruct vs, l; simpl in *; congruence.
Qed.
