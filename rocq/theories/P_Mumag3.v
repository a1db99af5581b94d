(** Proofs about examples/mumag3.py, part 3: target tensors and charges of one face. *)
From Coquelicot Require Import Coquelicot.
From Verif Require Import Base BaseFacts P_Vec M_Quat M_RFun M_Domain M_Tensor M_Calc M_Integrate M_Surface M_Mumag.
From Verif Require Import S_Calc P_AD P_Calc P_Calc2 S_Integrate P_Integrate1 P_Integrate2 P_Integrate3 S_Model S_Surface S_Mumag.
From Verif Require Import P_Surface1 P_Surface2 P_Surface3 P_Surface4 P_Surface5 P_Mumag1 P_Mumag2.

Definition side_face (k : nat) (u v : list R) (val : R) : face := make_face (first_axis k) (second_axis k) k u v val.
Definition monos (a b : R) (m : nat) : R := nth m [1; a; b; a ^ 2; a * b; b ^ 2] 0.

Lemma embed_place k u v val z a b : (k < 3)%nat -> shape z = [3%nat] ->
  shape (embed (side_face k u v val) z a b) = [3%nat] /\ tlist (embed (side_face k u v val) z a b) = place k val [a; b].
Proof.
  intros Hk Sz. unfold embed, side_face, make_face, tset, tlist. cbn [shape axis1 axis2 const_axis const_val].
  rewrite Sz. split; auto. cbn [hd seq map entry].
  destruct k as [|[|[|k]]]; try lia; reflexivity.
Qed.
Lemma tlist2 t : shape t = [2%nat] -> tlist t = [entry t [0%nat]; entry t [1%nat]].
Proof. intros S. unfold tlist. rewrite S. reflexivity. Qed.

Lemma face_integrand_rep k u v val x c1 c2 (D : list R -> Prop) : (k < 3)%nat -> shape x = [3%nat] ->
  (forall q, D q -> place k val q <> tlist x) ->
  repD 2 D [6%nat] (face_integrand x (embed (side_face k u v val) (mkT [3%nat] (fun _ => 0)) c1 c2) (side_face k u v val))
    (fun p q => monos (nth 0 q 0 - c1) (nth 1 q 0 - c2) (hd 0%nat p) / dist (tlist x) (place k val q)).
Proof.
  intros Hk Sx HD t St Dt. unfold face_integrand.
  set (z := mkT [3%nat] (fun _ => 0)).
  destruct (embed_place k u v val z c1 c2 Hk eq_refl) as (Sc & Vc).
  set (cen := embed (side_face k u v val) z c1 c2) in *.
  rewrite St, Sx, Sc. cbn [list_eqb Nat.eqb andb assert_ bind].
  set (a := entry t [0%nat]). set (b := entry t [1%nat]).
  destruct (embed_place k u v val (tzeros x) a b Hk) as (Sy & Vy); [exact Sx|].
  set (y := embed (side_face k u v val) (tzeros x) a b) in *.
  destruct (tbop_minus3 x y Sx Sy) as (d & -> & Sd & Vd). cbn [bind].
  rewrite (tnorm_tlist d 3 Sd), Vd, Vy. fold (dist (tlist x) (place k val [a; b])).
  assert (Et : tlist t = [a; b]) by (apply tlist2; auto).
  assert (Lp : length (place k val [a; b]) = 3%nat) by (destruct k as [|[|k]]; reflexivity).
  destruct (Req_EM_T (dist (tlist x) (place k val [a; b])) 0) as [E0|N0].
  - exfalso. apply dist_0 in E0; auto; [|apply tlist_len3; auto]. apply (HD (tlist t)); auto. rewrite Et. auto.
  - eexists. split; [reflexivity|]. split; [reflexivity|]. intros p Hp. rewrite Et. cbn [nth].
    cbn [tmap tvec entry]. f_equal.
    destruct k as [|[|[|k]]]; try lia; reflexivity.
Qed.

(** ** sub-division *)
Lemma divided_linspace u i n : (1 <= n)%nat -> sub_grid (nth i u 0) (nth (S i) u 0) (SubInt (Z.of_nat n)) = Ok (divided u i n).
Proof.
  intros Hn. unfold sub_grid. replace (Z.ltb (Z.of_nat n + 1) 0) with false by (symmetry; apply Z.ltb_ge; lia).
  replace (Z.to_nat (Z.of_nat n + 1)) with (S n) by lia. destruct n as [|n]; [lia|]. reflexivity.
Qed.
Lemma divided_is_linspace u i n : (1 <= n)%nat -> divided u i n = linspace (nth i u 0) (nth (S i) u 0) (S n).
Proof. intros Hn. destruct n as [|n]; [lia|]. reflexivity. Qed.
Lemma divided_facts u i n : (1 <= n)%nat -> nondecreasing u -> (S i < length u)%nat ->
  (2 <= length (divided u i n))%nat /\ nondecreasing (divided u i n) /\
  first (divided u i n) = nth i u 0 /\ final (divided u i n) = nth (S i) u 0.
Proof.
  intros Hn Nu Hi. rewrite divided_is_linspace by auto. rewrite linspace_length.
  pose proof (cell_nondecreasing u i Nu Hi) as C. cbn in C.
  repeat split; [lia|apply linspace_nondecreasing; tauto|apply linspace_first; lia|apply linspace_final; lia].
Qed.
Lemma rect_divided u v i j n q : (1 <= n)%nat -> nondecreasing u -> nondecreasing v ->
  (S i < length u)%nat -> (S j < length v)%nat -> rect (divided u i n) (divided v j n) q -> rect u v q.
Proof.
  intros Hn Nu Nv Hi Hj (a & b & -> & Ha & Hb).
  destruct (divided_facts u i n Hn Nu Hi) as (_ & _ & F1 & F2). destruct (divided_facts v j n Hn Nv Hj) as (_ & _ & G1 & G2).
  rewrite F1, F2 in Ha. rewrite G1, G2 in Hb. apply (rect_cell u v i j); auto. exists a, b. split; auto.
Qed.

(** ** target tensor of a face *)
Definition face_moment (method : quadrule) (k : nat) (val : R) (u v : list R) (n i j m : nat) (X : list R) : R :=
  iterated [rule_of method (divided u i n); rule_of method (divided v j n)]
    (fun q => monos (nth 0 q 0 - middle u i) (nth 1 q 0 - middle v j) m / dist X (place k val q)).

Lemma integrate_face_ok method n0 w k u v val x n : sound_rule method n0 w -> (k < 3)%nat -> good_grid u -> good_grid v ->
  (1 <= n)%nat -> shape x = [3%nat] -> (forall q, rect u v q -> place k val q <> tlist x) ->
  exists T, integrate_face (side_face k u v val) x (SubInt (Z.of_nat n)) method = Ok T /\
    shape T = [length u - 1; length v - 1; 6]%nat /\
    forall i j m, (S i < length u)%nat -> (S j < length v)%nat -> (m < 6)%nat ->
      entry T [i; j; m] = face_moment method k val u v n i j m (tlist x).
Proof.
  intros SR Hk (Hu & Nu) (Hv & Nv) Hn Sx HD. unfold integrate_face.
  change (axis1_vals (side_face k u v val)) with u. change (axis2_vals (side_face k u v val)) with v.
  assert (One : forall i j, (S i < length u)%nat -> (S j < length v)%nat ->
    exists T, integrate_cell (side_face k u v val) x (SubInt (Z.of_nat n)) method (nth i u 0, nth (S i) u 0) (nth j v 0, nth (S j) v 0)
                (middle u i) (middle v j) = Ok T /\ shape T = [6%nat] /\
      forall m, (m < 6)%nat -> entry T [m] = face_moment method k val u v n i j m (tlist x)).
  { intros i j Hi Hj. unfold integrate_cell. cbn [fst snd]. rewrite !divided_linspace by auto. cbn [bind].
    destruct (divided_facts u i n Hn Nu Hi) as (A1 & A2 & _). destruct (divided_facts v j n Hn Nv Hj) as (B1 & B2 & _).
    destruct (tintegrate_ok method n0 w _ _ [6%nat] (divided u i n) (divided v j n) SR A1 B1 A2 B2
                (face_integrand_rep k u v val x (middle u i) (middle v j) _ Hk Sx
                   (fun q Hq => HD q (rect_divided u v i j n q Hn Nu Nv Hi Hj Hq))))
      as (T & ru & rv & E & S & E1 & E2 & V).
    exists T. split; [exact E|]. split; [exact S|]. intros m Hm. rewrite V by (apply inside1; auto).
    unfold face_moment, rule_of. rewrite E1, E2. reflexivity. }
  destruct (vmapT_ok (fun d1 => vmapT (fun d2 => integrate_cell (side_face k u v val) x (SubInt (Z.of_nat n)) method d1 d2
              ((fst d1 + snd d1) / 2) ((fst d2 + snd d2) / 2)) (cells v)) (cells u) [length v - 1; 6]%nat
      (fun d1 Y => forall i, d1 = (nth i u 0, nth (S i) u 0) -> (S i < length u)%nat ->
         forall j m, (S j < length v)%nat -> (m < 6)%nat -> entry Y [j; m] = face_moment method k val u v n i j m (tlist x)))
    as (E & EE & SE & VE).
  - apply cells_nonempty; auto.
  - intros d1 Hd1. apply In_nth_error in Hd1. destruct Hd1 as (i & Hi1). destruct (cells_nth _ _ _ Hi1) as (Hi & ->).
    destruct (vmapT_ok (fun d2 => integrate_cell (side_face k u v val) x (SubInt (Z.of_nat n)) method
                (nth i u 0, nth (S i) u 0) d2 ((nth i u 0 + nth (S i) u 0) / 2) ((fst d2 + snd d2) / 2)) (cells v) [6%nat]
        (fun _ _ => True)) as (Y & EY & SY & VY).
    + apply cells_nonempty; auto.
    + intros d2 Hd2. apply In_nth_error in Hd2. destruct Hd2 as (j & Hj1). destruct (cells_nth _ _ _ Hj1) as (Hj & ->).
      destruct (One i j Hi Hj) as (T & ET & ST & VT). exists T. auto.
    + exists Y. cbn [fst snd]. split; [exact EY|]. split; [rewrite SY, cells_length; reflexivity|].
      intros i' E' Hi' j m Hj Hm.
      destruct (VY j _ (cells_some v j Hj)) as (T & ET & ST & _ & Ent). rewrite Ent.
      destruct (One i' j Hi' Hj) as (T' & ET' & ST' & VT'). injection E' as E1 E2. cbn [fst snd] in ET.
      unfold middle in ET' at 1. rewrite <- E1, <- E2 in ET'. fold (middle v j) in ET. rewrite ET in ET'. injection ET' as <-.
      apply VT'; auto.
  - exists E. split; [exact EE|]. split; [rewrite SE, cells_length; reflexivity|].
    intros i j m Hi Hj Hm. destruct (VE i _ (cells_some u i Hi)) as (Y & _ & _ & Q & Ent). rewrite Ent. apply Q; auto.
Qed.

(** ** charges of a face *)
Definition coefs6 (i j : nat) (g : list R -> R) (c : list R) (m : nat) : R :=
  nth m [g c; pd i g c; pd j g c; 1 / 2 * pd i (pd i g) c; pd j (pd i g) c; 1 / 2 * pd j (pd j g) c] 0.
Lemma axes_lt k : (k < 3)%nat -> (first_axis k < 3)%nat /\ (second_axis k < 3)%nat.
Proof. intros H. destruct k as [|[|[|k]]]; cbn; lia. Qed.

Lemma taylor_coefs_ok k u v val f g (D : list R -> Prop) x : (k < 3)%nat -> openset 3 D ->
  repD 3 D [] f (fun _ => g) -> shape x = [3%nat] -> D (tlist x) ->
  exists C, taylor_coefs (side_face k u v val) f x = Ok C /\ shape C = [6%nat] /\
    forall m, (m < 6)%nat -> entry C [m] = coefs6 (first_axis k) (second_axis k) g (tlist x) m.
Proof.
  intros Hk HO Hf Sx Dx. destruct (axes_lt k Hk) as (L1 & L2). unfold taylor_coefs.
  pose proof (jacfwd_repD 3 D [] f _ HO Hf) as HG. pose proof (jacfwd_repD 3 D _ _ _ HO HG) as HH.
  destruct (HG x Sx Dx) as (G & EG & SG & VG). destruct (HH x Sx Dx) as (H & EH & SH & VH).
  destruct (Hf x Sx Dx) as (y & Ey & Sy & Vy). rewrite EG. cbn [bind]. rewrite EH. cbn [bind]. rewrite Ey. cbn [bind].
  change (axis1 (side_face k u v val)) with (first_axis k). change (axis2 (side_face k u v val)) with (second_axis k).
  cbn [app] in SG, SH, VG, VH.
  destruct (vmapT_ok (fun a : tensor => Ok a)
     [y; tlast G (first_axis k); tlast G (second_axis k); tmap (fun e => 1 / 2 * e) (tlast (tlast H (first_axis k)) (first_axis k));
      tlast (tlast H (second_axis k)) (first_axis k); tmap (fun e => 1 / 2 * e) (tlast (tlast H (second_axis k)) (second_axis k))]
     [] (fun _ _ => True)) as (Y & EY & SY & VY).
  - discriminate.
  - intros a Ha. exists a. split; auto. split; auto.
    cbn [In] in Ha. destruct Ha as [<-|[<-|[<-|[<-|[<-|[<-|[]]]]]]]; cbn [tlast tmap shape]; rewrite ?SG, ?SH, ?Sy; reflexivity.
  - exists Y. split; [exact EY|]. split; [exact SY|]. intros m Hm.
    assert (IH : forall a b, (a < 3)%nat -> (b < 3)%nat -> inside [3; 3]%nat [a; b]) by (intros; apply inside2; auto).
    assert (IG : forall a, (a < 3)%nat -> inside [3]%nat [a]) by (intros; apply inside1; auto).
    destruct m as [|[|[|[|[|[|m]]]]]]; try lia.
    all: match goal with |- entry ?W [?k] = _ => destruct (VY k _ eq_refl) as (z & Ez & _ & _ & ->) end;
      injection Ez as <-; cbn [tlast tmap entry app]; unfold coefs6; cbn [nth].
    + apply Vy. constructor.
    + rewrite VG by auto. reflexivity.
    + rewrite VG by auto. reflexivity.
    + rewrite VH by auto. reflexivity.
    + rewrite VH by auto. reflexivity.
    + rewrite VH by auto. reflexivity.
Qed.

Lemma charge_face_ok k u v val f g (D : list R -> Prop) : (k < 3)%nat -> good_grid u -> good_grid v -> openset 3 D ->
  repD 3 D [] f (fun _ => g) -> (forall q, rect u v q -> D (place k val q)) ->
  exists C, charge_taylor_coefs2 (side_face k u v val) f = Ok C /\ shape C = [length u - 1; length v - 1; 6]%nat /\
    forall i j m, (S i < length u)%nat -> (S j < length v)%nat -> (m < 6)%nat ->
      entry C [i; j; m] = coefs6 (first_axis k) (second_axis k) g (place k val [middle u i; middle v j]) m.
Proof.
  intros Hk (Hu & Nu) (Hv & Nv) HO Hf HD. unfold charge_taylor_coefs2. change (mids (side_face k u v val)) with (face_midpoints u v k val).
  rewrite face_midpoints_shape. set (M := face_midpoints u v k val).
  assert (SM : shape M = [length u - 1; length v - 1; 3]%nat) by apply face_midpoints_shape.
  assert (Sr : forall i j, shape (trow (trow M i) j) = [3%nat]) by (intros; unfold trow; cbn [shape]; rewrite SM; reflexivity).
  assert (One : forall i j, (S i < length u)%nat -> (S j < length v)%nat ->
     exists C, taylor_coefs (side_face k u v val) f (trow (trow M i) j) = Ok C /\ shape C = [6%nat] /\
       forall m, (m < 6)%nat -> entry C [m] = coefs6 (first_axis k) (second_axis k) g (place k val [middle u i; middle v j]) m).
  { intros i j Hi Hj. pose proof (face_midpoints_row u v k val i j Hk Hi Hj) as ER. fold M in ER.
    destruct (taylor_coefs_ok k u v val f g D (trow (trow M i) j)) as (C & EC & SC & VC); auto.
    - rewrite ER. apply HD. apply (rect_cell u v i j); auto. apply rect_middle; auto.
    - exists C. rewrite ER in VC. auto. }
  destruct (vmapT_ok (fun i => vmapT (fun j => taylor_coefs (side_face k u v val) f (trow (trow M i) j)) (seq 0 (length v - 1)))
     (seq 0 (length u - 1)) [length v - 1; 6]%nat
     (fun i Y => forall j m, (S j < length v)%nat -> (m < 6)%nat ->
        entry Y [j; m] = coefs6 (first_axis k) (second_axis k) g (place k val [middle u i; middle v j]) m)) as (E & EE & SE & VE).
  - destruct (length u) as [|[|n]]; try lia. discriminate.
  - intros i Hi. apply in_seq in Hi.
    destruct (vmapT_ok (fun j => taylor_coefs (side_face k u v val) f (trow (trow M i) j)) (seq 0 (length v - 1)) [6%nat]
       (fun j Y => forall m, (m < 6)%nat -> entry Y [m] = coefs6 (first_axis k) (second_axis k) g (place k val [middle u i; middle v j]) m))
      as (Y & EY & SY & VY).
    + destruct (length v) as [|[|n]]; try lia. discriminate.
    + intros j Hj. apply in_seq in Hj. destruct (One i j) as (C & EC & SC & VC); try lia. exists C. auto.
    + exists Y. split; auto. split; [rewrite SY, seq_length; reflexivity|]. intros j m Hj Hm.
      destruct (VY j j) as (y & _ & _ & Q & Ent); [apply nth_error_seq0; lia|]. rewrite Ent. apply Q; auto.
  - exists E. split; [exact EE|]. split; [rewrite SE, seq_length; reflexivity|]. intros i j m Hi Hj Hm.
    destruct (VE i i) as (Y & _ & _ & Q & Ent); [apply nth_error_seq0; lia|]. rewrite Ent. apply Q; auto.
Qed.

(** ** contribution of a face *)
Lemma tcontract3_ok a b n1 n2 n3 r : shape a = [n1; n2; n3] -> shape b = n1 :: n2 :: n3 :: r ->
  exists V, tcontract3 a b = Ok V /\ shape V = r /\
    forall p, entry V p = lsum n1 (fun i => lsum n2 (fun j => lsum n3 (fun m => entry a [i; j; m] * entry b (i :: j :: m :: p)))).
Proof.
  intros Sa Sb. unfold tcontract3. rewrite Sa, Sb. cbn [length Nat.sub skipn firstn]. rewrite list_eqb_refl.
  eexists. split; [reflexivity|]. split; [reflexivity|]. intros p. reflexivity.
Qed.
Lemma coefs_monos k g c val q : (k < 3)%nat ->
  lsum 6 (fun m => coefs6 (first_axis k) (second_axis k) g (place k val c) m * monos (nth 0 q 0 - nth 0 c 0) (nth 1 q 0 - nth 1 c 0) m)
  = plane_taylor (first_axis k) (second_axis k) g (place k val c) (place k val q).
Proof.
  intros Hk. unfold lsum, sumR, coefs6, monos, plane_taylor. cbn [seq map fold_right nth].
  destruct k as [|[|[|k]]]; try lia; cbn [first_axis second_axis place nth]; lra.
Qed.
Lemma face_value method k val u v n i j g X : (k < 3)%nat ->
  lsum 6 (fun m => coefs6 (first_axis k) (second_axis k) g (place k val [middle u i; middle v j]) m * face_moment method k val u v n i j m X)
  = iterated [rule_of method (divided u i n); rule_of method (divided v j n)]
      (fun q => plane_taylor (first_axis k) (second_axis k) g (place k val [middle u i; middle v j]) (place k val q) / dist X (place k val q)).
Proof.
  intros Hk. unfold face_moment.
  rewrite (lsum_ext 6 _ (fun m => iterated [rule_of method (divided u i n); rule_of method (divided v j n)]
     (fun q => coefs6 (first_axis k) (second_axis k) g (place k val [middle u i; middle v j]) m *
               (monos (nth 0 q 0 - middle u i) (nth 1 q 0 - middle v j) m / dist X (place k val q))))).
  2:{ intros m _. symmetry. apply iterated_scal. }
  rewrite <- iterated_lsum. apply iterated_ext. intros q _. rewrite <- (coefs_monos k g [middle u i; middle v j] val q) by auto.
  cbn [nth]. unfold Rdiv. rewrite Rmult_comm, <- lsum_scal. apply lsum_ext. intros m _. ring.
Qed.
