(** Proofs about examples/mumag3.py, part 4: the six faces together, gradients. *)
From Coquelicot Require Import Coquelicot.
From Verif Require Import Base BaseFacts P_Vec M_Quat M_RFun M_Domain M_Tensor M_Calc M_Integrate M_Surface M_Mumag.
From Verif Require Import S_Calc P_AD P_Calc P_Calc2 S_Integrate P_Integrate1 P_Integrate2 P_Integrate3 S_Model S_Surface S_Mumag.
From Verif Require Import P_Surface1 P_Surface2 P_Surface3 P_Surface4 P_Surface5 P_Mumag1 P_Mumag2 P_Mumag3.

Lemma sequence_map2_ok {A} (L : list A) (cs ts : list tensor) (P Q W : A -> tensor -> Prop) (h : tensor -> tensor -> res tensor) :
  Forall2 P L cs -> Forall2 Q L ts ->
  (forall a C T, In a L -> P a C -> Q a T -> exists w, h C T = Ok w /\ W a w) ->
  exists ws, sequence (map2 h cs ts) = Ok ws /\ Forall2 W L ws.
Proof.
  intros HP. revert ts. induction HP as [|a C L cs Pa HP IH]; intros ts HQ H; inversion HQ; subst.
  - exists []. split; auto.
  - destruct (IH l') as (ws & E & F); auto. { intros b C' T' Hb. apply H. right. auto. }
    destruct (H a C y (or_introl eq_refl)) as (w & Ew & Ww); auto.
    exists (w :: ws). cbn [map2 sequence]. rewrite Ew. cbn [bind]. rewrite E. cbn [bind]. split; auto.
Qed.
Lemma sumR_stack {A} (L : list A) (ws : list tensor) (val : A -> R) (F : nat -> R) p :
  Forall2 (fun a w => entry w p = val a) L ws -> (forall k w, nth_error ws k = Some w -> F k = entry w p) ->
  sumR (map F (seq 0 (length ws))) = sumR (map val L).
Proof.
  intros H. revert F. induction H as [|a w L ws Hw H IH]; intros F HF; auto.
  cbn [length seq map]. unfold sumR. cbn [fold_right]. fold (sumR (map F (seq 1 (length ws)))). fold (sumR (map val L)).
  rewrite (HF 0%nat w eq_refl), Hw. f_equal. rewrite <- seq_shift, map_map. apply IH. intros k w' Hk. apply HF. exact Hk.
Qed.
Lemma solve_ok {A} (L : list A) cs ts (P Q : A -> tensor -> Prop) r (val : A -> list nat -> R) : L <> [] ->
  Forall2 P L cs -> Forall2 Q L ts ->
  (forall a C T, In a L -> P a C -> Q a T -> exists w, tcontract3 C T = Ok w /\ shape w = r /\
     forall p, inside r p -> entry w p = val a p) ->
  exists V, solve_surface_integral cs ts = Ok V /\ shape V = r /\
    forall p, inside r p -> entry V p = sumR (map (fun a => val a p) L).
Proof.
  intros Ne HP HQ H. unfold solve_surface_integral.
  rewrite <- (Forall2_length _ _ _ HP), <- (Forall2_length _ _ _ HQ), Nat.eqb_refl.
  destruct (sequence_map2_ok L cs ts P Q (fun a w => shape w = r /\ forall p, inside r p -> entry w p = val a p) tcontract3 HP HQ H)
    as (ws & -> & HW). cbn [bind].
  destruct (vmapT_ok (fun a : tensor => Ok a) ws r (fun _ _ => True)) as (Y & -> & SY & VY).
  - intros ->. inversion HW; subst. congruence.
  - intros w Hw. exists w. split; auto. split; auto.
    clear -HW Hw. induction HW as [|a w' L ws (S & _) HW IH]; [destruct Hw|]. destruct Hw as [<-|Hw]; auto.
  - cbn [bind]. eexists. split; [reflexivity|]. cbn [shape entry]. rewrite SY. split; [reflexivity|].
    intros p Hp. apply (sumR_stack L ws (fun a => val a p) (fun k => entry Y (k :: p)) p).
    + clear -HW Hp. induction HW as [|a w L ws (_ & V) HW IH]; constructor; auto.
    + intros k w Hk. destruct (VY k w Hk) as (y & Ey & _ & _ & Ent). injection Ey as <-. apply Ent.
Qed.

Definition sides : list (nat * bool) := [(2, false); (2, true); (1, false); (1, true); (0, false); (0, true)]%nat.
Lemma sides_lt s : In s sides -> (fst s < 3)%nat.
Proof. cbn. intros [<-|[<-|[<-|[<-|[<-|[<-|[]]]]]]]; cbn; lia. Qed.

Section Box.
Variables (xs ys zs : list R) (c : brick).
Hypothesis HC : Cuboid xs ys zs = Ok c.
Let G := axis_grid xs ys zs.
Let U k := G (first_axis k).
Let V k := G (second_axis k).
Let val k b := side_value xs ys zs k b.

Lemma faces_sides : faces c = map (fun s => side_face (fst s) (U (fst s)) (V (fst s)) (val (fst s) (snd s))) sides.
Proof. destruct (Cuboid_inv _ _ _ _ HC) as (_ & _ & _ & ->). reflexivity. Qed.
Lemma good_axis k : good_grid (G k).
Proof. destruct (Cuboid_inv _ _ _ _ HC) as (A & B & D & _). unfold G. destruct k as [|[|k]]; auto. Qed.


Variables (method : quadrule) (N W : list R) (n : nat).
Hypothesis SR : sound_rule method N W.
Hypothesis Hn : (1 <= n)%nat.
Let sub := SubInt (Z.of_nat n).

Definition side_moment k b i j m (X : list R) : R :=
  face_moment method k (side_value xs ys zs k b) (axis_grid xs ys zs (first_axis k)) (axis_grid xs ys zs (second_axis k)) n i j m X.
Definition side_center k b i j : list R :=
  place k (side_value xs ys zs k b) [middle (axis_grid xs ys zs (first_axis k)) i; middle (axis_grid xs ys zs (second_axis k)) j].
Definition side_sum k (F : nat -> nat -> nat -> R) : R :=
  lsum (length (axis_grid xs ys zs (first_axis k)) - 1) (fun i =>
    lsum (length (axis_grid xs ys zs (second_axis k)) - 1) (fun j => lsum 6 (fun m => F i j m))).

Lemma off_side k b X : (k < 3)%nat -> ~ on_boundary xs ys zs X ->
  forall q, rect (U k) (V k) q -> place k (val k b) q <> X.
Proof. intros Hk H q Hq E. apply H. exists k, b. split; auto. exists q. split; auto. Qed.

Lemma tensors_ok x : shape x = [3%nat] -> ~ on_boundary xs ys zs (tlist x) ->
  exists ts, surface_tensors x c sub method = Ok ts /\
    Forall2 (fun s T => shape T = [length (U (fst s)) - 1; length (V (fst s)) - 1; 6]%nat /\
      forall i j m, (S i < length (U (fst s)))%nat -> (S j < length (V (fst s)))%nat -> (m < 6)%nat ->
        entry T [i; j; m] = side_moment (fst s) (snd s) i j m (tlist x)) sides ts.
Proof.
  intros Sx Hx. unfold surface_tensors. rewrite faces_sides, map_map. apply sequence_map_ok. intros s Hs.
  destruct (integrate_face_ok method N W (fst s) (U (fst s)) (V (fst s)) (val (fst s) (snd s)) x n) as (T & E & S & VT); auto.
  - apply sides_lt; auto.
  - apply good_axis.
  - apply good_axis.
  - apply off_side; auto. apply sides_lt; auto.
  - exists T. auto.
Qed.

Lemma charges_ok f g (D : list R -> Prop) : openset 3 D -> (forall y, on_boundary xs ys zs y -> D y) ->
  repD 3 D [] f (fun _ => g) ->
  exists cs, charges c f = Ok cs /\
    Forall2 (fun s C => shape C = [length (U (fst s)) - 1; length (V (fst s)) - 1; 6]%nat /\
      forall i j m, (S i < length (U (fst s)))%nat -> (S j < length (V (fst s)))%nat -> (m < 6)%nat ->
        entry C [i; j; m] = coefs6 (first_axis (fst s)) (second_axis (fst s)) g (side_center (fst s) (snd s) i j) m) sides cs.
Proof.
  intros HO HD Hf. unfold charges. rewrite faces_sides, map_map. apply sequence_map_ok. intros s Hs.
  destruct (charge_face_ok (fst s) (U (fst s)) (V (fst s)) (val (fst s) (snd s)) f g D) as (C & E & S & VC); auto.
  - apply sides_lt; auto.
  - apply good_axis.
  - apply good_axis.
  - intros q Hq. apply HD. exists (fst s), (snd s). split; [apply sides_lt; auto|]. exists q. auto.
  - exists C. auto.
Qed.

Definition box_integral (g : list R -> R) (X : list R) : R :=
  sumR (map (fun s => side_sum (fst s) (fun i j m =>
    coefs6 (first_axis (fst s)) (second_axis (fst s)) g (side_center (fst s) (snd s) i j) m * side_moment (fst s) (snd s) i j m X)) sides).

Lemma sub_lt i l : (i < l - 1)%nat -> (S i < l)%nat.
Proof. lia. Qed.

Lemma integral_ok cs f g (D : list R -> Prop) x : openset 3 D -> (forall y, on_boundary xs ys zs y -> D y) ->
  repD 3 D [] f (fun _ => g) -> charges c f = Ok cs -> shape x = [3%nat] -> ~ on_boundary xs ys zs (tlist x) ->
  exists R0, integrate_surface3 x c cs sub method = Ok R0 /\ shape R0 = [] /\ entry R0 [] = box_integral g (tlist x).
Proof.
  intros HO HD Hf Ec Sx Hx. destruct (charges_ok f g D HO HD Hf) as (cs' & Ec' & FC). rewrite Ec in Ec'. injection Ec' as <-.
  destruct (tensors_ok x Sx Hx) as (ts & Et & FT). unfold integrate_surface3. rewrite Et. cbn [bind].
  destruct (solve_ok sides cs ts _ _ [] (fun s _ => side_sum (fst s) (fun i j m =>
    coefs6 (first_axis (fst s)) (second_axis (fst s)) g (side_center (fst s) (snd s) i j) m * side_moment (fst s) (snd s) i j m (tlist x)))
    ltac:(discriminate) FC FT) as (R0 & E & S & VR).
  - intros s C T Hs (SC & VC) (ST & VT). destruct (tcontract3_ok C T _ _ _ [] SC ST) as (w & Ew & Sw & Vw).
    exists w. split; auto. split; auto. intros p Hp. inversion Hp; subst. rewrite Vw. unfold side_sum.
    apply lsum_ext. intros i Hi. apply lsum_ext. intros j Hj. apply lsum_ext. intros m Hm.
    apply sub_lt in Hi. apply sub_lt in Hj. rewrite VC, VT by auto. reflexivity.
  - exists R0. split; auto. split; auto. apply VR. constructor.
Qed.

(** as iterated quadratures *)
Definition side_quad (g : list R -> R) k b i j X : R :=
  iterated [rule_of method (divided (axis_grid xs ys zs (first_axis k)) i n);
            rule_of method (divided (axis_grid xs ys zs (second_axis k)) j n)]
    (fun q => plane_taylor (first_axis k) (second_axis k) g (side_center k b i j) (place k (side_value xs ys zs k b) q)
              / dist X (place k (side_value xs ys zs k b) q)).
Lemma box_integral_quad g X : box_integral g X = six (fun k b =>
  total (length (axis_grid xs ys zs (first_axis k)) - 1) (fun i =>
    total (length (axis_grid xs ys zs (second_axis k)) - 1) (fun j => side_quad g k b i j X))).
Proof.
  unfold box_integral, sides, six. cbn [map fst snd]. unfold sumR at 1. cbn [fold_right].
  assert (E : forall k b, (k < 3)%nat -> side_sum k (fun i j m =>
     coefs6 (first_axis k) (second_axis k) g (side_center k b i j) m * side_moment k b i j m X) =
     total (length (axis_grid xs ys zs (first_axis k)) - 1) (fun i =>
       total (length (axis_grid xs ys zs (second_axis k)) - 1) (fun j => side_quad g k b i j X))).
  { intros k b Hk. change total with lsum. apply lsum_ext. intros i _. apply lsum_ext. intros j _. apply face_value. auto. }
  rewrite !E by lia. ring.
Qed.
Lemma side_quad_quad2 g k b i j X : (S i < length (axis_grid xs ys zs (first_axis k)))%nat ->
  (S j < length (axis_grid xs ys zs (second_axis k)))%nat ->
  quad2 method (divided (axis_grid xs ys zs (first_axis k)) i n) (divided (axis_grid xs ys zs (second_axis k)) j n)
    (fun q => plane_taylor (first_axis k) (second_axis k) g (side_center k b i j) (place k (side_value xs ys zs k b) q)
              / dist X (place k (side_value xs ys zs k b) q)) (side_quad g k b i j X).
Proof.
  intros Hi Hj. destruct (divided_facts _ i n Hn (proj2 (good_axis (first_axis k))) Hi) as (L1 & _).
  destruct (divided_facts _ j n Hn (proj2 (good_axis (second_axis k))) Hj) as (L2 & _).
  destruct (sr_comp _ _ _ SR _ L1) as (Wi & Xi & Ei & _). destruct (sr_comp _ _ _ SR _ L2) as (Wj & Xj & Ej & _).
  exists (Wi, Xi), (Wj, Xj). split; auto. split; auto. unfold side_quad, rule_of. unfold G in Ei, Ej. rewrite Ei, Ej. reflexivity.
Qed.
End Box.
