(** Proofs about examples/mumag3.py, part 5: quadratic charges, gradients, stray field. *)
From Coquelicot Require Import Coquelicot.
From Verif Require Import Base BaseFacts P_Vec M_Quat M_RFun M_Domain M_Tensor M_Calc M_Integrate M_Surface M_Mumag.
From Verif Require Import S_Calc P_AD P_Calc P_Calc2 S_Integrate P_Integrate1 P_Integrate2 P_Integrate3 S_Model S_Surface S_Mumag.
From Verif Require Import P_Surface1 P_Surface2 P_Surface3 P_Surface4 P_Surface5 P_Mumag1 P_Mumag2 P_Mumag3 P_Mumag4.

Lemma poly_schwarz n f : poly n f -> forall i j x, (i < 3)%nat -> (j < 3)%nat -> length x = 3%nat ->
  pd i (pd j f) x = pd j (pd i f) x.
Proof.
  induction 1 as [n c|n k f Hk Hf IH|n f g Hf IHf Hg IHg|n f g Hf IH E]; intros i j x Hi Hj Hx.
  - assert (Z : forall i, (i < 3)%nat -> forall y, length y = 3%nat -> pd i (fun _ : list R => c) y = 0).
    { intros l _ y _. unfold pd. apply Derive_const. }
    rewrite (pd_const3 i 0 _ x Hx (Z j Hj)), (pd_const3 j 0 _ x Hx (Z i Hi)). reflexivity.
  - assert (E2 : forall i j, (i < 3)%nat -> (j < 3)%nat -> pd i (pd j (fun x => nth k x 0 * f x)) x =
       (if Nat.eqb j k then pd i f x else 0) + ((if Nat.eqb i k then pd j f x else 0) + nth k x 0 * pd i (pd j f) x)).
    { intros a b Ha Hb.
      rewrite (pd_same3 a _ (fun y => (if Nat.eqb b k then f y else 0) + nth k y 0 * pd b f y) x Hx).
      2:{ intros y Hy. apply pd_coord_mul; auto. eapply poly_smooth; eauto. }
      rewrite (pd_plus_at a (fun y => if Nat.eqb b k then f y else 0) (fun y => nth k y 0 * pd b f y) x).
      - f_equal.
        + destruct (Nat.eqb b k); [reflexivity|]. unfold pd. apply Derive_const.
        + apply pd_coord_mul; auto. eapply poly_smooth; eauto. eapply poly_pd; eauto.
      - destruct (Nat.eqb b k); [eapply poly_smooth; eauto|apply ex_derive_const].
      - apply (poly_smooth (S (pred n)) (fun y => nth k y 0 * pd b f y)); auto. apply poly_mul; auto. eapply poly_pd; eauto. }
    rewrite (E2 i j Hi Hj), (E2 j i Hj Hi), (IH i j x Hi Hj Hx). ring.
  - assert (E2 : forall i j, (i < 3)%nat -> (j < 3)%nat -> pd i (pd j (fun x => f x + g x)) x = pd i (pd j f) x + pd i (pd j g) x).
    { intros a b Ha Hb. rewrite (pd_same3 a _ (fun y => pd b f y + pd b g y) x Hx).
      2:{ intros y Hy. apply pd_plus_at; eapply poly_smooth; eauto. }
      apply pd_plus_at; eapply poly_smooth; eauto; eapply poly_pd; eauto. }
    rewrite (E2 i j Hi Hj), (E2 j i Hj Hi), IHf, IHg by auto. reflexivity.
  - rewrite <- (pd_same3 i (pd j f) (pd j g) x Hx) by (intros y Hy; apply pd_same3; auto).
    rewrite <- (pd_same3 j (pd i f) (pd i g) x Hx) by (intros y Hy; apply pd_same3; auto). apply IH; auto.
Qed.

(** the expansion used on a face is the full Taylor polynomial there *)
Lemma plane_taylor_taylor k g c val q : (k < 3)%nat ->
  pd (first_axis k) (pd (second_axis k) g) (place k val c) = pd (second_axis k) (pd (first_axis k) g) (place k val c) ->
  plane_taylor (first_axis k) (second_axis k) g (place k val c) (place k val q) = taylor 2 g (place k val c) (place k val q).
Proof.
  intros Hk HS. unfold taylor, total. cbn [seq map dirder].
  change (INR (fact 0)) with 1. change (INR (fact 1)) with 1. replace (INR (fact 2)) with 2 by (cbn; lra).
  unfold total. cbn [seq map]. unfold plane_taylor, sumR.
  destruct k as [|[|[|k]]]; try lia; cbn [place map2 fold_right nth first_axis second_axis] in *; rewrite ?HS; field.
Qed.
Lemma plane_taylor_poly k g c val q : (k < 3)%nat -> poly 2 g ->
  plane_taylor (first_axis k) (second_axis k) g (place k val c) (place k val q) = g (place k val q).
Proof.
  intros Hk Hg. destruct (axes_lt k Hk) as (L1 & L2).
  assert (Lp : forall q, length (place k val q) = 3%nat) by (intros; destruct k as [|[|k]]; reflexivity).
  rewrite plane_taylor_taylor; auto.
  - apply taylor_poly; auto.
  - apply (poly_schwarz 2); auto.
Qed.

(** ** derivatives in the target point *)
Lemma face_moment_partials method N W k val u v n i j m X : sound_rule method N W -> (k < 3)%nat -> (1 <= n)%nat ->
  nondecreasing u -> nondecreasing v -> (S i < length u)%nat -> (S j < length v)%nat -> length X = 3%nat ->
  (forall q, rect u v q -> place k val q <> X) -> partials 3 (face_moment method k val u v n i j m) X.
Proof.
  intros SR Hk Hn Nu Nv Hi Hj LX NX l Hl. unfold face_moment, rule_of.
  destruct (divided_facts u i n Hn Nu Hi) as (A1 & A2 & _). destruct (divided_facts v j n Hn Nv Hj) as (B1 & B2 & _).
  destruct (sr_comp _ _ _ SR _ A1) as (Wi & Xi & Ei & _). destruct (sr_comp _ _ _ SR _ B1) as (Wj & Xj & Ej & _). rewrite Ei, Ej.
  apply (ex_derive_iterated2 (fun t q => monos (nth 0 q 0 - middle u i) (nth 1 q 0 - middle v j) m / dist (upd X l t) (place k val q))).
  intros a b Ha Hb. cbn [snd] in Ha, Hb.
  pose proof (sr_between _ _ _ SR _ Wi Xi A1 A2 Ei) as B3. pose proof (sr_between _ _ _ SR _ Wj Xj B1 B2 Ej) as B4.
  unfold all_between in B3, B4. rewrite Forall_forall in B3, B4.
  assert (Rq : rect u v [a; b]). { apply (rect_divided u v i j n); auto. exists a, b. split; auto. }
  assert (Lp : length (place k val [a; b]) = 3%nat) by (destruct k as [|[|k]]; reflexivity).
  assert (Hd : dist X (place k val [a; b]) <> 0).
  { intros E. apply dist_0 in E; auto. apply (NX _ Rq). auto. }
  apply (ex_derive_mult (fun _ => monos (nth 0 [a; b] 0 - middle u i) (nth 1 [a; b] 0 - middle v j) m)
            (fun t => / dist (upd X l t) (place k val [a; b]))); [apply ex_derive_const|].
  apply (ex_derive_inv (fun t => dist (upd X l t) (place k val [a; b]))).
  - apply ex_derive_dist; auto.
  - rewrite upd_self by lia. auto.
Qed.

Section Box.
Variables (xs ys zs : list R) (c : brick).
Hypothesis HC : Cuboid xs ys zs = Ok c.
Variables (method : quadrule) (N W : list R) (n : nat).
Hypothesis SR : sound_rule method N W.
Hypothesis Hn : (1 <= n)%nat.
Let U k := axis_grid xs ys zs (first_axis k).
Let V k := axis_grid xs ys zs (second_axis k).

Lemma side_sum_derive k (F : nat -> nat -> nat -> R -> R) (dF : nat -> nat -> nat -> R) t :
  (forall i j m, (S i < length (U k))%nat -> (S j < length (V k))%nat -> (m < 6)%nat -> is_derive (F i j m) t (dF i j m)) ->
  is_derive (fun t => side_sum xs ys zs k (fun i j m => F i j m t)) t (side_sum xs ys zs k dF).
Proof.
  intros H. unfold side_sum. apply (is_derive_lsum _ (fun i t => lsum _ (fun j => lsum 6 (fun m => F i j m t)))). intros i Hi.
  apply (is_derive_lsum _ (fun j t => lsum 6 (fun m => F i j m t))). intros j Hj.
  apply (is_derive_lsum _ (fun m t => F i j m t)). intros m Hm. apply H; auto; unfold U, V in *; lia.
Qed.
Lemma box_integral_derive g X l : length X = 3%nat -> (l < 3)%nat -> ~ on_boundary xs ys zs X ->
  is_derive (fun t => box_integral xs ys zs method n g (upd X l t)) (nth l X 0)
    (sumR (map (fun s => side_sum xs ys zs (fst s) (fun i j m =>
      coefs6 (first_axis (fst s)) (second_axis (fst s)) g (side_center xs ys zs (fst s) (snd s) i j) m
      * pd l (side_moment xs ys zs method n (fst s) (snd s) i j m) X)) sides)).
Proof.
  intros LX Hl NX. unfold box_integral.
  assert (G : forall L, incl L sides ->
    is_derive (fun t => sumR (map (fun s => side_sum xs ys zs (fst s) (fun i j m =>
      coefs6 (first_axis (fst s)) (second_axis (fst s)) g (side_center xs ys zs (fst s) (snd s) i j) m
      * side_moment xs ys zs method n (fst s) (snd s) i j m (upd X l t))) L)) (nth l X 0)
    (sumR (map (fun s => side_sum xs ys zs (fst s) (fun i j m =>
      coefs6 (first_axis (fst s)) (second_axis (fst s)) g (side_center xs ys zs (fst s) (snd s) i j) m
      * pd l (side_moment xs ys zs method n (fst s) (snd s) i j m) X)) L))).
  { induction L as [|s L IH]; intros HI.
    - exact (is_derive_const (V := R_NormedModule) 0 (nth l X 0)).
    - cbn [map]. unfold sumR. cbn [fold_right].
      apply (is_derive_plus (fun t => side_sum xs ys zs (fst s) (fun i j m =>
         coefs6 (first_axis (fst s)) (second_axis (fst s)) g (side_center xs ys zs (fst s) (snd s) i j) m
         * side_moment xs ys zs method n (fst s) (snd s) i j m (upd X l t)))).
      + apply (side_sum_derive (fst s) (fun i j m t =>
         coefs6 (first_axis (fst s)) (second_axis (fst s)) g (side_center xs ys zs (fst s) (snd s) i j) m
         * side_moment xs ys zs method n (fst s) (snd s) i j m (upd X l t))). intros i j m Hi Hj Hm.
        apply (is_derive_scal (fun t => side_moment xs ys zs method n (fst s) (snd s) i j m (upd X l t))).
        apply Derive_correct. assert (Hs : In s sides) by (apply HI; left; auto).
        pose proof (sides_lt s Hs) as Hk.
        apply (face_moment_partials method N W (fst s) (side_value xs ys zs (fst s) (snd s)) (U (fst s)) (V (fst s)) n i j m X SR Hk Hn); auto.
        * apply (proj2 (good_axis xs ys zs c HC (first_axis (fst s)))).
        * apply (proj2 (good_axis xs ys zs c HC (second_axis (fst s)))).
        * apply (off_side xs ys zs (fst s) (snd s) X Hk NX).
      + apply IH. intros z Hz. apply HI. right. auto. }
  apply G. apply incl_refl.
Qed.

Lemma grad_tensors_ok (D : list R -> Prop) x : openset 3 D -> (forall y, D y -> ~ on_boundary xs ys zs y) ->
  shape x = [3%nat] -> D (tlist x) ->
  exists dt, surface_tensors_grad x c (SubInt (Z.of_nat n)) method = Ok dt /\
    Forall2 (fun s T => shape T = [length (U (fst s)) - 1; length (V (fst s)) - 1; 6; 3]%nat /\
      forall i j m l, (S i < length (U (fst s)))%nat -> (S j < length (V (fst s)))%nat -> (m < 6)%nat -> (l < 3)%nat ->
        entry T [i; j; m; l] = pd l (side_moment xs ys zs method n (fst s) (snd s) i j m) (tlist x)) sides dt.
Proof.
  intros HO HD Sx Dx. unfold surface_tensors_grad. rewrite (faces_sides xs ys zs c HC), map_map. apply sequence_map_ok.
  intros s Hs. pose proof (sides_lt s Hs) as Hk.
  pose (F := fun (p : list nat) X => match p with [i; j; m] => side_moment xs ys zs method n (fst s) (snd s) i j m X | _ => 0 end).
  assert (RF : repD 3 D [length (U (fst s)) - 1; length (V (fst s)) - 1; 6]%nat
     (fun z => integrate_face (side_face (fst s) (U (fst s)) (V (fst s)) (side_value xs ys zs (fst s) (snd s))) z (SubInt (Z.of_nat n)) method) F).
  { intros t St Dt.
    destruct (integrate_face_ok method N W (fst s) (U (fst s)) (V (fst s)) (side_value xs ys zs (fst s) (snd s)) t n) as (T & E & ST & VT); auto.
    - apply (good_axis xs ys zs c HC).
    - apply (good_axis xs ys zs c HC).
    - apply (off_side xs ys zs (fst s) (snd s) (tlist t) Hk). apply HD. auto.
    - exists T. split; auto. split; auto. intros p Hp. destruct (inside3 _ _ _ _ Hp) as (i & j & m & -> & Hi & Hj & Hm).
      cbn [F]. apply VT; auto; lia. }
  destruct (jacfwd_repD 3 D _ _ _ HO RF x Sx Dx) as (J & EJ & SJ & VJ). exists J. split; [exact EJ|]. split; [exact SJ|].
  intros i j m l Hi Hj Hm Hl. rewrite (VJ [i; j; m; l]); [reflexivity|].
  cbn [app]. repeat (constructor; [lia|]). constructor.
Qed.

Lemma grad_ok cs f g (Df D : list R -> Prop) x : openset 3 Df -> (forall y, on_boundary xs ys zs y -> Df y) ->
  repD 3 Df [] f (fun _ => g) -> charges c f = Ok cs ->
  openset 3 D -> (forall y, D y -> ~ on_boundary xs ys zs y) -> shape x = [3%nat] -> D (tlist x) ->
  exists dt T, surface_tensors_grad x c (SubInt (Z.of_nat n)) method = Ok dt /\ solve_surface_integral cs dt = Ok T /\
    shape T = [3%nat] /\ forall l, (l < 3)%nat -> entry T [l] = pd l (box_integral xs ys zs method n g) (tlist x).
Proof.
  intros HOf HDf Hf Ec HO HD Sx Dx.
  destruct (charges_ok xs ys zs c HC f g Df HOf HDf Hf) as (cs' & Ec' & FC). rewrite Ec in Ec'. injection Ec' as <-.
  destruct (grad_tensors_ok D x HO HD Sx Dx) as (dt & Et & FT). exists dt.
  destruct (solve_ok sides cs dt _ _ [3%nat] (fun s p => side_sum xs ys zs (fst s) (fun i j m =>
    coefs6 (first_axis (fst s)) (second_axis (fst s)) g (side_center xs ys zs (fst s) (snd s) i j) m
    * pd (hd 0%nat p) (side_moment xs ys zs method n (fst s) (snd s) i j m) (tlist x))) ltac:(discriminate) FC FT) as (T & E & S & VT).
  - intros s C T Hs (SC & VC) (ST & VT). destruct (tcontract3_ok C T _ _ _ [3%nat] SC ST) as (w & Ew & Sw & Vw).
    exists w. split; auto. split; auto. intros p Hp. inversion Hp as [|l ? q ? Hl Hq]; subst. inversion Hq; subst. cbn [hd].
    rewrite Vw. unfold side_sum. apply lsum_ext. intros i Hi. apply lsum_ext. intros j Hj. apply lsum_ext. intros m Hm.
    rewrite VC, VT by (unfold U, V; auto; lia). reflexivity.
  - exists T. split; auto. split; auto. split; auto. intros l Hl. rewrite VT by (apply inside1; auto). cbn [hd].
    unfold pd at 2. symmetry. apply is_derive_unique. apply box_integral_derive; auto. apply tlist_len3; auto.
Qed.
End Box.
