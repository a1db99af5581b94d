(** Product grids, disk and sphere. *)
From Coquelicot Require Import Coquelicot.
From Verif Require Import Base BaseFacts S_RFun P_Vec M_Integrate S_Integrate P_Integrate1 P_Integrate2.

Lemma map2_app {A B C} (g : A -> B -> C) : forall u u' v v', length u = length u' ->
  map2 g (u ++ v) (u' ++ v') = map2 g u u' ++ map2 g v v'.
Proof. induction u as [|x u IH]; intros [|x' u'] v v' E; simpl in *; try lia; auto. rewrite IH by lia. auto. Qed.
Lemma map2_maps {A A' B B' C} (g : A' -> B' -> C) (h : A -> A') (k : B -> B') l m :
  map2 g (map h l) (map k m) = map2 (fun a b => g (h a) (k b)) l m.
Proof. rewrite map2_map_l, map2_map_r. auto. Qed.

Lemma Forall2_length {A B} (P : A -> B -> Prop) l m : Forall2 P l m -> length l = length m.
Proof. induction 1; simpl; auto. Qed.

(** weighted sum over a list of points *)
Definition wsum {A} (g : A -> list R -> R) (ws : list A) (ps : list (list R)) : R := sumR (map2 g ws ps).

Lemma cartesian_length ls : length (cartesian ls) = fold_right Nat.mul 1%nat (map (@length R) ls).
Proof.
  induction ls as [|l ls IH]; [reflexivity|]. cbn [cartesian map fold_right]. rewrite <- IH.
  induction l as [|a l IHl]; [reflexivity|]. cbn [flat_map]. rewrite app_length, map_length, IHl. simpl. lia.
Qed.
Definition balanced (rs : list (list R * list R)) := Forall (fun r => length (fst r) = length (snd r)) rs.
Lemma cartesian_balanced rs : balanced rs -> length (cartesian (map fst rs)) = length (cartesian (map snd rs)).
Proof.
  intros H. rewrite !cartesian_length, !map_map. f_equal. apply map_ext_Forall. exact H.
Qed.
Lemma wsum_cartesian : forall rs F, balanced rs ->
  wsum (fun w p => prodR w * F p) (cartesian (map fst rs)) (cartesian (map snd rs)) = iterated rs F.
Proof.
  unfold wsum. induction rs as [|[w x] rs IH]; intros F H.
  - unfold sumR, prodR. simpl. ring.
  - inversion H as [|? ? H1 H2]; subst. cbn [fst snd] in H1. cbn [map fst snd cartesian iterated].
    pose proof (cartesian_balanced rs H2) as L.
    clear H. revert x H1. induction w as [|wi w IHw]; intros [|xi x] H1; simpl in H1; try lia; [reflexivity|].
    cbn [flat_map]. rewrite map2_app by (rewrite !map_length; auto). rewrite sumR_app, IHw by lia.
    cbn [map2]. unfold sumR at 3. cbn [fold_right]. fold (sumR (map2 (fun wi0 xi0 => wi0 * iterated rs (fun p => F (xi0 :: p))) w x)).
    f_equal. rewrite map2_maps.
    rewrite <- (IH (fun p => F (xi :: p)) H2).
    generalize (cartesian (map snd rs)) as Q, (cartesian (map fst rs)) as P. clear.
    intros Q P. revert Q. induction P as [|p P IH]; intros [|q Q]; unfold sumR in *; simpl; try ring.
    rewrite IH. unfold prodR. simpl. ring.
Qed.

Lemma sum2_swap (G : R -> R -> R -> R -> R) : forall w x w' x',
  sumR (map2 (fun a b => sumR (map2 (fun c d => G a b c d) w' x')) w x) =
  sumR (map2 (fun c d => sumR (map2 (fun a b => G a b c d) w x)) w' x').
Proof.
  induction w as [|a w IH]; intros [|b x] w' x'.
  1-3: cbn [map2]; change (sumR []) with 0; symmetry;
    rewrite (map2_ext _ (fun _ _ => 0 * 0)) by (intros; simpl; unfold sumR; simpl; ring);
    rewrite (sum_map2_scal 0 (fun _ _ => 0)); ring.
  cbn [map2]. change (sumR (?u :: ?v)) with (u + sumR v). rewrite IH.
  rewrite <- sum_map2_add. apply sum_map2_ext. intros c d. unfold sumR. simpl. ring.
Qed.
Lemma iterated_swap r1 r2 rest F : iterated (r2 :: r1 :: rest) (fun p => F (swap01 p)) = iterated (r1 :: r2 :: rest) F.
Proof.
  destruct r1 as [w1 x1], r2 as [w2 x2]. cbn [iterated swap01].
  transitivity (sumR (map2 (fun a b => sumR (map2 (fun c d => a * (c * iterated rest (fun p => F (d :: b :: p)))) w1 x1)) w2 x2)).
  { apply sum_map2_ext. intros. rewrite <- sum_map2_scal. reflexivity. }
  rewrite sum2_swap. apply sum_map2_ext. intros c d. rewrite <- sum_map2_scal. apply sum_map2_ext. intros; ring.
Qed.
Lemma prodR_swap01 l : prodR (swap01 l) = prodR l.
Proof. destruct l as [|a [|b t]]; auto. unfold prodR. simpl. ring. Qed.
Lemma map_swap01 {A B} (g : A -> B) l : map g (swap01 l) = swap01 (map g l).
Proof. destruct l as [|a [|b t]]; auto. Qed.

Lemma wsum_meshgrid rs F : balanced rs -> (2 <= length rs)%nat ->
  sumR (map2 (fun w p => w * F p) (map prodR (meshgrid (map fst rs))) (meshgrid (map snd rs))) = iterated rs F.
Proof.
  intros H L. destruct rs as [|r1 [|r2 rest]]; simpl in L; try lia.
  unfold meshgrid. rewrite <- !map_swap01, map_map, map2_maps. cbn [swap01].
  rewrite <- iterated_swap. rewrite <- wsum_cartesian.
  - unfold wsum. f_equal. apply map2_ext. intros. rewrite prodR_swap01. auto.
  - inversion H as [|? ? H1 H2]; subst. inversion H2; subst. repeat constructor; auto.
Qed.
Lemma meshgrid_length rs : balanced rs -> length (meshgrid (map fst rs)) = length (meshgrid (map snd rs)).
Proof.
  intros H. unfold meshgrid. rewrite !map_length, <- !map_swap01. apply cartesian_balanced.
  destruct rs as [|r1 [|r2 rest]]; auto.
  inversion H as [|? ? H1 H2]; subst. inversion H2; subst. repeat constructor; auto.
Qed.
Lemma in_cartesian ls : forall p, In p (cartesian ls) <-> Forall2 (fun x l => In x l) p ls.
Proof.
  induction ls as [|l ls IH]; intros p; cbn [cartesian].
  - split; [intros [<-|[]]; constructor|]. intros H; inversion H. left; auto.
  - rewrite in_flat_map. split.
    + intros (a & Ha & Hp). apply in_map_iff in Hp as (q & <- & Hq). constructor; auto. apply IH; auto.
    + intros H. inversion H as [|a ? q ? Ha Hq]; subst. exists a. split; auto. apply in_map_iff. exists q. split; auto. apply IH; auto.
Qed.
Lemma in_meshgrid ls p : In p (meshgrid ls) <-> Forall2 (fun x l => In x l) p ls.
Proof.
  unfold meshgrid. rewrite in_map_iff. split.
  - intros (q & <- & Hq). apply in_cartesian in Hq. destruct ls as [|l1 [|l2 ls]]; cbn [swap01] in *.
    + inversion Hq; subst. constructor.
    + inversion Hq as [|? ? ? ? A1 A2]; subst. inversion A2; subst. repeat constructor; auto.
    + inversion Hq as [|? ? ? ? A1 A2]; subst. inversion A2; subst. repeat constructor; auto.
  - intros H. exists (swap01 p). split; [destruct p as [|a [|b t]]; auto|]. apply in_cartesian.
    inversion H as [|? ? ? ? A1 A2]; subst; [constructor|]. inversion A2; subst; repeat constructor; auto.
Qed.
Lemma cartesian_nonempty ls : Forall (fun l => l <> []) ls -> cartesian ls <> [].
Proof.
  induction 1 as [|l ls Hl _ IH]; [discriminate|]. cbn [cartesian]. destruct l as [|a l]; [congruence|].
  cbn [flat_map]. destruct (cartesian ls); [congruence|]. discriminate.
Qed.

Lemma weighted_sum_scalar : forall W Z, length W = length Z -> W <> [] ->
  weighted_sum W (map A0 Z) = Ok (A0 (dotR W Z)).
Proof.
  induction W as [|w W IH]; intros [|z Z] L N; simpl in L; try lia; [congruence|].
  destruct W as [|w' W], Z as [|z' Z]; simpl in L; try lia.
  - cbn. do 2 f_equal. unfold dotR, sumR. simpl. ring.
  - specialize (IH (z' :: Z) ltac:(simpl; lia) ltac:(discriminate)).
    cbn [map] in *. cbn [weighted_sum] in *.
    change (weighted_sum (w :: w' :: W) (A0 z :: A0 z' :: map A0 Z)) with
      (s <- weighted_sum (w' :: W) (A0 z' :: map A0 Z) ;; match s with A0 y => Ok (A0 (w * z + y)) | A1 _ => Err TypeError end) .
    cbn [weighted_sum]. rewrite IH. cbn [bind]. rewrite (dotR_cons w z). reflexivity.
Qed.
Lemma weighted_sum_vec m : forall W Z, length W = length Z -> W <> [] -> Forall (fun z => length z = m) Z ->
  weighted_sum W (map A1 Z) = Ok (A1 (map (fun i => sumR (map2 (fun w z => w * nth i z 0) W Z)) (seq 0 m))).
Proof.
  assert (N : forall (g : nat -> R) i, (i < m)%nat -> nth i (map g (seq 0 m)) 0 = g i).
  { intros g i Hi. rewrite (nth_indep _ 0 (g 0%nat)) by (rewrite map_length, seq_length; auto).
    rewrite map_nth, seq_nth by auto. auto. }
  induction W as [|w W IH]; intros [|z Z] L Ne F; simpl in L; try lia; [congruence|].
  inversion F as [|? ? F1 F2]; subst.
  destruct W as [|w' W], Z as [|z' Z]; simpl in L; try lia.
  - cbn [map weighted_sum amap]. do 2 f_equal. apply vec_ext; [rewrite !map_length, seq_length; auto|].
    intros i Hi. rewrite map_length in Hi. rewrite N by auto. cbn [map2]. unfold sumR. cbn [fold_right].
    change (nth i (map (Rmult w) z) 0) with (nth i (vscal w z) 0). rewrite nth_vscal. ring.
  - specialize (IH (z' :: Z) ltac:(simpl; lia) ltac:(discriminate) F2).
    change (weighted_sum (w :: w' :: W) (map A1 (z :: z' :: Z))) with
      (s <- weighted_sum (w' :: W) (map A1 (z' :: Z)) ;;
       match s with A1 m0 => if Nat.eqb (length z) (length m0) then Ok (A1 (map2 (fun x y => w * x + y) z m0)) else Err TypeError
                  | A0 _ => Err TypeError end).
    rewrite IH. cbn [bind]. rewrite map_length, seq_length, Nat.eqb_refl. do 2 f_equal.
    apply vec_ext; [rewrite map2_length_eq, map_length, seq_length; rewrite ?map_length, ?seq_length; auto|].
    intros i Hi. rewrite map2_length, map_length, seq_length, Nat.min_id in Hi.
    rewrite (nth_map2 _ _ _ _ 0 0) by (rewrite ?map_length, ?seq_length; auto). rewrite !N by auto. reflexivity.
Qed.

(** the rule gives balanced, non-empty weights and nodes on these grids *)
Definition rules_of (method : quadrule) (ds : list (list R)) (rs : list (list R * list R)) : Prop :=
  Forall2 (fun d r => method d = Ok r /\ length (fst r) = length (snd r) /\ fst r <> []) ds rs.
Lemma rules_of_sequence method ds rs : rules_of method ds rs -> sequence (map method ds) = Ok rs.
Proof. induction 1 as [|d r ds rs [E _] _ IH]; [reflexivity|]. cbn [map sequence]. rewrite E, IH. reflexivity. Qed.
Lemma rules_of_balanced method ds rs : rules_of method ds rs -> balanced rs.
Proof. induction 1 as [|d r ds rs (_ & E & _) _ IH]; constructor; auto. Qed.
Lemma rules_of_length method ds rs : rules_of method ds rs -> length rs = length ds.
Proof. induction 1; simpl; auto. Qed.
Lemma rules_of_nonempty method ds rs : rules_of method ds rs -> Forall (fun l => l <> []) (map fst rs).
Proof. induction 1 as [|d r ds rs (_ & _ & E) _ IH]; constructor; auto. Qed.

Definition on_nodes (rs : list (list R * list R)) (p : list R) := Forall2 (fun x r => In x (snd r)) p rs.
Lemma on_nodes_meshgrid rs p : In p (meshgrid (map snd rs)) <-> on_nodes rs p.
Proof.
  rewrite in_meshgrid. unfold on_nodes. split.
  - intros H. remember (map snd rs) as ls. revert rs Heqls. induction H; intros [|r rs] E; try discriminate; constructor; injection E as -> E; auto.
  - induction 1; constructor; auto.
Qed.
Lemma integrate_unfold f ds method rs : (2 <= length ds)%nat -> rules_of method ds rs ->
  integrate f ds method =
    (F <- sequence (map f (meshgrid (map snd rs))) ;; weighted_sum (map prodR (meshgrid (map fst rs))) F).
Proof.
  intros L H. unfold integrate. rewrite (rules_of_sequence _ _ _ H). cbn [bind].
  pose proof (rules_of_length _ _ _ H). destruct rs as [|[w1 x1] [|r2 rs]]; simpl in *; try lia. reflexivity.
Qed.
Lemma mesh_nonempty method ds rs : rules_of method ds rs -> map prodR (meshgrid (map fst rs)) <> [].
Proof.
  intros H E. apply map_eq_nil in E. unfold meshgrid in E. apply map_eq_nil in E. revert E. apply cartesian_nonempty.
  pose proof (rules_of_nonempty _ _ _ H) as N. destruct (map fst rs) as [|a [|b t]]; auto.
  inversion N as [|? ? N1 N2]; subst. inversion N2; subst. repeat constructor; auto.
Qed.
Lemma integrate_nd f F ds method rs : (2 <= length ds)%nat -> rules_of method ds rs ->
  (forall p, on_nodes rs p -> f p = Ok (A0 (F p))) ->
  integrate f ds method = Ok (A0 (iterated rs F)).
Proof.
  intros L H Hf. rewrite (integrate_unfold _ _ _ _ L H).
  rewrite (map_ext_in f (fun p => Ok (A0 (F p)))) by (intros p Hp; apply Hf, on_nodes_meshgrid; auto).
  rewrite (sequence_ok_map (fun p => A0 (F p))). cbn [bind]. rewrite <- (map_map F A0).
  rewrite weighted_sum_scalar.
  - do 2 f_equal. unfold dotR. rewrite map2_map_r.
    apply (wsum_meshgrid rs F); [eapply rules_of_balanced; eauto|]. rewrite (rules_of_length _ _ _ H). auto.
  - rewrite !map_length. apply meshgrid_length. eapply rules_of_balanced; eauto.
  - eapply mesh_nonempty; eauto.
Qed.
Lemma integrate_nd_vec f F m ds method rs : (2 <= length ds)%nat -> rules_of method ds rs ->
  (forall p, on_nodes rs p -> f p = Ok (A1 (F p)) /\ length (F p) = m) ->
  integrate f ds method = Ok (A1 (map (fun i => iterated rs (fun p => nth i (F p) 0)) (seq 0 m))).
Proof.
  intros L H Hf. rewrite (integrate_unfold _ _ _ _ L H).
  rewrite (map_ext_in f (fun p => Ok (A1 (F p)))) by (intros p Hp; apply Hf, on_nodes_meshgrid; auto).
  rewrite (sequence_ok_map (fun p => A1 (F p))). cbn [bind]. rewrite <- (map_map F A1).
  rewrite (weighted_sum_vec m).
  - do 2 f_equal. apply map_ext. intros i. rewrite map2_map_r.
    apply (wsum_meshgrid rs (fun p => nth i (F p) 0)); [eapply rules_of_balanced; eauto|]. rewrite (rules_of_length _ _ _ H). auto.
  - rewrite !map_length. apply meshgrid_length. eapply rules_of_balanced; eauto.
  - eapply mesh_nonempty; eauto.
  - apply Forall_map, Forall_forall. intros p Hp. apply Hf, on_nodes_meshgrid; auto.
Qed.
Lemma integrate_nd_ext f g ds method rs : (2 <= length ds)%nat -> rules_of method ds rs ->
  (forall p, on_nodes rs p -> f p = g p) -> integrate f ds method = integrate g ds method.
Proof.
  intros L H Hf. rewrite !(integrate_unfold _ _ _ _ L H). f_equal. f_equal. apply map_ext_in.
  intros p Hp. apply Hf, on_nodes_meshgrid; auto.
Qed.
Lemma integrate_pointwise_ext f g ds method : (forall p, f p = g p) -> integrate f ds method = integrate g ds method.
Proof.
  intros H. unfold integrate. destruct (sequence (map method ds)) as [WX|e]; [|reflexivity]. cbn [bind].
  destruct WX as [|[w x] [|r rs]]; auto; [rewrite H; auto|]. rewrite (map_ext f g) by auto. auto.
Qed.

(** *** iterated sums *)
Lemma iterated_ext : forall rs F G, (forall p, length p = length rs -> F p = G p) -> iterated rs F = iterated rs G.
Proof.
  induction rs as [|[w x] rs IH]; intros F G H; [apply H; auto|]. cbn [iterated]. apply sum_map2_ext. intros. f_equal.
  apply IH. intros p Hp. apply H. simpl. auto.
Qed.
Lemma iterated_linear : forall rs a b F G,
  iterated rs (fun p => a * F p + b * G p) = a * iterated rs F + b * iterated rs G.
Proof.
  induction rs as [|[w x] rs IH]; intros a b F G; [reflexivity|]. cbn [iterated].
  rewrite <- !sum_map2_scal, <- sum_map2_add. apply sum_map2_ext. intros wi xi. rewrite IH. ring.
Qed.
Lemma iterated_scal rs c F : iterated rs (fun p => c * F p) = c * iterated rs F.
Proof. rewrite (iterated_ext _ _ (fun p => c * F p + 0 * 0)) by (intros; ring). rewrite (iterated_linear rs c 0 F (fun _ => 0)). ring. Qed.
Lemma iterated_product : forall rs fs, length fs = length rs ->
  iterated rs (fun p => prodR (map2 (fun f x => f x) fs p)) =
  prodR (map2 (fun (f : R -> R) r => sumR (map2 (fun w x => w * f x) (fst r) (snd r))) fs rs).
Proof.
  induction rs as [|[w x] rs IH]; intros [|f fs] L; simpl in L; try lia; [reflexivity|].
  cbn [iterated map2 fst snd]. change (prodR (?u :: ?v)) with (u * prodR v). rewrite <- (IH fs) by lia.
  rewrite (sum_map2_ext _ (fun wi xi => iterated rs (fun p => prodR (map2 (fun f x => f x) fs p)) * (wi * f xi))).
  - rewrite sum_map2_scal. ring.
  - intros wi xi. change (fun p => prodR (f xi :: map2 (fun f x => f x) fs p)) with
      (fun p => f xi * prodR (map2 (fun f x => f x) fs p)). rewrite iterated_scal. ring.
Qed.

(** *** the four rules on grids with at least two points *)
Record sound_rule (rule : quadrule) (nodes weights : list R) : Prop := {
  sr_comp : composite rule nodes weights;
  sr_nonempty : forall d W X, (2 <= length d)%nat -> rule d = Ok (W, X) -> W <> [];
  sr_between : forall d W X, (2 <= length d)%nat -> nondecreasing d -> rule d = Ok (W, X) -> all_between (first d) (final d) X }.
Lemma midpoint_sound : sound_rule midpoint [0] [2].
Proof.
  split; [apply midpoint_composite| |].
  - intros [|a [|b t]] W X L E; simpl in L; try lia. injection E as <- <-. discriminate.
  - intros. eapply midpoint_nodes; eauto. lia.
Qed.
Lemma trap_sound : sound_rule trap [-1; 1] [1; 1].
Proof.
  split; [apply trap_composite| |].
  - intros [|a [|b t]] W X L E; simpl in L; try lia. injection E as <- <-. discriminate.
  - intros. eapply trap_nodes; eauto. lia.
Qed.
Lemma simpson_sound : sound_rule simpson [-1; 0; 1] [1 / 3; 4 / 3; 1 / 3].
Proof.
  split; [apply simpson_composite| |].
  - intros [|a [|b t]] W X L E; simpl in L; try lia. rewrite simpson_eq in E. injection E as <- <-. discriminate.
  - intros. eapply simpson_nodes_between; eauto.
Qed.
Lemma gauss_sound nodes weights : length nodes = length weights -> weights <> [] -> Forall (fun x => -1 <= x <= 1) nodes ->
  sound_rule (gauss nodes weights) nodes weights.
Proof.
  intros L N B. split; [apply gauss_composite; auto| |].
  - intros [|a [|b t]] W X Ld E; simpl in Ld; try lia. 
    assert (EW : W = concat (adjacent (fun a b => map (fun v => (b - a) / 2 * v) weights) (a :: b :: t))) by (unfold gauss in E; congruence).
    rewrite EW, adjacent_cons. destruct weights; [congruence|]. discriminate.
  - intros. eapply gauss_nodes; eauto. lia.
Qed.
Lemma sound_rules_of rule nodes weights ds : sound_rule rule nodes weights -> Forall (fun d => (2 <= length d)%nat) ds ->
  exists rs, rules_of rule ds rs.
Proof.
  intros S. induction 1 as [|d ds Hd _ [rs IH]]; [exists []; constructor|].
  destruct (sr_comp _ _ _ S d Hd) as (W & X & E & L & _). exists ((W, X) :: rs). constructor; auto.
  repeat split; auto. eapply (sr_nonempty _ _ _ S); eauto.
Qed.
(** the 1d sum of a rule applied to a grid *)
Lemma rule_sum rule nodes weights d r f : sound_rule rule nodes weights -> (2 <= length d)%nat -> rule d = Ok r ->
  sumR (map2 (fun w x => w * f x) (fst r) (snd r)) = over_panels (ps_gauss nodes weights f) d.
Proof.
  intros S Hd E. destruct (sr_comp _ _ _ S d Hd) as (W & X & E' & L & H). rewrite E in E'. injection E' as ->.
  cbn [fst snd]. rewrite <- H. unfold dotR. rewrite map2_map_r. auto.
Qed.
Lemma rule_sum_poly rule nodes weights K d r c : sound_rule rule nodes weights -> reference_exact K nodes weights ->
  (2 <= length d)%nat -> (length c <= S K)%nat -> rule d = Ok r ->
  sumR (map2 (fun w x => w * peval c x) (fst r) (snd r)) = RInt (peval c) (first d) (final d).
Proof.
  intros S HK Hd Hc E. rewrite (rule_sum _ _ _ _ _ _ S Hd E).
  rewrite (over_panels_ext _ (RInt (peval c))) by (intros; eapply gauss_panel_exact; eauto).
  apply over_panels_RInt; [lia|]. intros; apply ex_RInt_peval.
Qed.

(** *** linspace *)
Lemma linspace_length a b n : length (linspace a b n) = n.
Proof. destruct n as [|[|n]]; auto. unfold linspace. rewrite map_length, seq_length. auto. Qed.
Lemma linspace_nth a b n i : (i <= S n)%nat -> nth i (linspace a b (S (S n))) 0 = a + INR i * ((b - a) / INR (S n)).
Proof.
  intros H. unfold linspace. set (g := fun i => a + INR i * ((b - a) / INR (S n))).
  rewrite (nth_indep _ 0 (g 0%nat)) by (rewrite map_length, seq_length; lia). rewrite (map_nth g), seq_nth by lia. reflexivity.
Qed.
Lemma linspace_first a b n : (2 <= n)%nat -> first (linspace a b n) = a.
Proof. destruct n as [|[|n]]; try lia. intros _. unfold first. simpl. lra. Qed.
Lemma final_nth d : d <> [] -> final d = nth (length d - 1) d 0.
Proof.
  intros N. unfold final. destruct d as [|a d]; [congruence|]. clear N. cbn [length]. rewrite Nat.sub_succ, Nat.sub_0_r.
  revert a. induction d as [|b d IH]; intros a; [reflexivity|]. cbn [length]. change (last (a :: b :: d) 0) with (last (b :: d) 0). rewrite IH. reflexivity.
Qed.
Lemma linspace_final a b n : (2 <= n)%nat -> final (linspace a b n) = b.
Proof.
  destruct n as [|[|n]]; try lia. intros _. rewrite final_nth by discriminate. rewrite linspace_length.
  replace (S (S n) - 1)%nat with (S n) by lia. rewrite linspace_nth by lia. field. apply not_0_INR. lia.
Qed.
Lemma nondecreasing_nth d : (forall i, (S i < length d)%nat -> nth i d 0 <= nth (S i) d 0) -> nondecreasing d.
Proof.
  induction d as [|a d IH]; intros H; [exact I|]. destruct d as [|b t]; [exact I|]. split.
  - apply (H 0%nat). simpl. lia.
  - apply IH. intros i Hi. apply (H (S i)). simpl in *. lia.
Qed.
Lemma linspace_nondecreasing a b n : a <= b -> nondecreasing (linspace a b n).
Proof.
  intros H. apply nondecreasing_nth. rewrite linspace_length. intros i Hi. destruct n as [|[|n]]; try lia.
  rewrite !linspace_nth by lia. apply Rplus_le_compat_l, Rmult_le_compat_r; [|apply le_INR; lia].
  apply Rmult_le_pos; [lra|]. apply Rlt_le, Rinv_0_lt_compat, lt_0_INR. lia.
Qed.
Lemma linspace_steps a b n : (2 <= n)%nat -> steps_at_most ((b - a) / INR (n - 1)) (linspace a b n).
Proof.
  intros Hn. assert (G : forall h d, (forall i, (S i < length d)%nat -> nth (S i) d 0 - nth i d 0 <= h) -> steps_at_most h d).
  { intros h. induction d as [|x d IH]; intros H; [exact I|]. destruct d as [|y t]; [exact I|]. split.
    - apply (H 0%nat). simpl. lia.
    - apply IH. intros i Hi. apply (H (S i)). simpl in *. lia. }
  apply G. rewrite linspace_length. intros i Hi. destruct n as [|[|n]]; try lia. rewrite !linspace_nth by lia.
  replace (S (S n) - 1)%nat with (S n) by lia. rewrite (S_INR i). lra.
Qed.

(** *** disk *)
Lemma disk_as_iterated rule nodes weights f F r o1 o2 n1 n2 rin p1 p2 : sound_rule rule nodes weights ->
  (2 <= n1)%nat -> (2 <= n2)%nat -> (forall p, length p = 2%nat -> f p = Ok (A0 (F p))) ->
  exists rs, rules_of rule [linspace rin r n1; linspace p1 p2 n2] rs /\
  integrate_disk f r [o1; o2] (NTup [n1; n2]) rin p1 p2 rule =
    Ok (A0 (iterated rs (fun u => F [nth 0 u 0 * cos (nth 1 u 0) + o1; nth 0 u 0 * sin (nth 1 u 0) + o2] * nth 0 u 0))).
Proof.
  intros S H1 H2 Hf.
  destruct (sound_rules_of _ _ _ [linspace rin r n1; linspace p1 p2 n2] S) as [rs HR].
  { repeat constructor; rewrite linspace_length; auto. }
  exists rs. split; auto. unfold integrate_disk, expand_counts. cbn [length Nat.eqb bind nth].
  apply integrate_nd; auto.
  intros p Hp. apply Forall2_length in Hp. rewrite (rules_of_length _ _ _ HR) in Hp.
  destruct p as [|rr [|phi [|? ?]]]; try discriminate. unfold disk_integrand. cbn [bcast1 length Nat.eqb bind map2].
  rewrite Hf by reflexivity. reflexivity.
Qed.
Lemma disk_counts f r o n rin p1 p2 rule : 
  integrate_disk f r o (NInt n) rin p1 p2 rule = integrate_disk f r o (NTup [n; n]) rin p1 p2 rule.
Proof. reflexivity. Qed.
Lemma RInt_const_poly c a b : RInt (peval [c]) a b = c * (b - a).
Proof. rewrite (is_RInt_unique _ _ _ _ (is_RInt_peval _ _ _)). simpl. field. Qed.
Lemma RInt_linear_poly a b : RInt (peval [0; 1]) a b = (b ^ 2 - a ^ 2) / 2.
Proof. rewrite (is_RInt_unique _ _ _ _ (is_RInt_peval _ _ _)). simpl. field. Qed.
Lemma RInt_square_poly a b : RInt (peval [0; 0; 1]) a b = (b ^ 3 - a ^ 3) / 3.
Proof. rewrite (is_RInt_unique _ _ _ _ (is_RInt_peval _ _ _)). simpl. field. Qed.

Lemma disk_constant rule nodes weights K c r o1 o2 n1 n2 rin p1 p2 : sound_rule rule nodes weights ->
  reference_exact K nodes weights -> (1 <= K)%nat -> (2 <= n1)%nat -> (2 <= n2)%nat ->
  integrate_disk (fun _ => Ok (A0 c)) r [o1; o2] (NTup [n1; n2]) rin p1 p2 rule =
    Ok (A0 (c * ((r ^ 2 - rin ^ 2) / 2) * (p2 - p1))).
Proof.
  intros S HK K1 H1 H2.
  destruct (disk_as_iterated _ _ _ (fun _ => Ok (A0 c)) (fun _ => c) r o1 o2 n1 n2 rin p1 p2 S H1 H2) as (rs & HR & ->); auto.
  do 2 f_equal. pose proof (rules_of_length _ _ _ HR) as L.
  rewrite (iterated_ext _ _ (fun p => prodR (map2 (fun f x => f x) [peval [0; 1]; peval [c]] p))).
  2:{ intros p Hp. rewrite L in Hp. destruct p as [|x [|y [|? ?]]]; try discriminate. unfold prodR. simpl. ring. }
  rewrite iterated_product by (rewrite L; auto).
  inversion HR as [|? r1 ? ? [E1 _] HR2]; subst. inversion HR2 as [|? r2 ? ? [E2 _] HR3]; subst. inversion HR3; subst.
  cbn [map2]. rewrite (rule_sum_poly _ _ _ K (linspace rin r n1) _ _ S HK); auto; try (rewrite ?linspace_length; simpl; lia).
  rewrite (rule_sum_poly _ _ _ K (linspace p1 p2 n2) _ _ S HK); auto; try (rewrite ?linspace_length; simpl; lia).
  rewrite !linspace_first, !linspace_final by auto. rewrite RInt_const_poly, RInt_linear_poly. unfold prodR. simpl. field.
Qed.

Lemma norm2_polar r phi : 0 <= r -> normR [r * cos phi; r * sin phi] = r.
Proof.
  intros H. unfold normR, sumR. simpl.
  replace (r * cos phi * (r * cos phi) + (r * sin phi * (r * sin phi) + 0)) with (r * r * ((sin phi)² + (cos phi)²)) by (unfold Rsqr; ring).
  rewrite sin2_cos2, Rmult_1_r. apply sqrt_square; auto.
Qed.
Lemma disk_support_only rule nodes weights f g r o1 o2 n1 n2 rin p1 p2 : sound_rule rule nodes weights ->
  (2 <= n1)%nat -> (2 <= n2)%nat -> 0 <= rin <= r ->
  (forall y1 y2, rin <= normR [y1 - o1; y2 - o2] <= r -> f [y1; y2] = g [y1; y2]) ->
  integrate_disk f r [o1; o2] (NTup [n1; n2]) rin p1 p2 rule = integrate_disk g r [o1; o2] (NTup [n1; n2]) rin p1 p2 rule.
Proof.
  intros S H1 H2 Hr Hfg.
  destruct (sound_rules_of _ _ _ [linspace rin r n1; linspace p1 p2 n2] S) as [rs HR].
  { repeat constructor; rewrite linspace_length; auto. }
  unfold integrate_disk, expand_counts. cbn [length Nat.eqb bind nth].
  apply (integrate_nd_ext _ _ _ _ rs); auto.
  intros p Hp. inversion HR as [|? [w1 x1] ? ? [E1 _] HR2]; subst. inversion HR2 as [|? r2 ? ? [E2 _] HR3]; subst. inversion HR3; subst.
  inversion Hp as [|rr ? q ? A1 A2]; subst. inversion A2 as [|phi ? q' ? B1 B2]; subst. inversion B2; subst.
  unfold disk_integrand. cbn [bcast1 length Nat.eqb bind map2].
  rewrite Hfg; auto.
  pose proof (sr_between _ _ _ S (linspace rin r n1) w1 x1 ltac:(rewrite linspace_length; auto) (linspace_nondecreasing rin r n1 ltac:(lra)) E1) as B.
  rewrite linspace_first, linspace_final in B by auto. cbn [snd] in A1. unfold all_between in B. rewrite Forall_forall in B. specialize (B rr A1).
  replace (rr * cos phi + o1 - o1) with (rr * cos phi) by ring. replace (rr * sin phi + o2 - o2) with (rr * sin phi) by ring.
  rewrite norm2_polar; lra.
Qed.
Lemma disk_shift f r o1 o2 s1 s2 n rin p1 p2 rule :
  integrate_disk f r [o1 + s1; o2 + s2] n rin p1 p2 rule =
  integrate_disk (fun p => f (vadd p [s1; s2])) r [o1; o2] n rin p1 p2 rule.
Proof.
  unfold integrate_disk. destruct (expand_counts 2 n) as [ns|e]; [|reflexivity]. cbn [bind].
  apply integrate_pointwise_ext. intros [|rr [|phi [|? ?]]]; auto.
  unfold disk_integrand. cbn [bcast1 length Nat.eqb bind map2]. unfold vadd. cbn [map2]. rewrite !Rplus_assoc. reflexivity.
Qed.
Lemma disk_bad_counts f r o l rin p1 p2 rule : length l <> 2%nat ->
  integrate_disk f r o (NTup l) rin p1 p2 rule = Err AssertionError.
Proof. intros H. unfold integrate_disk, expand_counts. apply Nat.eqb_neq in H. rewrite H. reflexivity. Qed.

(** *** sphere *)
Lemma sphere_as_iterated rule nodes weights f F r o1 o2 o3 n1 n2 n3 rin p1 p2 t1 t2 : sound_rule rule nodes weights ->
  (2 <= n1)%nat -> (2 <= n2)%nat -> (2 <= n3)%nat -> (forall p, length p = 3%nat -> f p = Ok (A0 (F p))) ->
  exists rs, rules_of rule [linspace rin r n1; linspace p1 p2 n2; linspace t1 t2 n3] rs /\
  integrate_sphere f r [o1; o2; o3] (NTup [n1; n2; n3]) rin p1 p2 t1 t2 rule =
    Ok (A0 (iterated rs (fun u => let r := nth 0 u 0 in let phi := nth 1 u 0 in let theta := nth 2 u 0 in
      F [r * sin phi * cos theta + o1; r * sin phi * sin theta + o2; r * cos phi + o3] * (r ^ 2 * sin phi)))).
Proof.
  intros S H1 H2 H3 Hf.
  destruct (sound_rules_of _ _ _ [linspace rin r n1; linspace p1 p2 n2; linspace t1 t2 n3] S) as [rs HR].
  { repeat constructor; rewrite linspace_length; auto. }
  exists rs. split; auto. unfold integrate_sphere, expand_counts. cbn [length Nat.eqb bind nth].
  apply integrate_nd; auto; [simpl; lia|].
  intros p Hp. apply Forall2_length in Hp. rewrite (rules_of_length _ _ _ HR) in Hp.
  destruct p as [|rr [|phi [|th [|? ?]]]]; try discriminate. unfold sphere_integrand. cbn [bcast1 length Nat.eqb bind map2].
  rewrite Hf by reflexivity. cbn [bind amap nth]. cbv zeta. do 2 f_equal. ring.
Qed.
Lemma sphere_constant rule nodes weights K c r o1 o2 o3 n1 n2 n3 rin p1 p2 t1 t2 : sound_rule rule nodes weights ->
  reference_exact K nodes weights -> (2 <= K)%nat -> (2 <= n1)%nat -> (2 <= n2)%nat -> (2 <= n3)%nat ->
  exists s, integrate (pointwise sin) [linspace p1 p2 n2] rule = Ok (A0 s) /\
  integrate_sphere (fun _ => Ok (A0 c)) r [o1; o2; o3] (NTup [n1; n2; n3]) rin p1 p2 t1 t2 rule =
    Ok (A0 (c * ((r ^ 3 - rin ^ 3) / 3) * s * (t2 - t1))).
Proof.
  intros S HK K1 H1 H2 H3.
  eexists. split; [eapply integrate_1d, (sr_comp _ _ _ S); rewrite linspace_length; auto|].
  destruct (sphere_as_iterated _ _ _ (fun _ => Ok (A0 c)) (fun _ => c) r o1 o2 o3 n1 n2 n3 rin p1 p2 t1 t2 S H1 H2 H3) as (rs & HR & ->); auto.
  do 2 f_equal. pose proof (rules_of_length _ _ _ HR) as L.
  rewrite (iterated_ext _ _ (fun p => prodR (map2 (fun f x => f x) [peval [0; 0; 1]; sin; peval [c]] p))).
  2:{ intros p Hp. rewrite L in Hp. destruct p as [|x [|y [|z [|? ?]]]]; try discriminate. unfold prodR. simpl. ring. }
  rewrite iterated_product by (rewrite L; auto).
  inversion HR as [|? r1 ? ? [E1 _] HR2]; subst. inversion HR2 as [|? r2 ? ? [E2 _] HR3]; subst.
  inversion HR3 as [|? r3 ? ? [E3 _] HR4]; subst. inversion HR4; subst.
  cbn [map2]. rewrite (rule_sum_poly _ _ _ K (linspace rin r n1) _ _ S HK); auto; try (rewrite ?linspace_length; simpl; lia).
  rewrite (rule_sum_poly _ _ _ K (linspace t1 t2 n3) _ _ S HK); auto; try (rewrite ?linspace_length; simpl; lia).
  rewrite (rule_sum _ _ _ (linspace p1 p2 n2) _ sin S); auto; [|rewrite linspace_length; auto].
  rewrite !linspace_first, !linspace_final by auto. rewrite RInt_const_poly, RInt_square_poly. unfold prodR. simpl. field.
Qed.
Lemma norm3_polar r phi th : 0 <= r -> normR [r * sin phi * cos th; r * sin phi * sin th; r * cos phi] = r.
Proof.
  intros H. unfold normR, sumR. simpl.
  replace (r * sin phi * cos th * (r * sin phi * cos th) + (r * sin phi * sin th * (r * sin phi * sin th) + (r * cos phi * (r * cos phi) + 0)))
    with (r * r * ((sin phi)² * ((sin th)² + (cos th)²) + (cos phi)²)) by (unfold Rsqr; ring).
  rewrite !sin2_cos2, Rmult_1_r, sin2_cos2, Rmult_1_r. apply sqrt_square; auto.
Qed.
Lemma sphere_support_only rule nodes weights f g r o1 o2 o3 n1 n2 n3 rin p1 p2 t1 t2 : sound_rule rule nodes weights ->
  (2 <= n1)%nat -> (2 <= n2)%nat -> (2 <= n3)%nat -> 0 <= rin <= r ->
  (forall y1 y2 y3, rin <= normR [y1 - o1; y2 - o2; y3 - o3] <= r -> f [y1; y2; y3] = g [y1; y2; y3]) ->
  integrate_sphere f r [o1; o2; o3] (NTup [n1; n2; n3]) rin p1 p2 t1 t2 rule =
  integrate_sphere g r [o1; o2; o3] (NTup [n1; n2; n3]) rin p1 p2 t1 t2 rule.
Proof.
  intros S H1 H2 H3 Hr Hfg.
  destruct (sound_rules_of _ _ _ [linspace rin r n1; linspace p1 p2 n2; linspace t1 t2 n3] S) as [rs HR].
  { repeat constructor; rewrite linspace_length; auto. }
  unfold integrate_sphere, expand_counts. cbn [length Nat.eqb bind nth].
  apply (integrate_nd_ext _ _ _ _ rs); auto; [simpl; lia|].
  intros p Hp. inversion HR as [|? [w1 x1] ? ? [E1 _] HR2]; subst. inversion HR2 as [|? r2 ? ? [E2 _] HR3]; subst.
  inversion HR3 as [|? r3 ? ? [E3 _] HR4]; subst. inversion HR4; subst.
  inversion Hp as [|rr ? q ? A1 A2]; subst. inversion A2 as [|phi ? q' ? B1 B2]; subst.
  inversion B2 as [|th ? q2 ? C1 C2]; subst. inversion C2; subst.
  unfold sphere_integrand. cbn [bcast1 length Nat.eqb bind map2].
  rewrite Hfg; auto.
  pose proof (sr_between _ _ _ S (linspace rin r n1) w1 x1 ltac:(rewrite linspace_length; auto) (linspace_nondecreasing rin r n1 ltac:(lra)) E1) as B.
  rewrite linspace_first, linspace_final in B by auto. cbn [snd] in A1. unfold all_between in B. rewrite Forall_forall in B. specialize (B rr A1).
  replace (rr * sin phi * cos th + o1 - o1) with (rr * sin phi * cos th) by ring.
  replace (rr * sin phi * sin th + o2 - o2) with (rr * sin phi * sin th) by ring.
  replace (rr * cos phi + o3 - o3) with (rr * cos phi) by ring.
  rewrite norm3_polar; lra.
Qed.
Lemma sphere_shift f r o1 o2 o3 s1 s2 s3 n rin p1 p2 t1 t2 rule :
  integrate_sphere f r [o1 + s1; o2 + s2; o3 + s3] n rin p1 p2 t1 t2 rule =
  integrate_sphere (fun p => f (vadd p [s1; s2; s3])) r [o1; o2; o3] n rin p1 p2 t1 t2 rule.
Proof.
  unfold integrate_sphere. destruct (expand_counts 3 n) as [ns|e]; [|reflexivity]. cbn [bind].
  apply integrate_pointwise_ext. intros [|rr [|phi [|th [|? ?]]]]; auto.
  unfold sphere_integrand. cbn [bcast1 length Nat.eqb bind map2]. unfold vadd. cbn [map2]. rewrite !Rplus_assoc. reflexivity.
Qed.
