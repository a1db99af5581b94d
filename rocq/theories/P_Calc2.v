(** Proofs about calc.py, part 2: Hessian vector products and the derivative operator. *)
From Coq Require Import String Permutation FunctionalExtensionality.
From Coquelicot Require Import Coquelicot.
From Verif Require Import Base BaseFacts P_Vec M_Tensor M_Calc S_Calc P_AD P_Calc.

(** ** Hessian vector products *)
Lemma hv_chain n D f x v i : openset n D -> C2 n D f -> D x -> List.length v = n -> (i < n)%nat ->
  Derive (fun t => pd i f (axpy t x v)) 0 = hv_ n f x v i.
Proof.
  intros HO HC Dx Lv Hi.
  transitivity (lsum n (fun j => pd j (pd i f) x * nth j v 0)).
  { apply is_derive_unique. apply (chain_line n D (pd i f) x v HO (proj2 HC i Hi) Dx Lv). }
  apply lsum_ext. intros j Hj. f_equal. apply (schwarz_n n D); auto.
Qed.

Lemma hvp_rep0 n D F f x v : openset n D -> C2 n D f -> D (tlist x) -> rep0 n F f ->
  shape x = [n] -> shape v = [n] ->
  exists a, hvp F x v = Ok a /\ shape a = [n] /\
    forall i, (i < n)%nat -> entry a [i] = hv_ n f (tlist x) (tlist v) i.
Proof.
  intros HO HC Dx H Hx Hv. unfold hvp.
  destruct (jvp_rep1 n n _ _ x v (jacfwd_rep0 n F f H) Hx Hv) as (y & dy & E & _ & S & V).
  rewrite E. cbn [bind snd]. exists dy. split; [reflexivity|]. split; [exact S|].
  intros i Hi. rewrite V by auto. apply (hv_chain n D); auto. apply tlist_length; auto.
Qed.

Lemma grad_only_rep n f aux vag has_aux F : objective n f aux vag has_aux F ->
  rep1 n n (grad_only F vag has_aux) (fun i => pd i f).
Proof.
  intros H t Ht. unfold grad_only, grad_f. destruct vag.
  - destruct (H t Ht) as (v & Sv & Vv & g & Sg & Vg & E). rewrite E. cbn [bind].
    exists g. destruct has_aux; cbn [bind snd]; auto.
  - assert (R0 : rep0 n (val_part F has_aux) f).
    { intros u Hu. destruct (H u Hu) as (v & Sv & Vv & E). exists v. unfold val_part. rewrite E.
      destruct has_aux; cbn [bind]; auto. }
    destruct (H t Ht) as (v & Sv & Vv & E). rewrite E.
    destruct (jgrad_rep0 n _ f R0 t Ht) as (g & Eg & Sg & Vg). cbn [bind]. rewrite Eg. cbn [bind snd].
    exists g. auto.
Qed.

Lemma grad_f_objective n f aux vag has_aux F t : objective n f aux vag has_aux F -> shape t = [n] ->
  exists v g, grad_f F vag has_aux t = Ok ((v, if has_aux then Some (aux (tlist t)) else None), g) /\
    shape v = [] /\ entry v [] = f (tlist t) /\ shape g = [n] /\
    (forall i, (i < n)%nat -> entry g [i] = pd i f (tlist t)).
Proof.
  intros H Ht. pose proof (grad_only_rep n f aux vag has_aux F H t Ht) as (g & Eg & Sg & Vg).
  unfold grad_only in Eg. destruct (H t Ht) as (v & Sv & Vv & E). unfold grad_f in *. destruct vag.
  - destruct E as (g' & Sg' & Vg' & E). rewrite E in *. exists v, g'. destruct has_aux; cbn [bind]; auto.
  - rewrite E in *. cbn [bind] in Eg |- *. destruct (jgrad (val_part F has_aux) t) as [g'|e] eqn:EJ; [|discriminate].
    cbn [bind snd] in Eg |- *. injection Eg as ->. exists v, g. destruct has_aux; auto.
Qed.

Lemma bop_same (f : R -> R -> R) a b n : shape a = [n] -> shape b = [n] ->
  exists y, tbop f a b = Ok y /\ shape y = [n] /\
    forall i, (i < n)%nat -> entry y [i] = f (entry a [i]) (entry b [i]).
Proof.
  intros Ha Hb. unfold tbop, bshape. rewrite Ha, Hb. cbn [rev app bshape_rev]. unfold bdim.
  rewrite Nat.eqb_refl. cbn [bind rev app]. eexists. split; [reflexivity|]. split; [reflexivity|].
  intros i Hi. cbn [entry]. unfold bidx. cbn [rev app bidx_rev].
  destruct (Nat.eqb_spec n 1) as [->|]; [|reflexivity]. replace i with 0%nat by lia. reflexivity.
Qed.

Lemma hvp_for_ok n D f aux vag has_aux F x v alpha :
  openset n D -> C2 n D f -> D (tlist x) -> objective n f aux vag has_aux F ->
  shape x = [n] -> shape v = [n] ->
  exists a, hvp_forward_over_reverse F x v alpha vag has_aux = Ok a /\ shape a = [n] /\
    forall i, (i < n)%nat -> entry a [i] = hv_ n f (tlist x) (tlist v) i
                + match alpha with Some r => r * entry v [i] | None => 0 end.
Proof.
  intros HO HC Dx H Hx Hv. unfold hvp_forward_over_reverse.
  destruct (jvp_rep1 n n _ _ x v (grad_only_rep n f aux vag has_aux F H) Hx Hv) as (y & dy & E & _ & S & V).
  rewrite E. cbn [bind snd].
  assert (V' : forall i, (i < n)%nat -> entry dy [i] = hv_ n f (tlist x) (tlist v) i).
  { intros i Hi. rewrite V by auto. apply (hv_chain n D); auto. apply tlist_length; auto. }
  destruct alpha as [r|].
  - destruct (bop_same Rplus dy (tmap (fun s => r * s) v) n S Hv) as (z & -> & Sz & Vz).
    exists z. split; [reflexivity|]. split; [exact Sz|]. intros i Hi. rewrite Vz, V' by auto. reflexivity.
  - exists dy. split; [reflexivity|]. split; [exact S|]. intros i Hi. rewrite V' by auto. ring.
Qed.

Lemma pd_lsum m (h : nat -> list R -> R) (c : nat -> R) j x :
  (forall i, (i < m)%nat -> ex_derive (fun t => h i (upd x j t)) (nth j x 0)) ->
  pd j (fun y => lsum m (fun i => h i y * c i)) x = lsum m (fun i => pd j (h i) x * c i) /\
  ex_derive (fun t => lsum m (fun i => h i (upd x j t) * c i)) (nth j x 0).
Proof.
  induction m as [|m IH]; intros H.
  - split; [apply (Derive_const 0)|apply (ex_derive_const 0)].
  - destruct IH as (E & X); [intros; apply H; lia|]. pose proof (H m ltac:(lia)) as Hm. split.
    + rewrite lsum_S, <- E. unfold pd.
      rewrite (Derive_ext _ (fun t => lsum m (fun i => h i (upd x j t) * c i) + h m (upd x j t) * c m))
        by (intros; apply lsum_S).
      rewrite Derive_plus; auto.
      * f_equal. rewrite (Derive_mult _ (fun _ => c m)); [|exact Hm|apply (ex_derive_const (c m))].
        rewrite Derive_const, Rmult_0_r, Rplus_0_r. reflexivity.
      * apply (ex_derive_mult _ (fun _ => c m)); [exact Hm|apply (ex_derive_const (c m))].
    + apply (ex_derive_ext (fun t => lsum m (fun i => h i (upd x j t) * c i) + h m (upd x j t) * c m)).
      * intros. symmetry. apply lsum_S.
      * apply (ex_derive_plus (fun t => lsum m (fun i => h i (upd x j t) * c i)) (fun t => h m (upd x j t) * c m)); auto.
        apply (ex_derive_mult _ (fun _ => c m)); [exact Hm|apply (ex_derive_const (c m))].
Qed.

Lemma hvp_ror_ok n D f aux vag has_aux F x v :
  openset n D -> C2 n D f -> D (tlist x) -> objective n f aux vag has_aux F ->
  shape x = [n] -> shape v = [n] ->
  exists a, hvp_reverse_over_reverse F x v vag has_aux = Ok a /\ shape a = [n] /\
    forall i, (i < n)%nat -> entry a [i] = hv_ n f (tlist x) (tlist v) i.
Proof.
  intros HO HC Dx H Hx Hv. unfold hvp_reverse_over_reverse.
  assert (R0 : rep0 n (fun x => g <- grad_only F vag has_aux x ;; tvdot g v)
                 (fun y => lsum n (fun i => pd i f y * nth i (tlist v) 0))).
  { intros t Ht. destruct (grad_only_rep n f aux vag has_aux F H t Ht) as (g & Eg & Sg & Vg).
    rewrite Eg. cbn [bind]. unfold tvdot. rewrite Sg, Hv, Nat.eqb_refl.
    eexists. split; [reflexivity|]. split; [reflexivity|]. cbn [entry tsc].
    apply sumR_map_ext. intros i Hi. apply in_seq in Hi. rewrite Vg by lia.
    rewrite (tlist_nth v n) by (auto; lia). reflexivity. }
  destruct (jgrad_rep0 n _ _ R0 x Hx) as (a & E & S & V). exists a. split; [exact E|]. split; [exact S|].
  intros i Hi. rewrite V by auto.
  destruct (pd_lsum n (fun j => pd j f) (fun j => nth j (tlist v) 0) i (tlist x)) as (-> & _).
  - intros j Hj. apply (proj2 HC j Hj i (tlist x) Hi Dx).
  - reflexivity.
Qed.

Lemma value_grad_hvp_ok n D f aux vag has_aux F x :
  openset n D -> C2 n D f -> D (tlist x) -> objective n f aux vag has_aux F -> shape x = [n] ->
  exists v g lin,
    value_grad_hvp F x vag has_aux
      = Ok ((v, None), g, lin, if has_aux then Some (aux (tlist x)) else None) /\
    shape v = [] /\ entry v [] = f (tlist x) /\
    shape g = [n] /\ (forall i, (i < n)%nat -> entry g [i] = pd i f (tlist x)) /\
    forall w, shape w = [n] -> exists a, lin w = Ok a /\ shape a = [n] /\
      forall i, (i < n)%nat -> entry a [i] = hv_ n f (tlist x) (tlist w) i.
Proof.
  intros HO HC Dx H Hx. unfold value_grad_hvp.
  destruct (grad_f_objective n f aux vag has_aux F x H Hx) as (v & g & E & Sv & Vv & Sg & Vg).
  rewrite E. cbn [bind].
  set (lin := fun v0 => yd <- jvp _ _ [v0] ;; _).
  assert (L : forall w, shape w = [n] -> exists a, lin w = Ok a /\ shape a = [n] /\
      forall i, (i < n)%nat -> entry a [i] = hv_ n f (tlist x) (tlist w) i).
  { intros w Hw.
    destruct (hvp_for_ok n D f aux vag has_aux F x w None HO HC Dx H Hx Hw) as (a & Ea & Sa & Va).
    exists a. split; [exact Ea|]. split; [exact Sa|]. intros i Hi. rewrite Va by auto. ring. }
  exists v, g, lin. destruct has_aux; auto 10.
Qed.

Lemma hv_linear n f x v w c i : List.length v = n -> List.length w = n ->
  hv_ n f x (axpy c v w) i = hv_ n f x v i + c * hv_ n f x w i.
Proof.
  intros Lv Lw. unfold hv_, total.
  assert (G : forall l, sumR (map (fun j => pd i (pd j f) x * nth j (axpy c v w) 0) l)
    = sumR (map (fun j => pd i (pd j f) x * nth j v 0) l) + c * sumR (map (fun j => pd i (pd j f) x * nth j w 0) l)).
  { induction l as [|a l IH]; cbn [map sumR fold_right]; [ring|].
    change (fold_right Rplus 0 ?l) with (sumR l). rewrite IH. rewrite nth_axpy by lia. ring. }
  apply G.
Qed.

Lemma hvp_linear_lemma n D F f x v w c : openset n D -> C2 n D f -> D (tlist x) -> rep0 n F f ->
  shape x = [n] -> shape v = [n] -> shape w = [n] ->
  exists a b d, hvp F x v = Ok a /\ hvp F x w = Ok b /\ hvp F x (taxpy c v w) = Ok d /\
    forall i, (i < n)%nat -> entry d [i] = entry a [i] + c * entry b [i].
Proof.
  intros HO HC Dx H Hx Hv Hw.
  destruct (hvp_rep0 n D F f x v HO HC Dx H Hx Hv) as (a & Ea & _ & Va).
  destruct (hvp_rep0 n D F f x w HO HC Dx H Hx Hw) as (b & Eb & _ & Vb).
  destruct (hvp_rep0 n D F f x (taxpy c v w) HO HC Dx H Hx Hv) as (d & Ed & _ & Vd).
  exists a, b, d. repeat (split; auto). intros i Hi. rewrite Va, Vb, Vd by auto.
  rewrite (tlist_taxpy c v w n) by auto. apply hv_linear; apply tlist_length; auto.
Qed.

(** shape mismatch of the tangent *)
Lemma list_eqb_eq l m : list_eqb l m = true -> l = m.
Proof.
  revert m. induction l as [|a l IH]; intros [|b m]; cbn; try discriminate; auto.
  destruct (Nat.eqb_spec a b); [|discriminate]. cbn. intros H. f_equal; auto.
Qed.

Lemma hvp_shape_error F x v : shape v <> shape x -> hvp F x v = Err TypeError.
Proof.
  intros H. unfold hvp, jvp, same_shapes. cbn.
  destruct (list_eqb (shape x) (shape v)) eqn:E; [apply list_eqb_eq in E; congruence|]. reflexivity.
Qed.

(** ** The derivative operator on 0-d arguments *)
Definition vals (args : list tensor) : list R := map (fun t => entry t []) args.

Lemma vals_length args : List.length (vals args) = List.length args.
Proof. apply map_length. Qed.
Lemma vals_nth args i : (i < List.length args)%nat -> nth i (vals args) 0 = entry (nth i args (tsc 0)) [].
Proof.
  intros H. unfold vals. rewrite (nth_indep _ 0 (entry (tsc 0) [])) by (rewrite map_length; auto).
  apply (map_nth (fun t => entry t [])).
Qed.

Definition sel_tan (i : Z) (args : list tensor) : list tensor :=
  map2 (fun j x => if Z.eqb (Z.of_nat j) i then tones x else tzeros x) (seq 0 (List.length args)) args.

Lemma sel_tan_length i args : List.length (sel_tan i args) = List.length args.
Proof. unfold sel_tan. rewrite map2_length_eq; rewrite seq_length; auto. Qed.

Lemma sel_tan_nth i args k : (k < List.length args)%nat ->
  nth k (sel_tan i args) (tsc 0)
  = (if Z.eqb (Z.of_nat k) i then tones else tzeros) (nth k args (tsc 0)).
Proof.
  intros H. unfold sel_tan.
  rewrite (nth_map2 (fun j x => if Z.eqb (Z.of_nat j) i then tones x else tzeros x) _ args k 0%nat (tsc 0))
    by (rewrite ?seq_length; auto).
  rewrite seq_nth by auto. cbn [Nat.add]. destruct (Z.eqb (Z.of_nat k) i); reflexivity.
Qed.

Lemma forallb_true_in (l : list bool) : (forall b, In b l -> b = true) -> forallb (fun b => b) l = true.
Proof. induction l as [|a l IH]; intros H; cbn; auto. rewrite (H a) by (left; auto). apply IH. intros; apply H; right; auto. Qed.

Lemma same_shapes_ok xs vs : List.length xs = List.length vs ->
  (forall k, (k < List.length xs)%nat -> shape (nth k vs (tsc 0)) = shape (nth k xs (tsc 0))) ->
  same_shapes xs vs = true.
Proof.
  intros L H. unfold same_shapes. rewrite L, Nat.eqb_refl. cbn [andb]. apply forallb_true_in.
  revert vs L H. induction xs as [|x xs IH]; intros [|v vs] L H b; cbn [map2]; try easy.
  intros [<-|Hb].
  - specialize (H 0%nat). cbn in H. rewrite H by lia. apply list_eqb_refl.
  - apply (IH vs); auto. intros k Hk. apply (H (S k)). cbn [List.length]. lia.
Qed.

Lemma sel_tan_shapes i args : same_shapes args (sel_tan i args) = true.
Proof.
  apply same_shapes_ok; [rewrite sel_tan_length; auto|]. intros k Hk. rewrite sel_tan_nth by auto.
  destruct (Z.eqb _ _); reflexivity.
Qed.

Lemma axpys_length t xs vs : List.length xs = List.length vs -> List.length (map2 (taxpy t) xs vs) = List.length xs.
Proof. intros. apply map2_length_eq. auto. Qed.

Lemma axpys_nth t xs vs k : List.length xs = List.length vs -> (k < List.length xs)%nat ->
  nth k (map2 (taxpy t) xs vs) (tsc 0) = taxpy t (nth k xs (tsc 0)) (nth k vs (tsc 0)).
Proof. intros L H. rewrite (nth_map2 (taxpy t) xs vs k (tsc 0) (tsc 0)) by lia. reflexivity. Qed.

Lemma axpys_shapes t xs vs : List.length xs = List.length vs -> map shape (map2 (taxpy t) xs vs) = map shape xs.
Proof. revert vs. induction xs as [|x xs IH]; intros [|v vs] L; cbn; try easy. f_equal. apply IH. injection L; auto. Qed.

Lemma Forall_shape args s : Forall (fun t => shape t = s) args <-> map shape args = map (fun _ => s) args.
Proof.
  split.
  - induction 1; cbn; auto. f_equal; auto.
  - induction args; cbn; intros H; constructor; injection H; auto.
Qed.

(** moving along the selected tangent moves exactly the selected argument *)
Lemma vals_sel t i args :
  vals (map2 (taxpy t) args (sel_tan i args))
  = if (0 <=? i)%Z then upd (vals args) (Z.to_nat i) (nth (Z.to_nat i) (vals args) 0 + t) else vals args.
Proof.
  apply vec_ext.
  - rewrite vals_length, axpys_length by (rewrite sel_tan_length; auto).
    destruct (0 <=? i)%Z; rewrite ?upd_length, vals_length; auto.
  - intros k Hk. rewrite vals_length, axpys_length in Hk by (rewrite sel_tan_length; auto).
    rewrite vals_nth by (rewrite axpys_length; rewrite ?sel_tan_length; auto).
    rewrite axpys_nth by (rewrite ?sel_tan_length; auto). rewrite sel_tan_nth by auto.
    destruct (Z.eqb_spec (Z.of_nat k) i) as [<-|Hne].
    + destruct (Z.leb_spec 0 (Z.of_nat k)); [|lia]. rewrite Nat2Z.id.
      rewrite upd_nth_same by (rewrite vals_length; auto). rewrite vals_nth by auto. cbn. ring.
    + replace (nth k (if (0 <=? i)%Z then _ else _) 0) with (nth k (vals args) 0).
      * rewrite vals_nth by auto. cbn. ring.
      * destruct (Z.leb_spec 0 i); auto. rewrite upd_nth_other by lia. reflexivity.
Qed.

Lemma upd_overflow {A} (l : list A) i v : (List.length l <= i)%nat -> upd l i v = l.
Proof. revert i. induction l as [|a l IH]; intros [|i] H; cbn in *; auto; try lia. f_equal. apply IH. lia. Qed.

Lemma df_int_rep n f kw g i : repA n (fun a => call f a kw) g ->
  exists df, df_of f (SInt i) None = Ok df /\ params df = params f /\
    repA n (fun a => call df a kw)
      (fun x => if (0 <=? i)%Z then if (i <? Z.of_nat n)%Z then pd (Z.to_nat i) g x else 0 else 0).
Proof.
  intros H. unfold df_of, value_and_derivative. cbn [resolve bind tangents].
  eexists. split; [reflexivity|]. split; [reflexivity|].
  intros args La Fa. cbn [call bind].
  change (map2 _ _ args) with (sel_tan i args).
  unfold jvp. rewrite sel_tan_shapes.
  destruct (H args La Fa) as (y & Ey & Sy & Vy). rewrite Ey. cbn [bind]. unfold tderive.
  assert (Ha : forall t, List.length (map2 (taxpy t) args (sel_tan i args)) = n /\
     Forall (fun t => shape t = []) (map2 (taxpy t) args (sel_tan i args))).
  { intros t. split; [rewrite axpys_length; rewrite ?sel_tan_length; auto|].
    apply Forall_shape in Fa. apply Forall_forall. intros u Hu.
    assert (In (shape u) (map shape (map2 (taxpy t) args (sel_tan i args)))) as Hin by (apply in_map; auto).
    rewrite axpys_shapes in Hin by (rewrite sel_tan_length; auto). rewrite Fa in Hin.
    apply in_map_iff in Hin. destruct Hin as (? & <- & _). reflexivity. }
  destruct (Ha 0) as (L0 & F0). destruct (H _ L0 F0) as (y0 & E0 & S0 & _). rewrite E0. cbn [bind snd].
  eexists. split; [reflexivity|]. cbn [shape entry]. split; [exact S0|].
  rewrite (Derive_ext _ (fun t => g (vals (map2 (taxpy t) args (sel_tan i args))))).
  2:{ intros t. destruct (Ha t) as (L & F). destruct (H _ L F) as (z & -> & _ & Vz). exact Vz. }
  fold (vals args).
  rewrite (Derive_ext _ (fun t => g (if (0 <=? i)%Z then upd (vals args) (Z.to_nat i) (nth (Z.to_nat i) (vals args) 0 + t) else vals args)))
    by (intros; rewrite vals_sel; reflexivity).
  destruct (Z.leb_spec 0 i) as [Hi|Hi].
  - destruct (Z.ltb_spec i (Z.of_nat n)) as [Hn|Hn].
    + apply Derive_unit.
    + rewrite (Derive_ext _ (fun _ => g (vals args))); [apply Derive_const|].
      intros t. rewrite upd_overflow by (rewrite vals_length; lia). reflexivity.
  - apply Derive_const.
Qed.

Lemma repA_ext n F g h : (forall x, List.length x = n -> g x = h x) -> repA n F g -> repA n F h.
Proof.
  intros E H args L Fa. destruct (H args L Fa) as (y & E1 & S & V). exists y. split; auto. split; auto.
  rewrite V. apply E. rewrite map_length. auto.
Qed.

Lemma df_int_in n f kw g i : (i < n)%nat -> repA n (fun a => call f a kw) g ->
  exists df, df_of f (SInt (Z.of_nat i)) None = Ok df /\ params df = params f /\
    repA n (fun a => call df a kw) (pd i g).
Proof.
  intros Hi H. destruct (df_int_rep n f kw g (Z.of_nat i) H) as (df & E & P & Rr).
  exists df. split; auto. split; auto. revert Rr. apply repA_ext. intros x _.
  destruct (Z.leb_spec 0 (Z.of_nat i)); [|lia]. destruct (Z.ltb_spec (Z.of_nat i) (Z.of_nat n)); [|lia].
  rewrite Nat2Z.id. reflexivity.
Qed.

Lemma derivative_list n f kw g l : repA n (fun a => call f a kw) g -> Forall (fun i => (i < n)%nat) l ->
  exists df, derivative (WSeq (map (fun i => SInt (Z.of_nat i)) l)) ANone f = Ok df /\
    params df = params f /\ repA n (fun a => call df a kw) (pds l g).
Proof.
  intros H Fl. unfold derivative. rewrite !map_length, Nat.eqb_refl. cbn [assert_ bind].
  revert f g H. induction Fl as [|i l Hi Fl IH]; intros f g H.
  - exists f. cbn. auto.
  - cbn [map combine derive_all].
    destruct (df_int_in n f kw g i Hi H) as (d1 & E1 & P1 & R1). rewrite E1. cbn [bind].
    destruct (IH d1 (pd i g) R1) as (d2 & E2 & P2 & R2). exists d2. split; [exact E2|].
    split; [congruence|exact R2].
Qed.

Lemma derivative_int n f kw g i : (i < n)%nat -> repA n (fun a => call f a kw) g ->
  exists df, derivative (WInt (Z.of_nat i)) ANone f = Ok df /\ params df = params f /\
    repA n (fun a => call df a kw) (pd i g).
Proof.
  intros Hi H. destruct (derivative_list n f kw g [i] H ltac:(repeat constructor; auto)) as (df & E & R1).
  exists df. split; [exact E|exact R1].
Qed.

(** [derivative(f)] / [derivative(f, i)] *)
Lemma derivative_fun_eq f i :
  derivative_fun f (AInt i) = df_of f (SInt i) None /\ derivative_fun f ANone = derivative_fun f (AInt 0).
Proof. split; reflexivity. Qed.

Lemma derive_single f i : derivative (WInt i) ANone f = derivative_fun f (AInt i).
Proof.
  unfold derivative. cbn. destruct (df_of f (SInt i) None); reflexivity.
Qed.

(** names *)
Lemma index_of_nth s l i : NoDup l -> nth_error l i = Some s -> index_of s l = Ok i.
Proof.
  revert i. induction l as [|a l IH]; intros [|i] N H; cbn in *; try discriminate.
  - injection H as ->. rewrite String.eqb_refl. reflexivity.
  - inversion N as [|? ? Na Nl]; subst. destruct (String.eqb_spec a s) as [->|].
    + exfalso. apply Na. eapply nth_error_In. exact H.
    + rewrite (IH i) by auto. reflexivity.
Qed.

Lemma index_of_none s l : ~ In s l -> index_of s l = Err AssertionError.
Proof.
  induction l as [|a l IH]; intros H; cbn; auto.
  destruct (String.eqb_spec a s) as [->|]; [exfalso; apply H; left; auto|].
  rewrite IH; [reflexivity|]. intros Hin. apply H. right. auto.
Qed.

Lemma df_name f s i : NoDup (params f) -> nth_error (params f) i = Some s ->
  df_of f (SStr s) None = df_of f (SInt (Z.of_nat i)) None.
Proof.
  intros N H. unfold df_of, value_and_derivative. cbn [bind resolve].
  rewrite (index_of_nth s (params f) i N H). reflexivity.
Qed.

Lemma df_params f w a g : df_of f w a = Ok g -> params g = params f.
Proof.
  unfold df_of. destruct (value_and_derivative f w a); cbn; [|discriminate]. intros H. injection H as <-. reflexivity.
Qed.

Lemma derivative_names f ss is :
  NoDup (params f) -> Forall2 (fun s i => nth_error (params f) i = Some s) ss is ->
  derivative (WSeq (map SStr ss)) ANone f = derivative (WSeq (map (fun i => SInt (Z.of_nat i)) is)) ANone f.
Proof.
  intros N F. unfold derivative. rewrite !map_length, !Nat.eqb_refl. cbn [assert_ bind].
  revert f N F. revert is. induction ss as [|s ss IH]; intros is f N F; inversion F as [|? i ? is' Hs F' E1 E2]; subst; [reflexivity|].
  cbn [map combine derive_all]. rewrite (df_name f s i N Hs).
  destruct (df_of f (SInt (Z.of_nat i)) None) as [g|e] eqn:E; [|reflexivity]. cbn [bind].
  pose proof (df_params _ _ _ _ E) as P. apply IH; rewrite P; auto.
Qed.

Lemma derivative_mixed f ws i w : In w ws -> (forall k, w <> SInt k) -> derivative (WSeq ws) (AInt i) f = Err AssertionError.
Proof.
  intros HI HW. unfold derivative. rewrite map_length, Nat.eqb_refl. cbn [assert_ bind]. revert f HI.
  induction ws as [|v ws IH]; intros f HI; [destruct HI|]. cbn [map combine derive_all].
  destruct v as [k|s|l].
  - destruct HI as [<-|HI]; [exfalso; apply (HW k); reflexivity|]. unfold df_of at 1, value_and_derivative. cbn [resolve bind]. apply IH. auto.
  - reflexivity.
  - reflexivity.
Qed.
Lemma derivative_lengths f ws l : List.length l <> List.length ws -> derivative (WSeq ws) (ASeq l) f = Err AssertionError.
Proof. intros H. unfold derivative. apply Nat.eqb_neq in H. rewrite H. reflexivity. Qed.

Lemma derivative_unknown f s : ~ In s (params f) -> derivative (WSeq [SStr s]) ANone f = Err AssertionError.
Proof.
  intros H. unfold derivative. cbn. unfold df_of, value_and_derivative. cbn. rewrite index_of_none by auto. reflexivity.
Qed.

(** ** Order of differentiation *)
Lemma pd_ext_on n D f g i x : openset n D -> (forall y, D y -> f y = g y) -> D x -> pd i f x = pd i g x.
Proof.
  intros HO E Dx. destruct (HO x Dx) as (L & d & Hd & HD). unfold pd. apply Derive_ext_loc.
  exists (mkposreal d Hd). intros t Ht. apply E, HD. apply near_upd; [apply near_refl; auto|].
  exact Ht.
Qed.

Lemma pds_ext_on n D l : openset n D -> forall f g, (forall y, D y -> f y = g y) ->
  forall x, D x -> pds l f x = pds l g x.
Proof.
  intros HO. induction l as [|i l IH]; intros f g E x Dx; cbn; [apply E; auto|].
  apply IH; auto. intros y Dy. apply (pd_ext_on n D); auto.
Qed.

Lemma smooth_weaken n D k f : smooth n D (S k) f -> smooth n D k f.
Proof.
  revert f. induction k as [|k IH]; intros f H; cbn; auto.
  destruct H as (HC & H). split; auto.
Qed.

Lemma smooth_C2 n D k f : smooth n D (S (S k)) f -> C2 n D f.
Proof. intros (H & H2). split; auto. intros i Hi. apply (H2 i Hi). Qed.

Lemma pds_perm n D l m : openset n D -> Permutation l m -> forall f,
  Forall (fun i => (i < n)%nat) l -> smooth n D (List.length l) f ->
  forall x, D x -> pds l f x = pds m f x.
Proof.
  intros HO P. induction P as [|i l m P IH|i j l|l m k P1 IH1 P2 IH2]; intros f F S x Dx.
  - reflexivity.
  - inversion F; subst. cbn. apply IH; auto. apply S. auto.
  - inversion F as [|? ? Hj F']; subst. inversion F' as [|? ? Hi F'']; subst.
    cbn. apply (pds_ext_on n D); auto. intros y Dy. apply (schwarz_n n D); auto.
    cbn [List.length] in S. apply (smooth_C2 n D (List.length l)). exact S.
  - rewrite IH1 by auto. apply IH2; auto.
    + apply Forall_forall. intros a Ha. rewrite Forall_forall in F. apply F.
      eapply Permutation_in; [apply Permutation_sym; exact P1|exact Ha].
    + rewrite <- (Permutation_length P1). exact S.
Qed.

(** ** Vector arguments *)
Lemma at_set_1d x k n i : shape x = [n] -> (i < n)%nat ->
  k = Z.of_nat i \/ k = (Z.of_nat i - Z.of_nat n)%Z ->
  exists y, at_set (tzeros x) k = Ok y /\ shape y = [n] /\
    forall p, (p < n)%nat -> entry y [p] = if Nat.eqb p i then 1 else 0.
Proof.
  intros H Hi Hk. unfold at_set. cbn [shape tzeros]. rewrite H.
  assert (E : (if Z.ltb k 0 then (k + Z.of_nat n)%Z else k) = Z.of_nat i) by (destruct (Z.ltb_spec k 0); lia).
  rewrite E. eexists. split; [reflexivity|]. split; [reflexivity|]. intros p Hp. cbn [entry tzeros].
  destruct (Z.eqb_spec (Z.of_nat p) (Z.of_nat i)), (Nat.eqb_spec p i); auto; lia.
Qed.

Lemma map_tzeros_nth args j x : nth_error args j = Some x -> nth_error (map tzeros args) j = Some (tzeros x).
Proof. intros H. rewrite nth_error_map, H. reflexivity. Qed.

(** moving along zero changes nothing *)
Lemma taxpy_zeros t x : taxpy t x (tzeros x) = x.
Proof.
  destruct x as [s e]. unfold taxpy, tzeros. cbn. f_equal. apply functional_extensionality. intros p. ring.
Qed.

Lemma tensors_ext (a b : list tensor) : List.length a = List.length b ->
  (forall k, (k < List.length a)%nat -> nth k a (tsc 0) = nth k b (tsc 0)) -> a = b.
Proof.
  revert b. induction a as [|x a IH]; intros [|y b] L H; try easy. f_equal.
  - apply (H 0%nat). cbn. lia.
  - apply IH; [cbn in L; lia|]. intros k Hk. apply (H (S k)). cbn. lia.
Qed.

Lemma shift_one args j x e t : nth_error args j = Some x ->
  map2 (taxpy t) args (upd (map tzeros args) j e) = upd args j (taxpy t x e).
Proof.
  intros Hx. assert (Hj : (j < List.length args)%nat) by (apply nth_error_Some; congruence).
  assert (L : List.length args = List.length (upd (map tzeros args) j e)) by (rewrite upd_length, map_length; auto).
  apply tensors_ext; [rewrite axpys_length, upd_length; auto|].
  intros k Hk. rewrite axpys_length in Hk by auto.
  rewrite axpys_nth by auto. destruct (Nat.eq_dec j k) as [->|Hjk].
  - rewrite !upd_nth_same by (rewrite ?map_length; auto). f_equal. apply nth_error_nth. auto.
  - rewrite !upd_nth_other by auto.
    rewrite (nth_indep (map tzeros args) (tsc 0) (tzeros (tsc 0))) by (rewrite map_length; auto). rewrite map_nth.
    apply taxpy_zeros.
Qed.

Lemma one_shapes args j x e : nth_error args j = Some x -> shape e = shape x ->
  same_shapes args (upd (map tzeros args) j e) = true.
Proof.
  intros Hx He. assert (Hj : (j < List.length args)%nat) by (apply nth_error_Some; congruence).
  apply same_shapes_ok; [rewrite upd_length, map_length; auto|]. intros k Hk.
  destruct (Nat.eq_dec j k) as [->|Hjk].
  - rewrite upd_nth_same by (rewrite map_length; auto). rewrite (nth_error_nth _ _ _ Hx). exact He.
  - rewrite upd_nth_other by auto.
    rewrite (nth_indep (map tzeros args) (tsc 0) (tzeros (tsc 0))) by (rewrite map_length; auto). rewrite map_nth.
    reflexivity.
Qed.

(** the jvp of [f] in which only argument [j] moves *)
Lemma jvp_one F args j x e y : nth_error args j = Some x -> shape e = shape x -> F args = Ok y ->
  (forall t, exists z, F (upd args j (taxpy t x e)) = Ok z /\ shape z = shape y) ->
  exists dy, jvp F args (upd (map tzeros args) j e) = Ok (y, dy) /\ shape dy = shape y /\
    forall p, entry dy p = Derive (fun t => entry_of (F (upd args j (taxpy t x e))) p) 0.
Proof.
  intros Hx He Hy H. unfold jvp. rewrite (one_shapes args j x e Hx He). rewrite Hy. cbn [bind].
  unfold tderive. rewrite (shift_one args j x e 0 Hx). destruct (H 0) as (z & -> & Sz). cbn [bind].
  eexists. split; [reflexivity|]. cbn [shape entry]. split; [exact Sz|].
  intros p. apply Derive_ext. intros t. rewrite (shift_one args j x e t Hx). reflexivity.
Qed.

Lemma upd_nth_error {A} (l : list A) j v : (j < List.length l)%nat -> nth_error (upd l j v) j = Some v.
Proof. revert j. induction l as [|a l IH]; intros [|j] H; cbn in *; try lia; auto. apply IH. lia. Qed.

Lemma tangents_argnum args j x k a i n : nth_error args j = Some x -> shape x = [n] -> (i < n)%nat ->
  a = Z.of_nat j \/ a = (Z.of_nat j - Z.of_nat (List.length args))%Z ->
  k = Z.of_nat i \/ k = (Z.of_nat i - Z.of_nat n)%Z ->
  exists e, tangents (SInt k) (Some a) args = Ok (upd (map tzeros args) j e) /\ shape e = [n] /\
    forall p, (p < n)%nat -> entry e [p] = if Nat.eqb p i then 1 else 0.
Proof.
  intros Hx Sx Hi Ha Hk. cbn [tangents].
  destruct (pyget_pos (map tzeros args) a j (tzeros x)) as (Eg & Es).
  { apply map_tzeros_nth. auto. } { rewrite map_length. auto. }
  rewrite Eg. cbn [bind]. destruct (at_set_1d x k n i Sx Hi Hk) as (e & Ee & Se & Ve). rewrite Ee. cbn [bind].
  rewrite Es. eauto.
Qed.

Lemma tlist_unit' t x n i e : shape x = [n] -> (i < n)%nat -> shape e = [n] ->
  (forall p, (p < n)%nat -> entry e [p] = if Nat.eqb p i then 1 else 0) ->
  tlist (taxpy t x e) = upd (tlist x) i (nth i (tlist x) 0 + t).
Proof.
  intros Hx Hi He Ve. rewrite <- (tlist_unit t x n i) by auto.
  unfold tlist. cbn [shape taxpy]. rewrite Hx. cbn [hd]. apply map_ext_in. intros p Hp. apply in_seq in Hp.
  cbn [entry taxpy tunit list_eqb]. rewrite Ve by lia. rewrite Bool.andb_true_r. reflexivity.
Qed.

(** derivative([k], argnums=a)(f), one step *)
Lemma df_vec n f kw args j x0 g i a k : nth_error args j = Some x0 ->
  a = Z.of_nat j \/ a = (Z.of_nat j - Z.of_nat (List.length args))%Z ->
  (i < n)%nat -> k = Z.of_nat i \/ k = (Z.of_nat i - Z.of_nat n)%Z ->
  rep0 n (fun t => call f (upd args j t) kw) g ->
  exists df, df_of f (SInt k) (Some a) = Ok df /\ params df = params f /\
    rep0 n (fun t => call df (upd args j t) kw) (pd i g).
Proof.
  intros Hx Ha Hi Hk H. unfold df_of, value_and_derivative. cbn [resolve bind].
  assert (Hj : (j < List.length args)%nat) by (apply nth_error_Some; congruence).
  eexists. split; [reflexivity|]. split; [reflexivity|]. intros x Sx. cbn [call].
  destruct (tangents_argnum (upd args j x) j x k a i n) as (e & Ee & Se & Ve); auto.
  { apply upd_nth_error. auto. } { rewrite upd_length. auto. }
  rewrite Ee. cbn [bind].
  destruct (H x Sx) as (y & Ey & Sy & Vy).
  assert (U : forall z, upd (upd args j x) j z = upd args j z) by (intros; apply upd_upd).
  destruct (jvp_one (fun a0 => call f a0 kw) (upd args j x) j x e y) as (dy & Ej & Sd & Vd).
  { apply upd_nth_error. auto. } { rewrite Sx. exact Se. } { exact Ey. }
  { intros t. rewrite U. destruct (H (taxpy t x e) Sx) as (z & Ez & Sz & _). exists z. rewrite Sy. auto. }
  rewrite Ej. cbn [bind snd]. exists dy. split; [reflexivity|]. split; [congruence|].
  rewrite Vd. rewrite <- Derive_unit. apply Derive_ext. intros t. rewrite U.
  destruct (H (taxpy t x e) Sx) as (z & -> & _ & Vz). cbn [entry_of]. rewrite Vz. f_equal.
  apply (tlist_unit' t x n i e); auto.
Qed.

Lemma derivative_vec n f kw args j x0 g a ks is : nth_error args j = Some x0 -> pyidx (List.length args) j a ->
  Forall2 (fun k i => pyidx n i k) ks is ->
  rep0 n (fun t => call f (upd args j t) kw) g ->
  exists df, derivative (WSeq (map SInt ks)) (AInt a) f = Ok df /\ params df = params f /\
    rep0 n (fun t => call df (upd args j t) kw) (pds is g).
Proof.
  intros Hx (Hj & Ha) F H. unfold derivative. rewrite !map_length, Nat.eqb_refl. cbn [assert_ bind].
  revert f g H. induction F as [|k i ks is (Hi & Hk) F IH]; intros f g H.
  - exists f. cbn. auto.
  - cbn [map combine derive_all].
    destruct (df_vec n f kw args j x0 g i a k Hx Ha Hi Hk H) as (d1 & E1 & P1 & R1). rewrite E1. cbn [bind].
    destruct (IH d1 (pd i g) R1) as (d2 & E2 & P2 & R2). exists d2. split; [exact E2|].
    split; [congruence|exact R2].
Qed.

(** several vector arguments *)
Lemma shapes_nth args ns j : map shape args = map (fun n => [n]) ns -> (j < List.length ns)%nat ->
  exists x, nth_error args j = Some x /\ shape x = [nth j ns 0%nat].
Proof.
  intros H Hj. assert (L : List.length args = List.length ns) by (rewrite <- (map_length shape), H, map_length; auto).
  destruct (nth_error args j) as [x|] eqn:E; [|apply nth_error_None in E; lia].
  exists x. split; auto. pose proof (map_nth_error shape j args E) as Hs. rewrite H in Hs.
  rewrite nth_error_map in Hs. destruct (nth_error ns j) as [m|] eqn:Em; [|discriminate].
  cbn in Hs. rewrite (nth_error_nth _ _ _ Em). congruence.
Qed.

Lemma map_upd {A B} (h : A -> B) l j v : map h (upd l j v) = upd (map h l) j (h v).
Proof. revert j. induction l as [|a l IH]; intros [|j]; cbn; auto. f_equal. auto. Qed.

Lemma df_many ns f kw g j i a k : repL ns (fun l => call f l kw) g ->
  pyidx (List.length ns) j a -> pyidx (nth j ns 0%nat) i k ->
  exists df, df_of f (SInt k) (Some a) = Ok df /\ params df = params f /\
    repL ns (fun l => call df l kw) (pdL (j, i) g).
Proof.
  intros H (Hj & Ha) (Hi & Hk). unfold df_of, value_and_derivative. cbn [resolve bind].
  eexists. split; [reflexivity|]. split; [reflexivity|]. intros args Sa. cbn [call].
  assert (L : List.length args = List.length ns) by (rewrite <- (map_length shape), Sa, map_length; auto).
  destruct (shapes_nth args ns j Sa Hj) as (x & Hx & Sx).
  destruct (tangents_argnum args j x k a i (nth j ns 0%nat)) as (e & Ee & Se & Ve); auto.
  { rewrite L. auto. }
  rewrite Ee. cbn [bind]. destruct (H args Sa) as (y & Ey & Sy & Vy).
  assert (St : forall t, map shape (upd args j (taxpy t x e)) = map (fun n => [n]) ns).
  { intros t. rewrite map_upd. cbn [shape taxpy]. rewrite <- Sa. apply nth_error_upd_self. apply map_nth_error. auto. }
  destruct (jvp_one (fun a0 => call f a0 kw) args j x e y) as (dy & Ej & Sd & Vd); auto.
  { congruence. }
  { intros t. destruct (H _ (St t)) as (z & Ez & Sz & _). exists z. rewrite Sy. auto. }
  rewrite Ej. cbn [bind snd]. exists dy. split; [reflexivity|]. split; [congruence|].
  rewrite Vd. cbn [pdL].
  assert (EX : nth j (map tlist args) [] = tlist x).
  { apply nth_error_nth. apply map_nth_error. auto. }
  rewrite EX. rewrite <- (Derive_shift (fun t => g (upd (map tlist args) j (upd (tlist x) i t)))).
  apply Derive_ext. intros t. destruct (H _ (St t)) as (z & -> & _ & Vz). cbn [entry_of]. rewrite Vz, map_upd.
  do 2 f_equal. apply (tlist_unit' t x (nth j ns 0%nat) i e); auto.
Qed.

Lemma derivative_many ns f kw g ks js : repL ns (fun l => call f l kw) g ->
  forall jis, Forall2 (fun k ji => pyidx (nth (fst ji) ns 0%nat) (snd ji) k) ks jis ->
  Forall2 (fun a ji => pyidx (List.length ns) (fst ji) a) js jis ->
  exists df, derivative (WSeq (map SInt ks)) (ASeq (map Some js)) f = Ok df /\ params df = params f /\
    repL ns (fun l => call df l kw) (fold_left (fun h ji => pdL ji h) jis g).
Proof.
  intros H jis F1 F2. unfold derivative. rewrite !map_length.
  assert (L : Nat.eqb (List.length js) (List.length ks) = true).
  { apply Nat.eqb_eq. clear -F1 F2. revert js F2. induction F1; intros js F2; inversion F2; subst; cbn; auto. }
  rewrite L. cbn [assert_ bind]. clear L.
  revert f g H js F2. induction F1 as [|k (j, i) ks jis Hk F1 IH]; intros f g H js F2;
    inversion F2 as [|a ? js' ? Ha F2' E1 E2]; subst.
  - exists f. cbn. auto.
  - cbn [map combine derive_all fst snd] in *.
    destruct (df_many ns f kw g j i a k H Ha Hk) as (d1 & E1 & P1 & R1). rewrite E1. cbn [bind].
    destruct (IH d1 _ R1 js' F2') as (d2 & E2 & P2 & R2). exists d2. split; [exact E2|].
    split; [congruence|exact R2].
Qed.

(** ** derivative(j) of a vector argument: all entries move together *)
Lemma sel_tan_upd args j x : nth_error args j = Some x ->
  sel_tan (Z.of_nat j) args = upd (map tzeros args) j (tones x).
Proof.
  intros Hx. assert (Hj : (j < List.length args)%nat) by (apply nth_error_Some; congruence).
  apply tensors_ext; [rewrite sel_tan_length, upd_length, map_length; auto|].
  intros k Hk. rewrite sel_tan_length in Hk. rewrite sel_tan_nth by auto.
  destruct (Nat.eq_dec j k) as [->|Hjk].
  - rewrite Z.eqb_refl, upd_nth_same by (rewrite map_length; auto). f_equal. apply nth_error_nth. auto.
  - destruct (Z.eqb_spec (Z.of_nat k) (Z.of_nat j)); [lia|]. rewrite upd_nth_other by auto.
    rewrite (nth_indep (map tzeros args) (tsc 0) (tzeros (tsc 0))) by (rewrite map_length; auto). rewrite map_nth.
    reflexivity.
Qed.

Lemma derivative_ones n D f kw args j x0 g : nth_error args j = Some x0 ->
  rep0 n (fun t => call f (upd args j t) kw) g -> openset n D -> C1 n D g ->
  exists df, derivative (WInt (Z.of_nat j)) ANone f = Ok df /\
    forall x, shape x = [n] -> D (tlist x) ->
    exists y, call df (upd args j x) kw = Ok y /\ shape y = [] /\
      entry y [] = total n (fun i => pd i g (tlist x)).
Proof.
  intros Hx H HO HC. assert (Hj : (j < List.length args)%nat) by (apply nth_error_Some; congruence).
  rewrite derive_single. cbn [derivative_fun]. unfold df_of, value_and_derivative. cbn [resolve bind].
  eexists. split; [reflexivity|]. intros x Sx Dx. cbn [call tangents bind].
  change (map2 _ _ (upd args j x)) with (sel_tan (Z.of_nat j) (upd args j x)).
  assert (Hx' : nth_error (upd args j x) j = Some x) by (apply upd_nth_error; auto).
  rewrite (sel_tan_upd _ j x Hx').
  destruct (H x Sx) as (y & Ey & Sy & Vy).
  assert (U : forall z, upd (upd args j x) j z = upd args j z) by (intros; apply upd_upd).
  destruct (jvp_one (fun a0 => call f a0 kw) (upd args j x) j x (tones x) y Hx' eq_refl Ey) as (dy & Ej & Sd & Vd).
  { intros t. rewrite U. destruct (H (taxpy t x (tones x)) Sx) as (z & Ez & Sz & _). exists z. rewrite Sy. auto. }
  rewrite Ej. cbn [bind snd]. exists dy. split; [reflexivity|]. split; [congruence|].
  rewrite Vd.
  assert (Lt : List.length (tlist (tones x)) = n) by (apply tlist_length; exact Sx).
  transitivity (lsum n (fun i => pd i g (tlist x) * nth i (tlist (tones x)) 0)).
  - apply is_derive_unique.
    apply (is_derive_ext (fun t => g (axpy t (tlist x) (tlist (tones x))))).
    + intros t. rewrite U. destruct (H (taxpy t x (tones x)) Sx) as (z & -> & _ & Vz). cbn [entry_of].
      rewrite Vz. rewrite (tlist_taxpy t x (tones x) n) by auto. reflexivity.
    + apply (chain_line n D); auto.
  - apply lsum_ext. intros i Hi. rewrite (tlist_nth (tones x) n) by auto. cbn. ring.
Qed.

(** ** selectors that miss *)
(** an integer that is no position of the argument list (in particular every
    negative one) gives the zero function *)
Lemma derivative_miss n f kw g i : repA n (fun a => call f a kw) g -> (i < 0 \/ Z.of_nat n <= i)%Z ->
  exists df, derivative (WInt i) ANone f = Ok df /\ repA n (fun a => call df a kw) (fun _ => 0).
Proof.
  intros H Hi. rewrite derive_single. cbn [derivative_fun].
  destruct (df_int_rep n f kw g i H) as (df & E & _ & Rr). exists df. split; [exact E|].
  revert Rr. apply repA_ext. intros x _. destruct (Z.leb_spec 0 i), (Z.ltb_spec i (Z.of_nat n)); auto; lia.
Qed.

(** a component index beyond the vector is dropped: the derivative is zero *)
Lemma at_set_miss x k n : shape x = [n] -> (k < - Z.of_nat n \/ Z.of_nat n <= k)%Z ->
  exists y, at_set (tzeros x) k = Ok y /\ shape y = [n] /\ forall p, (p < n)%nat -> entry y [p] = 0.
Proof.
  intros H Hk. unfold at_set. cbn [shape tzeros]. rewrite H.
  eexists. split; [reflexivity|]. split; [reflexivity|]. intros p Hp. cbn [entry tzeros].
  destruct (Z.eqb_spec (Z.of_nat p) (if (k <? 0)%Z then (k + Z.of_nat n)%Z else k)) as [E|]; auto.
  destruct (Z.ltb_spec k 0); lia.
Qed.

Lemma derivative_component_miss n f kw args j x0 g a k : nth_error args j = Some x0 -> pyidx (List.length args) j a ->
  (k < - Z.of_nat n \/ Z.of_nat n <= k)%Z ->
  rep0 n (fun t => call f (upd args j t) kw) g ->
  exists df, derivative (WSeq [SInt k]) (AInt a) f = Ok df /\
    rep0 n (fun t => call df (upd args j t) kw) (fun _ => 0).
Proof.
  intros Hx (Hj & Ha) Hk H. unfold derivative. cbn [map List.length Nat.eqb assert_ bind combine derive_all].
  unfold df_of, value_and_derivative. cbn [resolve bind].
  eexists. split; [reflexivity|]. intros x Sx. cbn [call tangents].
  destruct (pyget_pos (map tzeros (upd args j x)) a j (tzeros x)) as (Eg & Es).
  { apply map_tzeros_nth. apply upd_nth_error. auto. } { rewrite map_length, upd_length. auto. }
  rewrite Eg. cbn [bind]. destruct (at_set_miss x k n Sx Hk) as (e & Ee & Se & Ve). rewrite Ee. cbn [bind].
  rewrite Es. destruct (H x Sx) as (y & Ey & Sy & Vy).
  assert (U : forall z, upd (upd args j x) j z = upd args j z) by (intros; apply upd_upd).
  destruct (jvp_one (fun a0 => call f a0 kw) (upd args j x) j x e y) as (dy & Ej & Sd & Vd).
  { apply upd_nth_error. auto. } { rewrite Sx. exact Se. } { exact Ey. }
  { intros t. rewrite U. destruct (H (taxpy t x e) Sx) as (z & Ez & Sz & _). exists z. rewrite Sy. auto. }
  rewrite Ej. cbn [bind snd]. exists dy. split; [reflexivity|]. split; [congruence|].
  rewrite Vd. rewrite (Derive_ext _ (fun _ => g (tlist x))); [apply Derive_const|].
  intros t. rewrite U. destruct (H (taxpy t x e) Sx) as (z & -> & _ & Vz). cbn [entry_of]. rewrite Vz. f_equal.
  unfold tlist. cbn [shape taxpy]. rewrite Sx. cbn [hd]. apply map_ext_in. intros p Hp. apply in_seq in Hp.
  cbn [entry taxpy]. rewrite Ve by lia. ring.
Qed.

(** an argument passed by keyword is not differentiated: every integer selector
    of a function called with keywords only yields zero *)
Lemma derivative_keyword f kw i y : call f [] kw = Ok y ->
  exists df, derivative (WInt i) ANone f = Ok df /\
    exists z, call df [] kw = Ok z /\ shape z = shape y /\ forall p, entry z p = 0.
Proof.
  intros E. rewrite derive_single. cbn [derivative_fun]. unfold df_of, value_and_derivative. cbn [resolve bind].
  eexists. split; [reflexivity|]. cbn [call tangents List.length seq map2 bind]. unfold jvp. cbn [same_shapes List.length map2 forallb Nat.eqb andb].
  unfold tderive. cbn [map2]. rewrite E. cbn [bind snd].
  eexists. split; [reflexivity|]. cbn [shape entry]. split; [reflexivity|].
  intros p. apply (Derive_const (entry_of (Ok y) p)).
Qed.

(** a bare multi-letter string is taken letter by letter *)
Lemma derivative_string f s : derivative (WStr s) ANone f = derivative (WSeq (chars s)) ANone f.
Proof. reflexivity. Qed.
