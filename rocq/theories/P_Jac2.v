(** Proofs: divergence of other shapes, modules as operands. *)
From Coq Require Import String FunctionalExtensionality.
From Coquelicot Require Import Coquelicot.
From Verif Require Import Base BaseFacts P_Vec M_Tensor M_Calc M_Surface M_Jac S_Calc S_Model S_Surface S_Jac
  P_AD P_Calc P_Calc2 P_Surface1 P_Jac.
Import ListNotations.
Open Scope R_scope.

(** ** divergence *)
Lemma divergence_jac F j k args x y : nth_error args k = Some x -> pyidx (List.length args) k j -> F args = Ok y ->
  exists J, jacfwd (fun t => F (upd args k t)) x = Ok J /\
    divergence F j args = compute_div J /\
    forall d, compute_div J = Ok d -> value_and_divergence F j args = Ok (y, d).
Proof.
  intros Hx Hj Ey.
  assert (EF : F (upd args k x) = Ok y) by (rewrite nth_error_upd_self; auto).
  assert (X : exists J, jacfwd (fun t => F (upd args k t)) x = Ok J) by (unfold jacfwd; rewrite EF; cbn [bind]; eauto).
  destruct X as (J & EJ). exists J. split; [exact EJ|].
  assert (A : jacfwd (fun t => F (pyset args j t)) x = Ok J).
  { rewrite <- EJ. unfold jacfwd. rewrite (pyset_pos args k j x Hj). destruct (F (upd args k x)); [|reflexivity].
    cbn [bind]. do 2 f_equal. apply functional_extensionality. intros pq. apply Derive_ext. intros t.
    rewrite (pyset_pos args k j _ Hj). reflexivity. }
  unfold divergence, value_and_divergence, value_and_jacfwd. rewrite (pyget_idx args k j x Hj Hx).
  rewrite (pyset_pos args k j x Hj), EF. cbn [bind]. rewrite A. cbn [bind snd fst]. split.
  - destruct (compute_div J); reflexivity.
  - intros d ->. reflexivity.
Qed.

Lemma divergence_scalar n F f j k args x : nth_error args k = Some x -> pyidx (List.length args) k j ->
  shape x = [n] -> rep0 n (fun t => F (upd args k t)) f ->
  exists d, divergence F j args = Ok d /\ shape d = [] /\ entry d [] = total n (fun i => pd i f (tlist x)).
Proof.
  intros Hx Hj Sx H. destruct (H x Sx) as (y & E & Sy & Vy). rewrite nth_error_upd_self in E by auto.
  destruct (divergence_jac F j k args x y Hx Hj E) as (J & EJ & ED & _).
  destruct (jacfwd_rep0 n _ _ H x Sx) as (J' & EJ' & SJ & VJ). assert (J' = J) by congruence. subst J'.
  rewrite ED. unfold compute_div. rewrite SJ. eexists. split; [reflexivity|]. split; [reflexivity|].
  cbn [entry tsc]. apply sumR_map_ext. intros i Hi. apply in_seq in Hi. apply VJ. lia.
Qed.
Lemma divergence_rect n m F f j k args x : nth_error args k = Some x -> pyidx (List.length args) k j ->
  shape x = [n] -> rep1 n m (fun t => F (upd args k t)) f ->
  exists d, divergence F j args = Ok d /\ shape d = [] /\
    entry d [] = total (Nat.min m n) (fun i => pd i (f i) (tlist x)).
Proof.
  intros Hx Hj Sx H. destruct (H x Sx) as (y & E & Sy & Vy). rewrite nth_error_upd_self in E by auto.
  destruct (divergence_jac F j k args x y Hx Hj E) as (J & EJ & ED & _).
  destruct (jacfwd_rep1 n m _ _ H x Sx) as (J' & EJ' & SJ & VJ). assert (J' = J) by congruence. subst J'.
  rewrite ED. unfold compute_div. rewrite SJ. eexists. split; [reflexivity|]. split; [reflexivity|].
  cbn [entry tsc]. apply sumR_map_ext. intros i Hi. apply in_seq in Hi. apply VJ; lia.
Qed.
Lemma openset_all n : openset n (fun x => List.length x = n).
Proof. intros x L. split; [exact L|]. exists 1. split; [lra|]. intros y (Ly & _). congruence. Qed.
Lemma divergence_matrix n m l F f j k args x : nth_error args k = Some x -> pyidx (List.length args) k j ->
  shape x = [n] -> rep2 n m l (fun t => F (upd args k t)) f ->
  exists d, divergence F j args = Ok d /\ shape d = [m] /\
    forall r, (r < m)%nat -> entry d [r] = total (Nat.min l n) (fun i => pd i (f r i) (tlist x)).
Proof.
  intros Hx Hj Sx H. destruct (H x Sx) as (y & E & Sy & Vy). rewrite nth_error_upd_self in E by auto.
  destruct (divergence_jac F j k args x y Hx Hj E) as (J & EJ & ED & _).
  destruct (jacfwd_repD n (fun x => List.length x = n) [m; l] (fun t => F (upd args k t))
    (fun p => f (nth 0 p 0%nat) (nth 1 p 0%nat)) (openset_all n)) with (t := x) as (J' & EJ' & SJ & VJ); auto.
  { intros t St _. destruct (H t St) as (z & Ez & Sz & Vz). exists z. repeat (split; auto).
    intros p Hp. inversion Hp as [|a ? q ? Ha Hq]; subst. inversion Hq as [|b ? r ? Hb Hr]; subst. inversion Hr; subst.
    apply Vz; auto. }
  { apply tlist_length. exact Sx. }
  assert (J' = J) by congruence. subst J'.
  rewrite ED. unfold compute_div. rewrite SJ. cbn [app]. eexists. split; [reflexivity|]. split; [reflexivity|].
  intros r Hr. cbn [entry]. apply sumR_map_ext. intros i Hi. apply in_seq in Hi. cbn [app].
  rewrite VJ; [reflexivity|]. repeat constructor; lia.
Qed.
Lemma divergence_rank F j k args x y : nth_error args k = Some x -> pyidx (List.length args) k j ->
  F args = Ok y -> (List.length (shape y) + List.length (shape x) = 0 \/
                    4 <= List.length (shape y) + List.length (shape x))%nat ->
  divergence F j args = Err ValueError.
Proof.
  intros Hx Hj Ey H. destruct (divergence_jac F j k args x y Hx Hj Ey) as (J & EJ & ED & _). rewrite ED.
  unfold jacfwd in EJ. rewrite nth_error_upd_self, Ey in EJ by auto. cbn [bind] in EJ. inversion EJ. clear EJ ED.
  unfold compute_div. cbn [shape]. rewrite <- app_length in H.
  destruct (shape y ++ shape x) as [|a [|b [|c [|d l]]]]; cbn in H; try reflexivity; lia.
Qed.

(** ** modules *)
Lemma module_fun_call m kw : (fun l => call (module_fun m) l kw) = applied m kw.
Proof. reflexivity. Qed.

Lemma op_derive_fun l : forall f, op_derive_all (OpFun f) l = (g <- derive_all f l ;; Ok (OpFun g)).
Proof.
  induction l as [|(w, a) l IH]; intros f; [reflexivity|]. cbn [op_derive_all derive_all].
  change (op_df (OpFun f) w a) with (df_of f w a). destruct (df_of f w a) as [g|]; cbn [bind]; [apply IH|reflexivity].
Qed.
Lemma op_derivative_function w a f : op_derivative w a (OpFun f) = (g <- derivative w a f ;; Ok (OpFun g)).
Proof.
  unfold op_derivative, derivative. destruct (assert_ _); cbn [bind]; [apply op_derive_fun|reflexivity].
Qed.

(** selectors that are not names: the parameter names do not matter *)
Definition nameless (l : list (sel * option Z)) : Prop := Forall (fun wa => match fst wa with SStr _ => False | _ => True end) l.
Lemma df_nameless f g w a : call f = call g -> match w with SStr _ => False | _ => True end ->
  match df_of f w a, df_of g w a with
  | Ok f', Ok g' => call f' = call g' /\ params f' = params f /\ params g' = params g
  | Err e, Err e' => e = e'
  | _, _ => False
  end.
Proof.
  intros E W. unfold df_of, value_and_derivative.
  destruct a as [a|], w; try contradiction; cbn [bind resolve]; auto; rewrite E; auto.
Qed.
Lemma derive_nameless l : nameless l -> forall f g, call f = call g ->
  match derive_all f l, derive_all g l with
  | Ok f', Ok g' => call f' = call g' /\ params f' = params f
  | Err e, Err e' => e = e'
  | _, _ => False
  end.
Proof.
  induction 1 as [|(w, a) l W H IH]; intros f g E; cbn [derive_all]; [auto|].
  pose proof (df_nameless f g w a E W) as D.
  destruct (df_of f w a) as [f'|], (df_of g w a) as [g'|]; try contradiction; cbn [bind]; auto.
  destruct D as (D & P & _). specialize (IH f' g' D).
  destruct (derive_all f' l), (derive_all g' l); auto. destruct IH. split; congruence.
Qed.
Lemma op_derive_module l m : nameless l -> l <> [] ->
  match op_derive_all (OpMod m) l, derive_all (module_fun m) l with
  | Ok (OpFun f'), Ok g' => call f' = call g' /\ params f' = mparams m
  | Err e, Err e' => e = e'
  | _, _ => False
  end.
Proof.
  intros H N. destruct l as [|(w, a) l]; [congruence|]. inversion H as [|? ? W H']; subst. cbn [op_derive_all derive_all].
  unfold op_df, op_value_and_derivative, df_of. cbn [apply_to_module signature].
  destruct (value_and_derivative (module_fun m) w a) as [df|e]; cbn [bind]; [|reflexivity].
  rewrite op_derive_fun.
  pose proof (derive_nameless l H' (mkF (mparams m) (fun args kw => yd <- df args kw ;; Ok (snd yd)))
    (mkF (params (module_fun m)) (fun args kw => yd <- df args kw ;; Ok (snd yd))) eq_refl) as D.
  destruct (derive_all (mkF (mparams m) _) l), (derive_all (mkF (params _) _) l); cbn [bind]; auto.
Qed.

Lemma module_components ns m kw g ks js jis : repL ns (applied m kw) g -> ks <> [] ->
  Forall2 (fun k ji => pyidx (nth (fst ji) ns 0%nat) (snd ji) k) ks jis ->
  Forall2 (fun a ji => pyidx (List.length ns) (fst ji) a) js jis ->
  exists df, op_derivative (WSeq (map SInt ks)) (ASeq (map Some js)) (OpMod m) = Ok (OpFun df) /\
    repL ns (fun l => call df l kw) (fold_left (fun h ji => pdL ji h) jis g).
Proof.
  intros H N F1 F2. destruct (derivative_many ns (module_fun m) kw g ks js H jis F1 F2) as (df & E & _ & HR).
  unfold derivative in E. unfold op_derivative. rewrite !map_length in *.
  destruct (assert_ _); cbn [bind] in *; [|discriminate].
  assert (NL : nameless (combine (map SInt ks) (map Some js))).
  { clear. revert js. induction ks as [|k ks IH]; intros [|j js]; cbn; constructor; cbn; auto. apply IH. }
  assert (NE : combine (map SInt ks) (map Some js) <> []).
  { destruct ks; [congruence|]. inversion F1; subst. inversion F2; subst. discriminate. }
  pose proof (op_derive_module _ m NL NE) as D. rewrite E in D.
  destruct (op_derive_all _ _) as [[f'|]|]; try contradiction. exists f'. split; [reflexivity|].
  destruct D as (-> & _). exact HR.
Qed.
Lemma module_positions n m kw g l : repA n (applied m kw) g -> l <> [] ->
  Forall (fun i => (i < n)%nat) l ->
  exists df, op_derivative (WSeq (map (fun i => SInt (Z.of_nat i)) l)) ANone (OpMod m) = Ok (OpFun df) /\
    repA n (fun a => call df a kw) (pds l g).
Proof.
  intros H N F1. destruct (derivative_list n (module_fun m) kw g l H F1) as (df & E & _ & HR).
  unfold derivative in E. unfold op_derivative. rewrite !map_length in *.
  destruct (assert_ _); cbn [bind] in *; [|discriminate].
  match type of E with derive_all _ ?c = _ =>
    assert (NL : nameless c); [|assert (NE : c <> [])] end.
  { clear. induction l as [|k l IH]; cbn; constructor; cbn; auto. }
  { destruct l; [congruence|]. discriminate. }
  pose proof (op_derive_module _ m NL NE) as D. rewrite E in D.
  destruct (op_derive_all _ _) as [[f'|]|]; try contradiction. exists f'. split; [reflexivity|].
  destruct D as (-> & _). exact HR.
Qed.

(** names: the first one is looked up in the wrapper, the others in the module *)
Lemma module_names m s ss i is :
  NoDup (mparams m) -> nth_error ["x"; "p"; "args"; "kwargs"]%string i = Some s ->
  Forall2 (fun s i => nth_error (mparams m) i = Some s) ss is ->
  op_derivative (WSeq (map SStr (s :: ss))) ANone (OpMod m)
  = op_derivative (WSeq (map (fun i => SInt (Z.of_nat i)) (i :: is))) ANone (OpMod m).
Proof.
  intros ND Hi H. unfold op_derivative. rewrite !map_length. cbn [List.length]. rewrite !Nat.eqb_refl. cbn [assert_ bind].
  cbn [map combine op_derive_all].
  assert (E : op_df (OpMod m) (SStr s) None = op_df (OpMod m) (SInt (Z.of_nat i)) None).
  { unfold op_df, op_value_and_derivative, value_and_derivative. cbn [bind resolve apply_to_module].
    rewrite (index_of_nth s (params (module_fun m)) i); [reflexivity| |exact Hi].
    repeat constructor; cbn; intuition discriminate. }
  rewrite E. destruct (op_df (OpMod m) (SInt (Z.of_nat i)) None) as [g|] eqn:Eg; cbn [bind]; [|reflexivity].
  assert (P : params g = mparams m).
  { unfold op_df in Eg. destruct (op_value_and_derivative _ _ _); cbn [bind] in Eg; inversion Eg. reflexivity. }
  rewrite !op_derive_fun, !map_map. f_equal. rewrite <- P in ND. clear E Eg.
  assert (H' : Forall2 (fun s i => nth_error (params g) i = Some s) ss is) by (rewrite P; exact H).
  clear P H Hi. revert g ND H'. induction ss as [|t ss IH] in is |- *; intros g ND H'; inversion H'; subst; [reflexivity|].
  cbn [map combine derive_all]. rewrite (df_name g t y) by auto.
  destruct (df_of g (SInt (Z.of_nat y)) None) as [g'|] eqn:Eg; cbn [bind]; [|reflexivity].
  apply IH; rewrite (df_params _ _ _ _ Eg); auto.
Qed.
Lemma module_unknown_first m s ss : ~ In s ["x"; "p"; "args"; "kwargs"]%string ->
  op_derivative (WSeq (map SStr (s :: ss))) ANone (OpMod m) = Err AssertionError.
Proof.
  intros H. unfold op_derivative. rewrite !map_length. cbn [List.length]. rewrite !Nat.eqb_refl. cbn [assert_ bind].
  cbn [map combine op_derive_all]. unfold op_df, op_value_and_derivative, value_and_derivative. cbn [bind resolve apply_to_module].
  rewrite index_of_none by exact H. reflexivity.
Qed.
Lemma module_unknown_second m s t ss i : nth_error ["x"; "p"; "args"; "kwargs"]%string i = Some s ->
  ~ In t (mparams m) ->
  op_derivative (WSeq (map SStr (s :: t :: ss))) ANone (OpMod m) = Err AssertionError.
Proof.
  intros Hi H. unfold op_derivative. rewrite !map_length. cbn [List.length]. rewrite !Nat.eqb_refl. cbn [assert_ bind].
  cbn [map combine op_derive_all].
  assert (E : exists g, op_df (OpMod m) (SStr s) None = Ok g /\ params g = mparams m).
  { unfold op_df, op_value_and_derivative, value_and_derivative. cbn [bind resolve apply_to_module].
    rewrite (index_of_nth s (params (module_fun m)) i); [|repeat constructor; cbn; intuition discriminate|exact Hi].
    cbn [bind]. eauto. }
  destruct E as (g & -> & P). cbn [bind]. unfold op_df, op_value_and_derivative, value_and_derivative.
  cbn [bind resolve apply_to_module]. rewrite P, index_of_none by exact H. reflexivity.
Qed.
Lemma module_div n m p rest kw f x : rep1 n n (fun x => mapply m p (x :: rest) kw) f -> shape x = [n] ->
  exists d, op_divergence (OpMod m) 0 (x :: p :: rest) kw = Ok d /\ shape d = [] /\ entry d [] = div_ n f (tlist x).
Proof.
  intros H Hx. destruct (divergence_ok n (fun l => call (module_fun m) l kw) f 0 0 (x :: p :: rest) x) as (v & d & _ & _ & E & S & V);
    auto. eauto.
Qed.
Lemma module_derivative_int n m kw g i : repA n (applied m kw) g -> (i < n)%nat ->
  exists df, op_derivative_fun (OpMod m) (AInt (Z.of_nat i)) = Ok df /\ repA n (fun a => call df a kw) (pd i g).
Proof.
  intros H Hi. destruct (derivative_int n (module_fun m) kw g i Hi H) as (df & E & _ & HR). rewrite derive_single in E. eauto.
Qed.
Lemma module_unknown m s t ss :
  (~ In s ["x"; "p"; "args"; "kwargs"]%string ->
   op_derivative (WSeq (map SStr (s :: ss))) ANone (OpMod m) = Err AssertionError) /\
  (In s ["x"; "p"; "args"; "kwargs"]%string -> ~ In t (mparams m) ->
   op_derivative (WSeq (map SStr (s :: t :: ss))) ANone (OpMod m) = Err AssertionError).
Proof.
  split; [apply module_unknown_first|]. intros H. destruct (In_nth_error _ _ H) as (i & Hi).
  apply (module_unknown_second m s t ss i Hi).
Qed.
