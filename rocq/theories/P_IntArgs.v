(** Proofs: calls with additional arguments. *)
From Coq Require Import String.
From Verif Require Import Base BaseFacts M_Integrate M_IntArgs S_IntArgs.
Open Scope string_scope.

Lemma has_names n kw : has n kw = true <-> In n (names kw).
Proof.
  unfold has, names. rewrite existsb_exists, in_map_iff. split; intros ((m & v) & H).
  - destruct H as [Hi He]. apply String.eqb_eq in He. exists (m, v). split; auto.
  - destruct H as [He Hi]. exists (m, v). split; [exact Hi|]. apply String.eqb_eq. exact He.
Qed.
Lemma has_false n kw : has n kw = false <-> ~ In n (names kw).
Proof. rewrite <- has_names. destruct (has n kw); split; congruence. Qed.
Lemma lookup_in n kw v : NoDup (names kw) -> In (n, v) kw -> lookup n kw = Some v.
Proof.
  unfold lookup. induction kw as [|(m & w) kw IH]; intros ND; [intros []|]. cbn. inversion ND as [|? ? Nm ND']; subst. intros [E|Hi].
  - injection E as -> ->. now rewrite String.eqb_refl.
  - destruct (String.eqb m n) eqn:E; [|apply IH; auto]. apply String.eqb_eq in E as ->. exfalso. apply Nm. apply (in_map fst _ _ Hi).
Qed.
Lemma lookup_none n kw : ~ In n (names kw) -> lookup n kw = None.
Proof.
  unfold lookup. induction kw as [|(m & w) kw IH]; intros N; [reflexivity|]. cbn in *. destruct (String.eqb m n) eqn:E.
  - apply String.eqb_eq in E. tauto.
  - apply IH. tauto.
Qed.
Lemma without_in l kw p : In p (without l kw) <-> In p kw /\ ~ In (fst p) l.
Proof. unfold without. rewrite filter_In. destruct (in_dec _ _ _); split; intros (? & ?); split; auto; try congruence; tauto. Qed.
Lemma without_names l kw n : In n (names (without l kw)) <-> In n (names kw) /\ ~ In n l.
Proof.
  unfold names. rewrite !in_map_iff. split.
  - intros ((m & v) & E & H). apply without_in in H as [H1 H2]. cbn in *. subst. split; [exists (n, v); auto|auto].
  - intros (((m & v) & E & H) & Hn). exists (m, v). split; [exact E|]. apply without_in. cbn in *. subst. auto.
Qed.
Lemma without_cons l p kw : without l (p :: kw) = if in_dec string_dec (fst p) l then without l kw else p :: without l kw.
Proof. unfold without. cbn. destruct (in_dec _ _ _); reflexivity. Qed.
Lemma without_nodup l kw : NoDup (names kw) -> NoDup (names (without l kw)).
Proof.
  induction kw as [|(m & v) kw IH]; intros ND; [constructor|]. rewrite without_cons. inversion ND; subst. destruct (in_dec _ _ _); auto.
  cbn. constructor; auto. intros C. apply (proj1 (without_names l kw m)) in C. tauto.
Qed.
Lemma without_nil kw : without [] kw = kw.
Proof. induction kw as [|p kw IH]; [reflexivity|]. rewrite without_cons, IH. reflexivity. Qed.
Lemma without_without l m kw : without m (without l kw) = without (l ++ m) kw.
Proof.
  induction kw as [|p kw IH]; [reflexivity|]. rewrite !without_cons. destruct (in_dec string_dec (fst p) l) as [H|H], (in_dec string_dec (fst p) (l ++ m)%list) as [K|K]; rewrite ?without_cons, ?IH; auto.
  - destruct K. apply in_or_app; auto.
  - destruct (in_dec string_dec (fst p) m); [reflexivity|]. apply in_app_or in K. tauto.
  - destruct (in_dec string_dec (fst p) m); [|reflexivity]. destruct K. apply in_or_app; auto.
Qed.
Lemma without_avoids l kw : avoids l kw -> without l kw = kw.
Proof.
  induction kw as [|(m & v) kw IH]; intros A; [reflexivity|]. rewrite without_cons. cbn [fst]. destruct (in_dec _ _ _) as [H|H].
  - destruct (A m H). left. reflexivity.
  - rewrite IH; [reflexivity|]. intros n Hn C. apply (A n Hn). right. exact C.
Qed.
Lemma remove_without n kw : remove n kw = without [n] kw.
Proof.
  induction kw as [|(m & v) kw IH]; [reflexivity|]. rewrite without_cons, <- IH. unfold remove. cbn [filter fst]. destruct (String.eqb m n) eqn:E; cbn [negb].
  - apply String.eqb_eq in E as ->. destruct (in_dec _ _ _) as [H|H]; [reflexivity|]. destruct H. left. reflexivity.
  - apply String.eqb_neq in E. destruct (in_dec _ _ _) as [[H|[]]|H]; [congruence|reflexivity].
Qed.
Lemma no_second_ok l kw : avoids l kw -> no_second l kw = Ok tt.
Proof.
  intros A. unfold no_second. destruct (existsb _ l) eqn:E; [|reflexivity]. apply existsb_exists in E as (n & Hn & H).
  apply has_names in H. destruct (A n Hn H).
Qed.
Lemma no_second_err l kw n : In n l -> In n (names kw) -> no_second l kw = Err TypeError.
Proof.
  intros H K. unfold no_second. assert (existsb (fun n => has n kw) l = true) as ->; [|reflexivity].
  apply existsb_exists. exists n. split; [exact H|]. apply has_names. exact K.
Qed.
Lemma take_ok kw q : NoDup (names kw) -> method_of kw q -> take_method kw = Ok (q, without ["method"] kw).
Proof.
  intros ND [H|[H ->]]; unfold take_method.
  - rewrite (lookup_in _ _ _ ND H). now rewrite remove_without.
  - rewrite lookup_none by exact H. rewrite without_avoids; [reflexivity|]. intros n [<-|[]]. exact H.
Qed.

(** values of the parameters of a list *)
Fixpoint all_bound (args : list pyval) (kw : kwargs) (i : nat) (params : list (string * pyval)) (vals : list pyval) : Prop :=
  match params, vals with
  | [], [] => True
  | (n, d) :: ps, v :: vs => bound args kw i n d v /\ all_bound args kw (S i) ps vs
  | _, _ => False
  end.
Lemma bound_tl a args kw i n d v : bound (a :: args) kw (S i) n d v -> bound args kw i n d v.
Proof. exact (fun H => H). Qed.
Lemma all_bound_tl a args kw i params vals : all_bound (a :: args) kw (S i) params vals -> all_bound args kw i params vals.
Proof. revert i vals. induction params as [|(n & d) ps IH]; intros i [|v vs]; cbn; auto. intros [H K]. split; auto. Qed.
Lemma all_bound_shift kw i j params vals : all_bound [] kw i params vals -> all_bound [] kw j params vals.
Proof.
  revert i j vals. induction params as [|(n & d) ps IH]; intros i j [|v vs]; cbn; auto. unfold bound. destruct i, j; cbn; intros [H K]; split; eauto.
Qed.
Lemma all_bound_without kw n i params vals : ~ In n (map fst params) -> all_bound [] kw i params vals -> all_bound [] (without [n] kw) i params vals.
Proof.
  revert i vals. induction params as [|(m & d) ps IH]; intros i [|v vs] N; cbn; auto. intros [H K]. split; [|apply IH; cbn in N; tauto].
  unfold bound in *. assert (E : nth_error (@nil pyval) i = None) by (destruct i; reflexivity). rewrite E in *.
  rewrite without_in, without_names. cbn in *. destruct H as [H|[H ->]]; [left|right; tauto]. split; [exact H|]. intros [C|[]]. subst. tauto.
Qed.
Lemma bind_ok_params params args kw vals : NoDup (names kw) -> NoDup (map fst params) -> all_bound args kw 0 params vals ->
  bind_params params args kw = Ok (vals, skipn (length params) args, without (map fst params) kw).
Proof.
  revert args kw vals. induction params as [|(n & d) ps IH]; intros args kw [|v vs] ND NP B; cbn in B; try tauto.
  - cbn. now rewrite without_nil.
  - destruct B as [B1 B2]. inversion NP as [|? ? Nn NP']; subst. cbn. destruct args as [|a args].
    + cbn in B1. rewrite remove_without, (IH [] (without [n] kw) vs).
      * cbn. rewrite without_without, !skipn_nil. destruct B1 as [B1|[B1 ->]]; [rewrite (lookup_in _ _ _ ND B1)|rewrite lookup_none by exact B1]; reflexivity.
      * apply without_nodup, ND.
      * exact NP'.
      * apply all_bound_without; [exact Nn|]. apply (all_bound_shift _ 1 0), B2.
    + cbn in B1. destruct B1 as [-> B1]. rewrite (proj2 (has_false n kw) B1), (IH args kw vs); auto; [|apply (all_bound_tl a), B2].
      cbn. f_equal. f_equal. change (n :: map fst ps) with ([n] ++ map fst ps)%list. rewrite <- without_without.
      rewrite (without_avoids [n]); [reflexivity|]. intros m [<-|[]]. exact B1.
Qed.

(** ** Calls *)
Lemma integrate_ext f g ds rule : (forall x, f x = g x) -> integrate f ds rule = integrate g ds rule.
Proof.
  intros E. unfold integrate. destruct (sequence (map rule ds)) as [WX|e]; [|reflexivity]. cbn [bind].
  destruct WX as [|(W & X) [|WX1 WX]]; auto; [now rewrite E|]. now rewrite (map_ext f g E).
Qed.
Lemma integrate_call f ds args kw q : NoDup (names kw) -> avoids ["f"; "domain"] kw -> method_of kw q ->
  integrate_py f ds args kw = integrate (fun x => f x args (without ["method"] kw)) ds q.
Proof. intros ND A M. unfold integrate_py. rewrite no_second_ok, (take_ok kw q) by auto. reflexivity. Qed.

Lemma avoids_incl l m kw : incl m l -> avoids l kw -> avoids m kw.
Proof. intros I A n Hn. apply A, I, Hn. Qed.
Lemma avoids_without l m kw : avoids l kw -> avoids l (without m kw).
Proof. intros A n Hn C. apply without_names in C. apply (A n Hn). tauto. Qed.
Lemma method_without l kw q : ~ In "method" l -> method_of kw q -> method_of (without l kw) q.
Proof. intros N [H|[H ->]]; [left; apply without_in; auto|right; split; auto]. rewrite without_names. tauto. Qed.

(** the call of integrate by the other functions *)
Lemma inner_call g ds args kw q : NoDup (names kw) -> avoids ["f"; "domain"] kw -> ~ In "method" (names kw) ->
  integrate_py g ds args (("method", Rule q) :: kw) = integrate (fun x => g x args kw) ds q.
Proof.
  intros ND A N. rewrite (integrate_call g ds args _ q).
  - assert (E : without ["method"] (("method", Rule q) :: kw) = kw); [|now rewrite E].
    rewrite without_cons. destruct (in_dec _ _ _) as [_|H]; [|destruct H; left; reflexivity].
    apply without_avoids. intros n [<-|[]]. exact N.
  - cbn. constructor; auto.
  - intros n Hn [C|C]; [|exact (A n Hn C)]. cbn in C. subst. destruct Hn as [C|[C|[]]]; discriminate.
  - left. left. reflexivity.
Qed.

Definition disk_params : list (string * pyval) := [("r_inner", Val (A0 0)); ("phi1", Val (A0 0)); ("phi2", Val (A0 (2 * PI)))].
Lemma disk_call f r o n args kw ri p1 p2 q : NoDup (names kw) -> avoids ["f"; "r"; "o"; "n"; "u"; "domain"] kw -> method_of kw q ->
  bound args kw 0 "r_inner" (Val (A0 0)) (Val (A0 ri)) -> bound args kw 1 "phi1" (Val (A0 0)) (Val (A0 p1)) ->
  bound args kw 2 "phi2" (Val (A0 (2 * PI))) (Val (A0 p2)) ->
  integrate_disk_py f r o n args kw =
  integrate_disk (fun p => f p (skipn 3 args) (without ["r_inner"; "phi1"; "phi2"; "method"] kw)) r o n ri p1 p2 q.
Proof.
  intros ND A M B0 B1 B2. unfold integrate_disk_py. rewrite no_second_ok by (eapply avoids_incl; [|exact A]; intros m; cbn; tauto). cbn [bind].
  fold disk_params. rewrite (bind_ok_params disk_params args kw [Val (A0 ri); Val (A0 p1); Val (A0 p2)] ND).
  2:{ repeat constructor; cbn; intuition discriminate. }
  2:{ cbn. auto. }
  cbn [bind fst snd]. rewrite (take_ok _ q) by (try apply without_nodup; auto; apply method_without; auto; cbn; intuition discriminate).
  cbn [bind fst snd]. change (sequence (map limit [Val (A0 ri); Val (A0 p1); Val (A0 p2)])) with (Ok [ri; p1; p2]). cbn [bind nth].
  unfold integrate_disk. destruct (expand_counts 2 n) as [ns|e]; [|reflexivity]. cbn [bind].
  rewrite without_without. set (kw' := without _ kw).
  assert (A' : avoids ["f"; "r"; "o"; "n"; "u"; "domain"] kw') by (apply avoids_without, A).
  rewrite inner_call.
  - apply integrate_ext. intros x. rewrite no_second_ok by (eapply avoids_incl; [|exact A']; intros m; cbn; tauto). reflexivity.
  - apply without_nodup, ND.
  - eapply avoids_incl; [|exact A']. intros m; cbn; tauto.
  - unfold kw'. rewrite without_names. cbn. tauto.
Qed.

Definition sphere_params : list (string * pyval) := [("r_inner", Val (A0 0)); ("phi1", Val (A0 0)); ("phi2", Val (A0 PI));
                    ("theta1", Val (A0 0)); ("theta2", Val (A0 (2 * PI)))].
Lemma sphere_call f r o n args kw ri p1 p2 t1 t2 q : NoDup (names kw) -> avoids ["f"; "r"; "o"; "n"; "t"; "domain"] kw -> method_of kw q ->
  bound args kw 0 "r_inner" (Val (A0 0)) (Val (A0 ri)) -> bound args kw 1 "phi1" (Val (A0 0)) (Val (A0 p1)) ->
  bound args kw 2 "phi2" (Val (A0 PI)) (Val (A0 p2)) -> bound args kw 3 "theta1" (Val (A0 0)) (Val (A0 t1)) ->
  bound args kw 4 "theta2" (Val (A0 (2 * PI))) (Val (A0 t2)) ->
  integrate_sphere_py f r o n args kw =
  integrate_sphere (fun p => f p (skipn 5 args) (without ["r_inner"; "phi1"; "phi2"; "theta1"; "theta2"; "method"] kw)) r o n ri p1 p2 t1 t2 q.
Proof.
  intros ND A M B0 B1 B2 B3 B4. unfold integrate_sphere_py. rewrite no_second_ok by (eapply avoids_incl; [|exact A]; intros m; cbn; tauto). cbn [bind].
  fold sphere_params. rewrite (bind_ok_params sphere_params args kw [Val (A0 ri); Val (A0 p1); Val (A0 p2); Val (A0 t1); Val (A0 t2)] ND).
  2:{ repeat constructor; cbn; intuition discriminate. }
  2:{ exact (conj B0 (conj B1 (conj B2 (conj B3 (conj B4 I))))). }
  cbn [bind fst snd]. rewrite (take_ok _ q) by (try apply without_nodup; auto; apply method_without; auto; cbn; intuition discriminate).
  cbn [bind fst snd]. change (sequence (map limit [Val (A0 ri); Val (A0 p1); Val (A0 p2); Val (A0 t1); Val (A0 t2)])) with (Ok [ri; p1; p2; t1; t2]). cbn [bind nth].
  unfold integrate_sphere. destruct (expand_counts 3 n) as [ns|e]; [|reflexivity]. cbn [bind].
  rewrite without_without. set (kw' := without _ kw).
  assert (A' : avoids ["f"; "r"; "o"; "n"; "t"; "domain"] kw') by (apply avoids_without, A).
  rewrite inner_call.
  - apply integrate_ext. intros x. rewrite no_second_ok by (eapply avoids_incl; [|exact A']; intros m; cbn; tauto). reflexivity.
  - apply without_nodup, ND.
  - eapply avoids_incl; [|exact A']. intros m; cbn; tauto.
  - unfold kw'. rewrite without_names. cbn. tauto.
Qed.

(** ** Calls that raise *)
Lemma integrate_err g ds rule v : (forall x, exists e, g x = Err e) -> integrate g ds rule <> Ok v.
Proof.
  intros H. unfold integrate. destruct (sequence (map rule ds)) as [WX|e]; [|discriminate]. cbn [bind].
  destruct WX as [|(W & X) [|WX1 WX]]; [discriminate| |].
  - destruct (H X) as (e & ->). discriminate.
  - destruct (meshgrid _) as [|x xs]; cbn [map sequence bind]; [|destruct (H x) as (e & ->); discriminate].
    destruct (map prodR _) as [|w [|]]; discriminate.
Qed.
Lemma bind_not_ok {A B} (m : res A) (k : A -> res B) v : (forall a, m = Ok a -> k a <> Ok v) -> bind m k <> Ok v.
Proof. intros H. destruct m as [a|e]; [apply H; reflexivity|discriminate]. Qed.
Lemma bind_params_names params args kw b n : bind_params params args kw = Ok b -> ~ In n (map fst params) -> In n (names kw) -> In n (names (snd b)).
Proof.
  revert args kw b. induction params as [|(m & d) ps IH]; intros args kw b E N H; [injection E as <-; exact H|]. cbn in E, N.
  destruct args as [|a args].
  - apply bind_ok in E as (r & E & K). injection K as <-. cbn. apply (IH [] (remove m kw) r E); [tauto|].
    rewrite remove_without, without_names. split; [exact H|]. intros [C|[]]. tauto.
  - destruct (has m kw); [discriminate|]. apply bind_ok in E as (r & E & K). injection K as <-. cbn. apply (IH args kw r E); tauto.
Qed.
Lemma take_names kw m n : take_method kw = Ok m -> n <> "method" -> In n (names kw) -> In n (names (snd m)).
Proof.
  unfold take_method. intros E N H. destruct (lookup "method" kw) as [[a|q]|]; [discriminate| |]; injection E as <-; cbn; auto.
  rewrite remove_without, without_names. split; [exact H|]. intros [C|[]]. congruence.
Qed.
Lemma inner_reserved g ds args kw q v : In "domain" (names kw) -> integrate_py g ds args (("method", Rule q) :: kw) <> Ok v.
Proof.
  intros H. unfold integrate_py. rewrite (no_second_err _ _ "domain"); [discriminate|right; left; reflexivity|right; exact H].
Qed.
Lemma inner_name (g : integrand) ds args kw q n v : n <> "method" -> In n (names kw) ->
  (forall x k, In n (names k) -> exists e, g x args k = Err e) -> integrate_py g ds args (("method", Rule q) :: kw) <> Ok v.
Proof.
  intros N H E. unfold integrate_py. apply bind_not_ok. intros _ _. apply bind_not_ok. intros m Em. apply integrate_err. intros x. apply E.
  apply (take_names _ _ n Em); [exact N|right; exact H].
Qed.
Lemma disk_reserved f r o n args kw name v : In name ["f"; "r"; "o"; "n"; "u"; "domain"] -> In name (names kw) ->
  integrate_disk_py f r o n args kw <> Ok v.
Proof.
  intros L H. unfold integrate_disk_py. apply bind_not_ok. intros u0 E0. apply bind_not_ok. intros b Eb. apply bind_not_ok. intros m Em.
  apply bind_not_ok. intros l _. apply bind_not_ok. intros ns _. cbv zeta.
  assert (K : name = "u" \/ name = "domain" -> In name (names (snd m))).
  { intros Q. apply (take_names _ _ _ Em); [intros ->; intuition discriminate|]. apply (bind_params_names _ _ _ _ _ Eb); [|exact H].
    cbn. intros C. intuition (subst; discriminate). }
  cbn in L. destruct L as [L|[L|[L|[L|[L|[L|[]]]]]]]; subst name.
  1-4: assert (Q : no_second ["f"; "r"; "o"; "n"] kw = Err TypeError) by (eapply no_second_err; [|exact H]; cbn; tauto); rewrite Q in E0; discriminate.
  - apply (inner_name _ _ _ _ _ "u"); [discriminate|auto|]. intros x k Hk. rewrite (no_second_err _ _ "u"); [eexists; reflexivity|left; reflexivity|exact Hk].
  - apply inner_reserved; auto.
Qed.
Lemma sphere_reserved f r o n args kw name v : In name ["f"; "r"; "o"; "n"; "t"; "domain"] -> In name (names kw) ->
  integrate_sphere_py f r o n args kw <> Ok v.
Proof.
  intros L H. unfold integrate_sphere_py. apply bind_not_ok. intros u0 E0. apply bind_not_ok. intros b Eb. apply bind_not_ok. intros m Em.
  apply bind_not_ok. intros l _. apply bind_not_ok. intros ns _. cbv zeta.
  assert (K : name = "t" \/ name = "domain" -> In name (names (snd m))).
  { intros Q. apply (take_names _ _ _ Em); [intros ->; intuition discriminate|]. apply (bind_params_names _ _ _ _ _ Eb); [|exact H].
    cbn. intros C. intuition (subst; discriminate). }
  cbn in L. destruct L as [L|[L|[L|[L|[L|[L|[]]]]]]]; subst name.
  1-4: assert (Q : no_second ["f"; "r"; "o"; "n"] kw = Err TypeError) by (eapply no_second_err; [|exact H]; cbn; tauto); rewrite Q in E0; discriminate.
  - apply (inner_name _ _ _ _ _ "t"); [discriminate|auto|]. intros x k Hk. rewrite (no_second_err _ _ "t"); [eexists; reflexivity|left; reflexivity|exact Hk].
  - apply inner_reserved; auto.
Qed.
(** positional arguments that are used up as limits *)
Lemma bind_params_rest params args kw b : bind_params params args kw = Ok b -> snd (fst b) = skipn (length params) args.
Proof.
  revert args kw b. induction params as [|(m & d) ps IH]; intros args kw b E; [injection E as <-; reflexivity|]. cbn in E.
  destruct args as [|a args].
  - apply bind_ok in E as (r & E & K). injection K as <-. cbn. rewrite (IH _ _ _ E). apply skipn_nil.
  - destruct (has m kw); [discriminate|]. apply bind_ok in E as (r & E & K). injection K as <-. cbn. apply (IH _ _ _ E).
Qed.
Lemma disk_swallow f r o n args kw v : (length args <= 3)%nat -> (forall p k, exists e, f p [] k = Err e) ->
  integrate_disk_py f r o n args kw <> Ok v.
Proof.
  intros L H. unfold integrate_disk_py. apply bind_not_ok. intros u0 E0. apply bind_not_ok. intros b Eb. apply bind_not_ok. intros m Em.
  apply bind_not_ok. intros l _. apply bind_not_ok. intros ns _. cbv zeta. rewrite (bind_params_rest _ _ _ _ Eb), skipn_all2 by exact L.
  unfold integrate_py. apply bind_not_ok. intros _ _. apply bind_not_ok. intros m' _. apply integrate_err. intros x.
  destruct (no_second ["u"] (snd m')); [|eexists; reflexivity]. cbn [bind]. unfold disk_integrand.
  destruct x as [|x0 [|x1 [|]]]; try (eexists; reflexivity). destruct (bcast1 _ _ _); [|eexists; reflexivity]. cbn [bind].
  destruct (H a0 (snd m')) as (e & ->). eexists; reflexivity.
Qed.
Lemma sphere_swallow f r o n args kw v : (length args <= 5)%nat -> (forall p k, exists e, f p [] k = Err e) ->
  integrate_sphere_py f r o n args kw <> Ok v.
Proof.
  intros L H. unfold integrate_sphere_py. apply bind_not_ok. intros u0 E0. apply bind_not_ok. intros b Eb. apply bind_not_ok. intros m Em.
  apply bind_not_ok. intros l _. apply bind_not_ok. intros ns _. cbv zeta. rewrite (bind_params_rest _ _ _ _ Eb), skipn_all2 by exact L.
  unfold integrate_py. apply bind_not_ok. intros _ _. apply bind_not_ok. intros m' _. apply integrate_err. intros x.
  destruct (no_second ["t"] (snd m')); [|eexists; reflexivity]. cbn [bind]. unfold sphere_integrand.
  destruct x as [|x0 [|x1 [|x2 [|]]]]; try (eexists; reflexivity). destruct (bcast1 _ _ _); [|eexists; reflexivity]. cbn [bind].
  destruct (H a0 (snd m')) as (e & ->). eexists; reflexivity.
Qed.
(** a limit given twice *)
Lemma bind_params_twice params args kw i n : nth_error (map fst params) i = Some n -> (i < length args)%nat -> In n (names kw) ->
  bind_params params args kw = Err TypeError.
Proof.
  revert args i. induction params as [|(m & d) ps IH]; intros args i E L H; [destruct i; discriminate|]. destruct args as [|a args]; [cbn in L; lia|].
  cbn. destruct (has m kw) eqn:Hm; [reflexivity|]. destruct i as [|i].
  - cbn in E. injection E as ->. apply has_names in H. congruence.
  - rewrite (IH args i); auto. cbn in L. lia.
Qed.
Lemma disk_twice f r o n args kw i name v : nth_error ["r_inner"; "phi1"; "phi2"] i = Some name -> (i < length args)%nat -> In name (names kw) ->
  integrate_disk_py f r o n args kw <> Ok v.
Proof.
  intros E L H. unfold integrate_disk_py. apply bind_not_ok. intros u0 _. fold disk_params.
  rewrite (bind_params_twice disk_params args kw i name E L H). discriminate.
Qed.
Lemma sphere_twice f r o n args kw i name v : nth_error ["r_inner"; "phi1"; "phi2"; "theta1"; "theta2"] i = Some name -> (i < length args)%nat ->
  In name (names kw) -> integrate_sphere_py f r o n args kw <> Ok v.
Proof.
  intros E L H. unfold integrate_sphere_py. apply bind_not_ok. intros u0 _. fold sphere_params.
  rewrite (bind_params_twice sphere_params args kw i name E L H). discriminate.
Qed.
