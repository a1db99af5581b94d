(** Property theorems about calc.py (C67-C70). *)
From Coq Require Import String Permutation.
From Coquelicot Require Import Coquelicot.
From Verif Require Import Base BaseFacts P_Vec M_Tensor M_Calc S_Calc P_AD P_Calc P_Calc2.
Open Scope R_scope.

(** ** C67 *)
Theorem derivative_of_position n f kw g i : (i < n)%nat -> repA n (fun a => call f a kw) g ->
  exists df, derivative (WInt (Z.of_nat i)) ANone f = Ok df /\ params df = params f /\
    repA n (fun a => call df a kw) (pd i g).
Proof. exact (derivative_int n f kw g i). Qed.
Print Assumptions derivative_of_position.

Theorem derivative_of_positions n f kw g l :
  repA n (fun a => call f a kw) g -> Forall (fun i => (i < n)%nat) l ->
  exists df, derivative (WSeq (map (fun i => SInt (Z.of_nat i)) l)) ANone f = Ok df /\
    params df = params f /\ repA n (fun a => call df a kw) (pds l g).
Proof. exact (derivative_list n f kw g l). Qed.
Print Assumptions derivative_of_positions.

(** the order of the selectors is irrelevant for smooth functions *)
Theorem derivative_order n D f kw g l m : repA n (fun a => call f a kw) g ->
  Forall (fun i => (i < n)%nat) l -> Permutation l m -> openset n D -> smooth n D (List.length l) g ->
  exists df dg, derivative (WSeq (map (fun i => SInt (Z.of_nat i)) l)) ANone f = Ok df /\
    derivative (WSeq (map (fun i => SInt (Z.of_nat i)) m)) ANone f = Ok dg /\
    forall args, List.length args = n -> Forall (fun t => shape t = []) args ->
      D (map (fun t => entry t []) args) ->
      exists y z, call df args kw = Ok y /\ call dg args kw = Ok z /\ shape y = [] /\ shape z = [] /\
        entry y [] = entry z [].
Proof.
  intros H F P HO S.
  assert (F' : Forall (fun i => (i < n)%nat) m).
  { apply Forall_forall. intros a Ha. rewrite Forall_forall in F. apply F.
    eapply Permutation_in; [apply Permutation_sym; exact P|exact Ha]. }
  destruct (derivative_list n f kw g l H F) as (df & E1 & _ & R1).
  destruct (derivative_list n f kw g m H F') as (dg & E2 & _ & R2).
  exists df, dg. split; [exact E1|]. split; [exact E2|]. intros args L Fa Da.
  destruct (R1 args L Fa) as (y & Ey & Sy & Vy). destruct (R2 args L Fa) as (z & Ez & Sz & Vz).
  exists y, z. repeat (split; auto). rewrite Vy, Vz. apply (pds_perm n D); auto.
Qed.
Print Assumptions derivative_order.

Theorem derivative_of_names f ss is :
  NoDup (params f) -> Forall2 (fun s i => nth_error (params f) i = Some s) ss is ->
  derivative (WSeq (map SStr ss)) ANone f = derivative (WSeq (map (fun i => SInt (Z.of_nat i)) is)) ANone f.
Proof. exact (derivative_names f ss is). Qed.
Print Assumptions derivative_of_names.

(** components of one vector argument, the other arguments being arbitrary arrays *)
Theorem derivative_of_component n f kw args j x0 g a ks is :
  nth_error args j = Some x0 -> pyidx (List.length args) j a ->
  Forall2 (fun k i => pyidx n i k) ks is ->
  rep0 n (fun t => call f (upd args j t) kw) g ->
  exists df, derivative (WSeq (map SInt ks)) (AInt a) f = Ok df /\ params df = params f /\
    rep0 n (fun t => call df (upd args j t) kw) (pds is g).
Proof. exact (derivative_vec n f kw args j x0 g a ks is). Qed.
Print Assumptions derivative_of_component.

(** components of several vector arguments *)
Theorem derivative_of_components ns f kw g ks js jis : repL ns (fun l => call f l kw) g ->
  Forall2 (fun k ji => pyidx (nth (fst ji) ns 0%nat) (snd ji) k) ks jis ->
  Forall2 (fun a ji => pyidx (List.length ns) (fst ji) a) js jis ->
  exists df, derivative (WSeq (map SInt ks)) (ASeq (map Some js)) f = Ok df /\ params df = params f /\
    repL ns (fun l => call df l kw) (fold_left (fun h ji => pdL ji h) jis g).
Proof. exact (fun H => derivative_many ns f kw g ks js H jis). Qed.
Print Assumptions derivative_of_components.

(** without argnums a vector argument moves as a whole: the sum of its partials *)
Theorem derivative_of_vector n D f kw args j x0 g : nth_error args j = Some x0 ->
  rep0 n (fun t => call f (upd args j t) kw) g -> openset n D -> C1 n D g ->
  exists df, derivative (WInt (Z.of_nat j)) ANone f = Ok df /\
    forall x, shape x = [n] -> D (tlist x) ->
    exists y, call df (upd args j x) kw = Ok y /\ shape y = [] /\
      entry y [] = total n (fun i => pd i g (tlist x)).
Proof. exact (derivative_ones n D f kw args j x0 g). Qed.
Print Assumptions derivative_of_vector.

(** [derivative(f)] and [derivative(f, i)] *)
Theorem derivative_forms f i : derivative (WInt i) ANone f = derivative_fun f (AInt i) /\
  derivative_fun f ANone = derivative_fun f (AInt 0) /\
  forall l, derivative_fun f (ASeq l) = Err AssertionError.
Proof. exact (conj (derive_single f i) (conj eq_refl (fun _ => eq_refl))). Qed.
Print Assumptions derivative_forms.

(** a smooth function of two arguments: x^2 y, mixed derivative 2 x *)
Definition ex_f : pyfun := mkF ["x"; "y"]%string
  (fun a _ => match a with [x; y] => Ok (tsc (entry x [] ^ 2 * entry y [])) | _ => Err TypeError end).
Definition ex_g (x : list R) : R := nth 0 x 0 ^ 2 * nth 1 x 0.
Example ex_f_rep : repA 2 (fun a => call ex_f a []) ex_g.
Proof.
  intros [|a [|b [|c args]]] L F; try discriminate. eexists. split; [reflexivity|]. split; reflexivity.
Qed.
Example ex_f_01 : exists df, derivative (WSeq [SStr "x"; SStr "y"]%string) ANone ex_f = Ok df /\
  exists y, call df [tsc 3; tsc 5] [] = Ok y /\ entry y [] = 6.
Proof.
  change [SStr "x"; SStr "y"]%string with (map SStr ["x"; "y"]%string).
  rewrite (derivative_of_names ex_f ["x"; "y"]%string [0%nat; 1%nat]).
  - destruct (derivative_of_positions 2 ex_f [] ex_g [0%nat; 1%nat] ex_f_rep) as (df & E & _ & H).
    { repeat constructor. }
    exists df. split; [exact E|]. destruct (H [tsc 3; tsc 5] eq_refl) as (y & Ey & _ & V).
    { repeat constructor. }
    exists y. split; [exact Ey|]. rewrite V. cbn [pds fold_left map entry tsc].
    unfold pd at 1. apply is_derive_unique.
    apply (is_derive_ext (fun t => 6 * t)).
    + intros t. cbn [upd]. unfold pd, ex_g. cbn [nth upd]. symmetry. apply is_derive_unique. auto_derive; [auto|]. ring.
    + auto_derive; [auto|]. ring.
  - repeat constructor; cbn; intuition discriminate.
  - repeat constructor.
Qed.
Example ex_smooth : openset 2 (fun x => List.length x = 2%nat) /\ C1 2 (fun x => List.length x = 2%nat) (fun x => nth 0 x 0 + 2 * nth 1 x 0).
Proof.
  split.
  - intros x L. split; auto. exists 1. split; [lra|]. intros y (Ly & _). congruence.
  - intros i x Hi L. destruct x as [|a [|b [|c x]]]; try discriminate.
    destruct i as [|[|i]]; [| |lia]; cbn [upd nth].
    + split; [auto_derive; auto|]. intros eps He. exists 1. split; [lra|]. intros [|p [|q [|r y]]] (Ly & _); try discriminate.
      unfold pd. cbn [upd nth].
      assert (X : forall u v, Derive (fun t => t + 2 * u) v = 1) by (intros; apply is_derive_unique; auto_derive; auto).
      rewrite !X. rewrite Rminus_eq_0, Rabs_R0. auto.
    + split; [auto_derive; auto|]. intros eps He. exists 1. split; [lra|]. intros [|p [|q [|r y]]] (Ly & _); try discriminate.
      unfold pd. cbn [upd nth].
      assert (X : forall u v, Derive (fun t => u + 2 * t) v = 2) by (intros; apply is_derive_unique; auto_derive; auto; ring).
      rewrite !X. rewrite Rminus_eq_0, Rabs_R0. auto.
Qed.

(** ** C68 *)
(** Full statement: every selector either yields the derivative with respect to
    the parameter it denotes or raises.  Refuted below; what does hold: in-range
    positions and names (C67) and unknown names. *)
Theorem unknown_name_raises_partial f s : ~ In s (params f) ->
  derivative (WSeq [SStr s]) ANone f = Err AssertionError.
Proof. exact (derivative_unknown f s). Qed.
Print Assumptions unknown_name_raises_partial.

(** a selector that is no integer together with argnums; lists of different lengths;
    several argnums for a function given directly *)
Theorem selector_mistakes_raise_partial f ws :
  (forall i w, In w ws -> (forall k, w <> SInt k) -> derivative (WSeq ws) (AInt i) f = Err AssertionError) /\
  (forall l, List.length l <> List.length ws -> derivative (WSeq ws) (ASeq l) f = Err AssertionError) /\
  (forall l, derivative_fun f (ASeq l) = Err AssertionError).
Proof. exact (conj (fun i w => derivative_mixed f ws i w) (conj (fun l => derivative_lengths f ws l) (fun l => eq_refl))). Qed.
Print Assumptions selector_mistakes_raise_partial.
Example selector_mistakes_case : In (SStr "x") [SInt 0; SStr "x"] /\ (forall k, SStr "x" <> SInt k) /\ List.length [Some 0%Z] <> List.length [SInt 0; SStr "x"].
Proof. split; [simpl; auto|]. split; [discriminate|simpl; lia]. Qed.

(** every position out of range, in particular every negative one, gives zero *)
Theorem missed_position_gives_zero n f kw g i : repA n (fun a => call f a kw) g ->
  (i < 0 \/ Z.of_nat n <= i)%Z ->
  exists df, derivative (WInt i) ANone f = Ok df /\ repA n (fun a => call df a kw) (fun _ => 0).
Proof. exact (derivative_miss n f kw g i). Qed.
Print Assumptions missed_position_gives_zero.

Theorem missed_component_gives_zero n f kw args j x0 g a k :
  nth_error args j = Some x0 -> pyidx (List.length args) j a ->
  (k < - Z.of_nat n \/ Z.of_nat n <= k)%Z ->
  rep0 n (fun t => call f (upd args j t) kw) g ->
  exists df, derivative (WSeq [SInt k]) (AInt a) f = Ok df /\
    rep0 n (fun t => call df (upd args j t) kw) (fun _ => 0).
Proof. exact (derivative_component_miss n f kw args j x0 g a k). Qed.
Print Assumptions missed_component_gives_zero.

Theorem keyword_argument_gives_zero f kw i y : call f [] kw = Ok y ->
  exists df, derivative (WInt i) ANone f = Ok df /\
    exists z, call df [] kw = Ok z /\ shape z = shape y /\ forall p, entry z p = 0.
Proof. exact (derivative_keyword f kw i y). Qed.
Print Assumptions keyword_argument_gives_zero.

(** a function of one argument called "xy", by position or by keyword *)
Definition id_f : pyfun := mkF ["xy"]%string
  (fun a kw => match a, kw with
               | [x], [] => Ok (tsc (entry x []))
               | [], [(k, x)] => if String.eqb k "xy" then Ok (tsc (entry x [])) else Err TypeError
               | _, _ => Err TypeError
               end).
Definition selectors_honoured : Prop :=
  (* the last argument by negative index *)
  (forall n f g, repA (S n) (fun a => call f a []) g ->
     (exists e, derivative (WInt (-1)) ANone f = Err e) \/
     exists df, derivative (WInt (-1)) ANone f = Ok df /\ repA (S n) (fun a => call df a []) (pd n g)) /\
  (* an index that denotes no argument *)
  (forall n f g, repA n (fun a => call f a []) g ->
     (exists e, derivative (WInt (Z.of_nat n)) ANone f = Err e) \/
     exists df, derivative (WInt (Z.of_nat n)) ANone f = Ok df /\
       forall args, List.length args = n -> exists e, call df args [] = Err e) /\
  (* the name of a parameter *)
  (forall s f g, params f = [s] -> repA 1 (fun a => call f a []) g ->
     exists df, derivative (WStr s) ANone f = Ok df /\ repA 1 (fun a => call df a []) (pd 0 g)) /\
  (* an argument passed by keyword *)
  (forall s f g, params f = [s] ->
     (forall x, exists y, call f [] [(s, x)] = Ok y /\ entry y [] = g (entry x [])) ->
     exists df, derivative (WSeq [SStr s]) ANone f = Ok df /\
       forall x y, call df [] [(s, x)] = Ok y -> entry y [] = Derive g (entry x [])).
Lemma id_f_rep : repA 1 (fun a => call id_f a []) (fun x => nth 0 x 0).
Proof. intros [|a [|b args]] L F; try discriminate. eexists. split; [reflexivity|]. split; reflexivity. Qed.
Theorem selectors_honoured_refuted :
  ~ selectors_honoured /\
  (* each part fails on its own *)
  (exists df y, derivative (WInt (-1)) ANone id_f = Ok df /\ call df [tsc 3] [] = Ok y /\ entry y [] = 0) /\
  (exists df y, derivative (WInt 1) ANone id_f = Ok df /\ call df [tsc 3] [] = Ok y /\ entry y [] = 0) /\
  derivative (WStr "xy") ANone id_f = Err AssertionError /\
  (exists df y, derivative (WSeq [SStr "xy"%string]) ANone id_f = Ok df /\
     call df [] [("xy"%string, tsc 3)] = Ok y /\ entry y [] = 0).
Proof.
  assert (M : forall i, (i < 0 \/ 1 <= i)%Z ->
     exists df y, derivative (WInt i) ANone id_f = Ok df /\ call df [tsc 3] [] = Ok y /\ entry y [] = 0).
  { intros i Hi. destruct (derivative_miss 1 id_f [] _ i id_f_rep Hi) as (df & E & H).
    destruct (H [tsc 3] eq_refl) as (y & Ey & _ & V); [repeat constructor|]. eauto. }
  assert (N : derivative (WStr "xy") ANone id_f = Err AssertionError) by reflexivity.
  split.
  - intros (_ & _ & H & _). destruct (H "xy"%string id_f _ eq_refl id_f_rep) as (df & E & _). congruence.
  - split; [apply M; lia|]. split; [apply M; lia|]. split; [exact N|].
    destruct (derivative_keyword id_f [("xy"%string, tsc 3)] 0 (tsc 3) eq_refl) as (df & E & z & Ez & _ & Vz).
    exists df, z. split; [|auto]. rewrite <- E. reflexivity.
Qed.
Print Assumptions selectors_honoured_refuted.

(** ** C69 *)
Theorem divergence_is_sum_of_partials n F fs argnum k args x : nth_error args k = Some x ->
  pyidx (List.length args) k argnum ->
  shape x = [n] -> rep1 n n (fun t => F (upd args k t)) fs ->
  exists v d, value_and_divergence F argnum args = Ok (v, d) /\ F args = Ok v /\
    divergence F argnum args = Ok d /\ shape d = [] /\ entry d [] = div_ n fs (tlist x).
Proof. exact (fun Hk Ha => divergence_ok n F fs argnum k args x Hk (proj2 Ha)). Qed.
Print Assumptions divergence_is_sum_of_partials.

Theorem divergence_argnum_out_of_range F argnum args :
  (argnum < - Z.of_nat (List.length args) \/ Z.of_nat (List.length args) <= argnum)%Z ->
  divergence F argnum args = Err ValueError.
Proof. exact (divergence_bad F argnum args). Qed.
Print Assumptions divergence_argnum_out_of_range.

Theorem curl_in_3d F f : rep1 3 3 F f -> rep1 3 3 (curl F) (curl3_ f).
Proof. exact (curl_rep3 F f). Qed.
Print Assumptions curl_in_3d.

Theorem curl_in_2d F f : rep1 2 2 F f -> rep0 2 (curl F) (curl2_ f).
Proof. exact (curl_rep2 F f). Qed.
Print Assumptions curl_in_2d.

Theorem curl_other_dimensions F x n : shape x = [n] -> n <> 2%nat -> n <> 3%nat ->
  curl F x = Err ValueError.
Proof. exact (curl_other F x n). Qed.
Print Assumptions curl_other_dimensions.

Theorem laplace_is_sum_of_second_partials n F f x : (0 < n)%nat -> rep0 n F f -> shape x = [n] ->
  exists y, laplace F x = Ok y /\ shape y = [] /\ entry y [] = lap_ n f (tlist x).
Proof. exact (laplace_rep0 n F f x). Qed.
Print Assumptions laplace_is_sum_of_second_partials.

Theorem laplace_of_vector_field n m F f x : (0 < n)%nat -> rep1 n m F f -> shape x = [n] ->
  exists y, laplace F x = Ok y /\ shape y = [m] /\
    forall k, (k < m)%nat -> entry y [k] = lap_ n (f k) (tlist x).
Proof. exact (laplace_rep1 n m F f x). Qed.
Print Assumptions laplace_of_vector_field.

Theorem laplace_of_0d_argument F g x : repS F g -> shape x = [] ->
  exists y, laplace F x = Ok y /\ shape y = [] /\ entry y [] = Derive (Derive g) (entry x []).
Proof. exact (laplace_repS F g x). Qed.
Print Assumptions laplace_of_0d_argument.

Theorem divergence_of_curl_vanishes D F f x : rep1 3 3 F f -> openset 3 D ->
  (forall k, (k < 3)%nat -> C2 3 D (f k)) -> shape x = [3]%nat -> D (tlist x) ->
  exists d, divergence (unary (curl F)) 0 [x] = Ok d /\ shape d = [] /\ entry d [] = 0.
Proof.
  intros H HO HC Hx Dx. destruct (divergence_unary 3 (curl F) (curl3_ f) x Hx (curl_rep3 F f H)) as (d & E & S & V).
  exists d. split; [exact E|]. split; [exact S|]. rewrite V. exact (div_curl_0 D f (tlist x) HO HC Dx).
Qed.
Print Assumptions divergence_of_curl_vanishes.

Theorem curl_of_gradient_vanishes D F f x : rep0 3 F f -> openset 3 D -> C2 3 D f ->
  shape x = [3]%nat -> D (tlist x) ->
  exists c, curl (jacfwd F) x = Ok c /\ shape c = [3]%nat /\ forall i, (i < 3)%nat -> entry c [i] = 0.
Proof.
  intros H HO HC Hx Dx. destruct (curl_rep3 _ _ (jacfwd_rep0 3 F f H) x Hx) as (c & E & S & V).
  exists c. split; [exact E|]. split; [exact S|]. intros i Hi. rewrite V by exact Hi.
  exact (curl_grad_0 D f (tlist x) i HO HC Dx Hi).
Qed.
Print Assumptions curl_of_gradient_vanishes.

Theorem curl2d_of_gradient_vanishes D F f x : rep0 2 F f -> openset 2 D -> C2 2 D f ->
  shape x = [2]%nat -> D (tlist x) ->
  exists c, curl (jacfwd F) x = Ok c /\ shape c = [] /\ entry c [] = 0.
Proof.
  intros H HO HC Hx Dx. destruct (curl_rep2 _ _ (jacfwd_rep0 2 F f H) x Hx) as (c & E & S & V).
  exists c. split; [exact E|]. split; [exact S|]. rewrite V. exact (curl2_grad_0 D f (tlist x) HO HC Dx).
Qed.
Print Assumptions curl2d_of_gradient_vanishes.

Theorem laplace_is_divergence_of_gradient n F f x : (0 < n)%nat -> rep0 n F f -> shape x = [n] ->
  exists y z, laplace F x = Ok y /\ divergence (unary (jacfwd F)) 0 [x] = Ok z /\
    shape y = [] /\ shape z = [] /\ entry y [] = entry z [].
Proof.
  intros Hn H Hx. destruct (laplace_rep0 n F f x Hn H Hx) as (y & E & S & V).
  destruct (divergence_unary n _ _ x Hx (jacfwd_rep0 n F f H)) as (z & E' & S' & V').
  exists y, z. repeat (split; auto). rewrite V, V'. reflexivity.
Qed.
Print Assumptions laplace_is_divergence_of_gradient.

(** the rotation field (-y, x, 0): curl (0, 0, 2), divergence 0 *)
Definition rot_F (t : tensor) : res tensor :=
  Ok (tvec [- entry t [1%nat]; entry t [0%nat]; 0]).
Definition rot_f (i : nat) (x : list R) : R :=
  match i with O => - nth 1 x 0 | S O => nth 0 x 0 | _ => 0 end.
Example rot_rep : rep1 3 3 rot_F rot_f.
Proof.
  intros t Ht. eexists. split; [reflexivity|]. split; [reflexivity|].
  intros [|[|[|i]]] Hi; [| | |lia]; cbn [rot_f]; rewrite ?(tlist_nth t 3) by (auto; lia); reflexivity.
Qed.
Example rot_curl : exists c, curl rot_F (tvec [1; 2; 3]) = Ok c /\ entry c [2%nat] = 2.
Proof.
  destruct (curl_in_3d _ _ rot_rep (tvec [1; 2; 3]) eq_refl) as (c & E & _ & V). exists c. split; [exact E|].
  rewrite V by lia. cbn [curl3_]. unfold pd, rot_f, tlist, tvec. cbn [shape hd seq map entry nth upd length].
  rewrite Derive_id. rewrite (is_derive_unique (fun t => - t) _ (-1)); [ring|]. auto_derive; [auto|ring].
Qed.
(** the laplacian of x^2 + y^2 in 2d is 4 *)
Example lap_square : exists y,
  laplace (fun t => Ok (tsc (entry t [0%nat] ^ 2 + entry t [1%nat] ^ 2))) (tvec [1; 2]) = Ok y /\ entry y [] = 4.
Proof.
  destruct (laplace_is_sum_of_second_partials 2 (fun t => Ok (tsc (entry t [0%nat] ^ 2 + entry t [1%nat] ^ 2)))
    (fun x => nth 0 x 0 ^ 2 + nth 1 x 0 ^ 2) (tvec [1; 2])) as (y & E & _ & V); auto.
  { intros t Ht. eexists. split; [reflexivity|]. split; [reflexivity|].
    rewrite !(tlist_nth t 2) by (auto; lia). reflexivity. }
  exists y. split; [exact E|]. rewrite V. unfold lap_, total, tlist, tvec.
  cbn [shape hd seq map entry nth sumR fold_right length].
  assert (A : forall u v w, Derive (fun t => t ^ 2 + u) v = 2 * v /\ Derive (fun t => w + t ^ 2) v = 2 * v).
  { intros. split; apply is_derive_unique; auto_derive; auto; ring. }
  assert (B : pd 0 (pd 0 (fun x => nth 0 x 0 ^ 2 + nth 1 x 0 ^ 2)) [1; 2] = 2).
  { unfold pd. cbn [nth upd]. rewrite (Derive_ext _ (fun t => 2 * t)).
    - apply is_derive_unique. auto_derive; auto. ring.
    - intros t. cbn [nth upd]. apply (A (2 ^ 2) t 0). }
  assert (C : pd 1 (pd 1 (fun x => nth 0 x 0 ^ 2 + nth 1 x 0 ^ 2)) [1; 2] = 2).
  { unfold pd. cbn [nth upd]. rewrite (Derive_ext _ (fun t => 2 * t)).
    - apply is_derive_unique. auto_derive; auto. ring.
    - intros t. cbn [nth upd]. apply (A 0 t (1 ^ 2)). }
  rewrite B, C. ring.
Qed.

(** ** C70 *)
Theorem hvp_is_hessian_times_vector n D F f x v : openset n D -> C2 n D f -> D (tlist x) -> rep0 n F f ->
  shape x = [n] -> shape v = [n] ->
  exists a, hvp F x v = Ok a /\ shape a = [n] /\
    forall i, (i < n)%nat -> entry a [i] = hv_ n f (tlist x) (tlist v) i.
Proof. exact (hvp_rep0 n D F f x v). Qed.
Print Assumptions hvp_is_hessian_times_vector.

Theorem forward_over_reverse_is_hvp n D f aux vag has_aux F x v alpha :
  openset n D -> C2 n D f -> D (tlist x) -> objective n f aux vag has_aux F ->
  shape x = [n] -> shape v = [n] ->
  exists a, hvp_forward_over_reverse F x v alpha vag has_aux = Ok a /\ shape a = [n] /\
    forall i, (i < n)%nat -> entry a [i] = hv_ n f (tlist x) (tlist v) i
                + match alpha with Some r => r * entry v [i] | None => 0 end.
Proof. exact (hvp_for_ok n D f aux vag has_aux F x v alpha). Qed.
Print Assumptions forward_over_reverse_is_hvp.

Theorem reverse_over_reverse_is_hvp n D f aux vag has_aux F x v :
  openset n D -> C2 n D f -> D (tlist x) -> objective n f aux vag has_aux F ->
  shape x = [n] -> shape v = [n] ->
  exists a, hvp_reverse_over_reverse F x v vag has_aux = Ok a /\ shape a = [n] /\
    forall i, (i < n)%nat -> entry a [i] = hv_ n f (tlist x) (tlist v) i.
Proof. exact (hvp_ror_ok n D f aux vag has_aux F x v). Qed.
Print Assumptions reverse_over_reverse_is_hvp.

(** linear in the vector: H (v + c w) = H v + c H w *)
Theorem hvp_linear n D F f x v w c : openset n D -> C2 n D f -> D (tlist x) -> rep0 n F f ->
  shape x = [n] -> shape v = [n] -> shape w = [n] ->
  exists a b d, hvp F x v = Ok a /\ hvp F x w = Ok b /\ hvp F x (taxpy c v w) = Ok d /\
    forall i, (i < n)%nat -> entry d [i] = entry a [i] + c * entry b [i].
Proof. exact (hvp_linear_lemma n D F f x v w c). Qed.
Print Assumptions hvp_linear.

Theorem hvp_rejects_other_shapes F x v : shape v <> shape x -> hvp F x v = Err TypeError.
Proof. exact (hvp_shape_error F x v). Qed.
Print Assumptions hvp_rejects_other_shapes.

Theorem value_grad_hvp_four_conventions n D f aux vag has_aux F x :
  openset n D -> C2 n D f -> D (tlist x) -> objective n f aux vag has_aux F -> shape x = [n] ->
  exists v g lin,
    value_grad_hvp F x vag has_aux
      = Ok ((v, None), g, lin, if has_aux then Some (aux (tlist x)) else None) /\
    shape v = [] /\ entry v [] = f (tlist x) /\
    shape g = [n] /\ (forall i, (i < n)%nat -> entry g [i] = pd i f (tlist x)) /\
    forall w, shape w = [n] -> exists a, lin w = Ok a /\ shape a = [n] /\
      forall i, (i < n)%nat -> entry a [i] = hv_ n f (tlist x) (tlist w) i.
Proof. exact (value_grad_hvp_ok n D f aux vag has_aux F x). Qed.
Print Assumptions value_grad_hvp_four_conventions.

(** f(x, y) = x y is twice continuously differentiable; H v = (v_1, v_0) *)
Definition xy (x : list R) : R := nth 0 x 0 * nth 1 x 0.
Definition pl (x : list R) : Prop := List.length x = 2%nat.
Lemma pl_open : openset 2 pl.
Proof. intros x L. split; [exact L|]. exists 1. split; [lra|]. intros y (Ly & _). unfold pl in *. congruence. Qed.
Lemma const_C1 (h : list R -> R) c : (forall x, pl x -> h x = c) -> C1 2 pl h.
Proof.
  intros H i x Hi L. assert (E : forall t, h (upd x i t) = c) by (intros; apply H; unfold pl in *; rewrite upd_length; auto).
  split.
  - apply (ex_derive_ext (fun _ => c)); [intros; symmetry; apply E|]. apply (ex_derive_const c).
  - intros eps He. exists 1. split; [lra|]. intros y (Ly & _).
    assert (Z : forall z, pl z -> pd i h z = 0).
    { intros z Lz. unfold pd. rewrite (Derive_ext _ (fun _ => c)); [apply Derive_const|].
      intros t. apply H. unfold pl in *. rewrite upd_length. auto. }
    rewrite !Z by (unfold pl in *; congruence). rewrite Rminus_eq_0, Rabs_R0. exact He.
Qed.
Lemma coord_C1 (h : list R -> R) k : (k < 2)%nat -> (forall x, pl x -> h x = nth k x 0) -> C1 2 pl h.
Proof.
  intros Hk H i x Hi L.
  assert (Z : forall z, pl z -> pd i h z = if Nat.eqb i k then 1 else 0).
  { intros z Lz. unfold pd. rewrite (Derive_ext _ (fun t => nth k (upd z i t) 0))
      by (intros t; apply H; unfold pl in *; rewrite upd_length; auto).
    unfold pl in *. destruct (Nat.eqb_spec i k) as [->|].
    - rewrite (Derive_ext _ (fun t => t)) by (intros; apply upd_nth_same; lia). apply Derive_id.
    - rewrite (Derive_ext _ (fun _ => nth k z 0)) by (intros; apply upd_nth_other; auto). apply Derive_const. }
  split.
  - apply (ex_derive_ext (fun t => nth k (upd x i t) 0)); [intros t; symmetry; apply H; unfold pl in *; rewrite upd_length; auto|].
    unfold pl in *. destruct (Nat.eq_dec i k) as [->|].
    + apply (ex_derive_ext (fun t => t)); [intros; symmetry; apply upd_nth_same; change (k < @List.length R x)%nat; rewrite L; exact Hk|]. apply ex_derive_id.
    + apply (ex_derive_ext (fun _ => nth k x 0)); [intros; symmetry; apply upd_nth_other; auto|]. apply (ex_derive_const (nth k x 0)).
  - intros eps He. exists 1. split; [lra|]. intros y (Ly & _). rewrite !Z by (unfold pl in *; congruence).
    rewrite Rminus_eq_0, Rabs_R0. exact He.
Qed.
Lemma pd_xy x : pl x -> pd 0 xy x = nth 1 x 0 /\ pd 1 xy x = nth 0 x 0.
Proof.
  unfold pl. destruct x as [|a [|b [|c x]]]; try discriminate. intros _. unfold pd, xy. cbn [nth upd].
  split; apply is_derive_unique; auto_derive; auto; ring.
Qed.
Example xy_C2 : C2 2 pl xy.
Proof.
  split.
  - intros i x Hi L. split.
    + unfold pl in L. destruct x as [|a [|b [|c x]]]; try discriminate.
      destruct i as [|[|i]]; [| |lia]; unfold xy; cbn [nth upd]; auto_derive; auto.
    + intros eps He. exists eps. split; [exact He|]. intros y (Ly & Hy).
      assert (Py : pl y) by (unfold pl in *; congruence).
      destruct i as [|[|i]]; [| |lia].
      * rewrite (proj1 (pd_xy x L)), (proj1 (pd_xy y Py)). apply Hy.
      * rewrite (proj2 (pd_xy x L)), (proj2 (pd_xy y Py)). apply Hy.
  - intros [|[|i]] Hi; [| |lia].
    + apply (coord_C1 _ 1); auto. intros x L. apply (pd_xy x L).
    + apply (coord_C1 _ 0); auto. intros x L. apply (pd_xy x L).
Qed.
Example xy_objectives vag has_aux : exists F, objective 2 xy (fun _ => 7%nat) vag has_aux F.
Proof.
  exists (fun t => Ok
    (let v := tsc (xy (tlist t)) in let g := tvec [pd 0 xy (tlist t); pd 1 xy (tlist t)] in
     match vag, has_aux with
     | true, true => OAuxGrad v 7 g | true, false => OGrad v g
     | false, true => OAux v 7 | false, false => OVal v end)).
  intros t Ht. exists (tsc (xy (tlist t))). split; [reflexivity|]. split; [reflexivity|].
  destruct vag; [|destruct has_aux; reflexivity].
  exists (tvec [pd 0 xy (tlist t); pd 1 xy (tlist t)]). split; [reflexivity|]. split; [|destruct has_aux; reflexivity].
  intros [|[|i]] Hi; [| |lia]; reflexivity.
Qed.
