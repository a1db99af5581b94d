(** Property theorems about model.py (C64-C66, C76, C82). *)
From Coq Require Import String.
From Coquelicot Require Import Coquelicot.
From Verif Require Import Base BaseFacts P_Vec M_Tensor M_Calc M_Model S_Calc S_Model P_AD P_Calc P_Calc2 P_Model P_Model2.
Open Scope R_scope.

(** ** C64 *)
(** 0-d distance; model and data of the same, arbitrary shape *)
Theorem dirichlet_formula adf g na ng model args kw xs l v xg w s :
  pick args na = Ok xs -> adf xs = Ok l -> model args kw = Ok v ->
  pick args ng = Ok xg -> g xg = Ok w ->
  shape l = [] -> shape v = s -> shape w = s ->
  exists y, dirichlet_model adf (Some g) na ng model args kw = Ok y /\ shape y = s /\
    forall p, inside s p -> entry y p = entry l [] * entry v p + entry w p.
Proof. exact (dirichlet_ok adf g na ng model args kw xs l v xg w s). Qed.
Print Assumptions dirichlet_formula.

Theorem dirichlet_exact adf g na ng model args kw xs l v xg w s :
  pick args na = Ok xs -> adf xs = Ok l -> model args kw = Ok v ->
  pick args ng = Ok xg -> g xg = Ok w ->
  shape l = [] -> shape v = s -> shape w = s -> entry l [] = 0 ->
  exists y, dirichlet_model adf (Some g) na ng model args kw = Ok y /\ shape y = s /\
    forall p, inside s p -> entry y p = entry w p.
Proof.
  intros E1 E2 E3 E4 E5 Sl Sv Sw Z.
  destruct (dirichlet_ok adf g na ng model args kw xs l v xg w s E1 E2 E3 E4 E5 Sl Sv Sw) as (y & E & S & V).
  exists y. split; [exact E|]. split; [exact S|]. intros p Hp. rewrite V, Z by exact Hp. ring.
Qed.
Print Assumptions dirichlet_exact.

Theorem dirichlet_homogeneous adf na ng model args kw xs l v xg s :
  pick args na = Ok xs -> adf xs = Ok l -> model args kw = Ok v -> pick args ng = Ok xg ->
  shape l = [] -> shape v = s ->
  exists y, dirichlet_model adf None na ng model args kw = Ok y /\ shape y = s /\
    forall p, inside s p -> entry y p = entry l [] * entry v p /\ (entry l [] = 0 -> entry y p = 0).
Proof.
  intros E1 E2 E3 E4 Sl Sv.
  destruct (dirichlet_zero_ok adf na ng model args kw xs l v xg s E1 E2 E3 E4 Sl Sv) as (y & E & S & V).
  exists y. split; [exact E|]. split; [exact S|]. intros p Hp. rewrite V by exact Hp.
  split; [reflexivity|]. intros ->. ring.
Qed.
Print Assumptions dirichlet_homogeneous.

(** batches: numpy broadcasting of distance, model and data *)
Theorem dirichlet_broadcast adf g na ng model args kw xs l v xg w s1 s2 :
  pick args na = Ok xs -> adf xs = Ok l -> model args kw = Ok v ->
  pick args ng = Ok xg -> or_zero g xg = Ok w ->
  bshape (shape l) (shape v) = Ok s1 -> bshape s1 (shape w) = Ok s2 ->
  exists y, dirichlet_model adf g na ng model args kw = Ok y /\ shape y = s2 /\
    forall p, entry y p = entry l (bidx (shape l) (bidx s1 p)) * entry v (bidx (shape v) (bidx s1 p))
                          + entry w (bidx (shape w) p).
Proof. exact (dirichlet_entries adf g na ng model args kw xs l v xg w s1 s2). Qed.
Print Assumptions dirichlet_broadcast.

Theorem impose_forms_agree adf g na ng m0 t0 rate nm nt h am nh model :
  (exists d, impose_dirichlet_bc adf None g na ng = Decorator d /\
             impose_dirichlet_bc adf (Some model) g na ng = Direct (d model)) /\
  (exists d, impose_neumann_bc adf None h na am nh = Decorator d /\
             impose_neumann_bc adf (Some model) h na am nh = Direct (d model)) /\
  (exists d, impose_ic m0 None t0 rate nm nt = Decorator d /\
             impose_ic m0 (Some model) t0 rate nm nt = Direct (d model)).
Proof.
  exact (conj (ex_intro _ _ (conj eq_refl eq_refl))
        (conj (ex_intro _ _ (conj eq_refl eq_refl)) (ex_intro _ _ (conj eq_refl eq_refl)))).
Qed.
Print Assumptions impose_forms_agree.

(** [argnums] select positional arguments in the given order; [int] means one *)
Theorem argnums_select args spec is :
  Forall2 (fun k i => pyidx (List.length args) i k) (argn spec) is ->
  pick args spec = Ok (map (fun i => nth i args (tsc 0)) is).
Proof. exact (pick_ok args spec is). Qed.
Print Assumptions argnums_select.

Theorem argnums_out_of_range args spec k : In k (argn spec) ->
  (k < - Z.of_nat (List.length args) \/ Z.of_nat (List.length args) <= k)%Z ->
  pick args spec = Err IndexError.
Proof. exact (pick_err args spec k). Qed.
Print Assumptions argnums_out_of_range.

(** distance x - 1 at x = 1, free model 100 + x, data 7: the result is 7 *)
Example dirichlet_example :
  exists y, dirichlet_model (fun a => match a with [x] => Ok (tsc (entry x [] - 1)) | _ => Err TypeError end)
      (Some (fun a => match a with [x] => Ok (tsc 7) | _ => Err TypeError end)) (One 0) (Many [0])%Z
      (fun a _ => match a with [x] => Ok (tsc (100 + entry x [])) | _ => Err TypeError end) [tsc 1] [] = Ok y /\
    entry y [] = 7.
Proof.
  destruct (dirichlet_exact (fun a => match a with [x] => Ok (tsc (entry x [] - 1)) | _ => Err TypeError end)
      (fun a => match a with [x] => Ok (tsc 7) | _ => Err TypeError end) (One 0) (Many [0])%Z
      (fun a _ => match a with [x] => Ok (tsc (100 + entry x [])) | _ => Err TypeError end) [tsc 1] []
      [tsc 1] (tsc (1 - 1)) (tsc (100 + 1)) [tsc 1] (tsc 7) []) as (y & E & S & V); try reflexivity.
  - cbn. ring.
  - exists y. split; [exact E|]. rewrite V; [reflexivity|constructor].
Qed.

(** ** C65 *)
Theorem neumann_exact n D j s adf na nh am model args kw phi u h hh X :
  (j < List.length args)%nat -> am = Z.of_nat j ->
  (exists a, argn na = [a] /\ pyidx (List.length args) j a) ->
  rep0 n (fun t => adf [t]) phi -> repT n s (fun t => model (upd args j t) kw) u ->
  repT n s (fun t => xs <- pick (upd args j t) nh ;; h xs) hh ->
  openset n D -> C1 n D phi -> (forall p, inside s p -> C1 n D (u p)) -> D X ->
  phi X = 0 -> grad_sq n phi X = 1 ->
  (forall p, inside s p -> cont_along (hh p) X (outward n phi X)) ->
  exists U, repT n s (fun t => neumann_model adf (Some h) na am nh model (upd args j t) kw) U /\
    forall p, inside s p -> U p X = u p X /\
      is_derive (fun t => U p (axpy t X (outward n phi X))) 0 (hh p X).
Proof. exact (neumann_exact_some n D j s adf na nh am model args kw phi u h hh X). Qed.
Print Assumptions neumann_exact.

Theorem neumann_homogeneous n D j s adf na nh am model args kw phi u X :
  (j < List.length args)%nat -> am = Z.of_nat j ->
  (exists a, argn na = [a] /\ pyidx (List.length args) j a) ->
  (exists is, Forall2 (fun k i => pyidx (List.length args) i k) (argn nh) is) ->
  rep0 n (fun t => adf [t]) phi -> repT n s (fun t => model (upd args j t) kw) u ->
  openset n D -> C1 n D phi -> (forall p, inside s p -> C1 n D (u p)) -> D X ->
  phi X = 0 -> grad_sq n phi X = 1 ->
  exists U, repT n s (fun t => neumann_model adf None na am nh model (upd args j t) kw) U /\
    forall p, inside s p -> U p X = u p X /\
      is_derive (fun t => U p (axpy t X (outward n phi X))) 0 0.
Proof. exact (neumann_exact_none n D j s adf na nh am model args kw phi u X). Qed.
Print Assumptions neumann_homogeneous.

Theorem neumann_formula n D j s adf na nh am model args kw phi u h hh :
  (j < List.length args)%nat -> am = Z.of_nat j ->
  (exists a, argn na = [a] /\ pyidx (List.length args) j a) ->
  rep0 n (fun t => adf [t]) phi -> repT n s (fun t => model (upd args j t) kw) u ->
  repT n s (fun t => xs <- pick (upd args j t) nh ;; h xs) hh ->
  openset n D -> (forall p, inside s p -> C1 n D (u p)) ->
  forall t, shape t = [n] -> D (tlist t) ->
  exists y, neumann_model adf (Some h) na am nh model (upd args j t) kw = Ok y /\ shape y = s /\
    forall p, inside s p -> entry y p
      = u p (tlist t) - phi (tlist t) * total n (fun i => pd i (u p) (tlist t) * pd i phi (tlist t))
        - phi (tlist t) * hh p (tlist t).
Proof. exact (neumann_formula_some n D j s adf na nh am model args kw phi u h hh). Qed.
Print Assumptions neumann_formula.

(** half line x > 0 with distance x, free model 5 x, data 3 *)
Definition ln (x : list R) : Prop := List.length x = 1%nat.
Lemma ln_open : openset 1 ln.
Proof. intros x L. split; [exact L|]. exists 1. split; [lra|]. intros y (Ly & _). unfold ln in *. congruence. Qed.
Lemma lin_pd c x : ln x -> pd 0 (fun y => c * nth 0 y 0) x = c.
Proof.
  unfold ln. destruct x as [|a [|b x]]; try discriminate. intros _. unfold pd. cbn [upd nth].
  apply is_derive_unique. auto_derive; [auto|ring].
Qed.
Lemma lin_C1 c : C1 1 ln (fun y => c * nth 0 y 0).
Proof.
  intros i x Hi L. replace i with 0%nat by lia. split.
  - unfold ln in L. destruct x as [|a [|b x]]; try discriminate. cbn [upd nth]. auto_derive. auto.
  - intros eps He. exists 1. split; [lra|]. intros y (Ly & _). rewrite !lin_pd by (unfold ln in *; congruence).
    rewrite Rminus_eq_0, Rabs_R0. exact He.
Qed.
Example neumann_example : exists U,
  repT 1 [] (fun t => neumann_model (fun a => match a with [x] => Ok (tsc (entry x [0%nat])) | _ => Err TypeError end)
      (Some (fun a => Ok (tsc 3))) (One 0) 0 (One 0)
      (fun a _ => match a with [x] => Ok (tsc (5 * entry x [0%nat])) | _ => Err TypeError end) (upd [tvec [0]] 0 t) []) U /\
  is_derive (fun t => U [] (axpy t [0] [-1])) 0 3.
Proof.
  destruct (neumann_exact 1 ln 0 [] (fun a => match a with [x] => Ok (tsc (entry x [0%nat])) | _ => Err TypeError end)
     (One 0) (One 0) 0
     (fun a _ => match a with [x] => Ok (tsc (5 * entry x [0%nat])) | _ => Err TypeError end) [tvec [0]] []
     (fun y => 1 * nth 0 y 0) (fun _ y => 5 * nth 0 y 0) (fun a => Ok (tsc 3)) (fun _ _ => 3) [0]) as (U & HU & H); auto.
  - exists 0%Z. split; [reflexivity|]. split; [cbn; lia|]. left. reflexivity.
  - intros t Ht. eexists. split; [reflexivity|]. split; [reflexivity|]. rewrite (tlist_nth t 1) by (auto; lia). cbn. ring.
  - intros t Ht. eexists. split; [reflexivity|]. split; [reflexivity|]. intros p _. rewrite (tlist_nth t 1) by (auto; lia). reflexivity.
  - intros t Ht. eexists. split; [reflexivity|]. split; [reflexivity|]. reflexivity.
  - exact ln_open.
  - apply lin_C1.
  - intros p _. apply lin_C1.
  - reflexivity.
  - cbn. ring.
  - unfold grad_sq, total. cbn [seq map sumR fold_right]. rewrite lin_pd by reflexivity. ring.
  - intros p _. unfold cont_along. apply (continuous_const 3).
  - exists U. split; [exact HU|]. destruct (H [] (Forall2_nil _)) as (_ & H').
    replace [-1] with (outward 1 (fun y => 1 * nth 0 y 0) [0]); [exact H'|].
    unfold outward. cbn [seq map]. rewrite lin_pd by reflexivity. reflexivity.
Qed.

(** ** C66 *)
Theorem ic_formula m0 t0 rate nm nt model args kw t v xs v0 s :
  pyget args nt = Ok t -> model args kw = Ok v -> pick args nm = Ok xs -> m0 xs = Ok v0 ->
  shape t = [] -> shape v = s -> shape v0 = s ->
  exists y, ic_model m0 t0 rate nm nt model args kw = Ok y /\ shape y = s /\
    forall p, inside s p ->
      entry y p = exp (- rate * (entry t [] - t0)) * entry v0 p
                  + (1 - exp (- rate * (entry t [] - t0))) * entry v p.
Proof. exact (ic_ok m0 t0 rate nm nt model args kw t v xs v0 s). Qed.
Print Assumptions ic_formula.

Theorem ic_exact_at_t0 m0 t0 rate nm nt model args kw t v xs v0 s :
  pyget args nt = Ok t -> model args kw = Ok v -> pick args nm = Ok xs -> m0 xs = Ok v0 ->
  shape t = [] -> shape v = s -> shape v0 = s -> entry t [] = t0 ->
  exists y, ic_model m0 t0 rate nm nt model args kw = Ok y /\ shape y = s /\
    forall p, inside s p -> entry y p = entry v0 p.
Proof.
  intros E1 E2 E3 E4 St Sv S0 Ht.
  destruct (ic_ok m0 t0 rate nm nt model args kw t v xs v0 s E1 E2 E3 E4 St Sv S0) as (y & E & S & V).
  exists y. split; [exact E|]. split; [exact S|]. intros p Hp. rewrite V, Ht by exact Hp.
  replace (- rate * (t0 - t0)) with 0 by ring. rewrite exp_0. ring.
Qed.
Print Assumptions ic_exact_at_t0.

(** the same weight for all entries *)
Theorem ic_convex_combination m0 t0 rate nm nt model args kw t v xs v0 s :
  pyget args nt = Ok t -> model args kw = Ok v -> pick args nm = Ok xs -> m0 xs = Ok v0 ->
  shape t = [] -> shape v = s -> shape v0 = s -> 0 <= rate -> t0 <= entry t [] ->
  exists y c, ic_model m0 t0 rate nm nt model args kw = Ok y /\ shape y = s /\ 0 < c <= 1 /\
    forall p, inside s p -> entry y p = c * entry v0 p + (1 - c) * entry v p.
Proof.
  intros E1 E2 E3 E4 St Sv S0 Hr Ht.
  destruct (ic_ok m0 t0 rate nm nt model args kw t v xs v0 s E1 E2 E3 E4 St Sv S0) as (y & E & S & V).
  exists y, (exp (- rate * (entry t [] - t0))). split; [exact E|]. split; [exact S|]. split; [|exact V].
  split; [apply exp_pos|]. rewrite <- exp_0.
  assert (H : - rate * (entry t [] - t0) <= 0) by nra.
  destruct H as [H|H]; [left; apply exp_increasing; exact H|right; rewrite H; reflexivity].
Qed.
Print Assumptions ic_convex_combination.

Theorem ic_tends_to_model m0 t0 rate nm nt model kw s (args : R -> list tensor) (v v0 : R -> tensor) p B :
  0 < rate -> inside s p ->
  (forall t, exists tt, pyget (args t) nt = Ok tt /\ shape tt = [] /\ entry tt [] = t) ->
  (forall t, model (args t) kw = Ok (v t) /\ shape (v t) = s /\ Rabs (entry (v t) p) <= B) ->
  (forall t, (xs <- pick (args t) nm ;; m0 xs) = Ok (v0 t) /\ shape (v0 t) = s /\ Rabs (entry (v0 t) p) <= B) ->
  exists y : R -> tensor, (forall t, ic_model m0 t0 rate nm nt model (args t) kw = Ok (y t)) /\
    is_lim (fun t => entry (y t) p - entry (v t) p) p_infty 0.
Proof. exact (ic_limit m0 t0 rate nm nt model kw s args v v0 p B). Qed.
Print Assumptions ic_tends_to_model.

(** arguments (x, t) with defaults argnums_m0=0, argnum_t=1 *)
Example ic_example : exists y,
  ic_model (fun a => match a with [x] => Ok (tsc (2 * entry x [])) | _ => Err TypeError end) 0 10 (One 0) 1
    (fun a _ => Ok (tsc 100)) [tsc 3; tsc 0] [] = Ok y /\ entry y [] = 6.
Proof.
  destruct (ic_exact_at_t0 (fun a => match a with [x] => Ok (tsc (2 * entry x [])) | _ => Err TypeError end) 0 10 (One 0) 1
    (fun a _ => Ok (tsc 100)) [tsc 3; tsc 0] [] (tsc 0) (tsc 100) [tsc 3] (tsc (2 * 3)) []) as (y & E & S & V); try reflexivity.
  exists y. split; [exact E|]. rewrite V; [cbn; ring|constructor].
Qed.
Example ic_limit_example : exists y : R -> tensor,
  (forall t, ic_model (fun a => Ok (tsc 5)) 0 1 (One 0) 1 (fun a _ => Ok (tsc 1)) [tsc 3; tsc t] [] = Ok (y t)) /\
  is_lim (fun t => entry (y t) [] - 1) p_infty 0.
Proof.
  apply (ic_tends_to_model (fun a => Ok (tsc 5)) 0 1 (One 0) 1 (fun a _ => Ok (tsc 1)) [] [] (fun t => [tsc 3; tsc t])
    (fun _ => tsc 1) (fun _ => tsc 5) [] 5).
  - lra.
  - constructor.
  - intros t. exists (tsc t). repeat split.
  - intros t. repeat split. cbn. rewrite Rabs_pos_eq; lra.
  - intros t. repeat split. cbn. rewrite Rabs_pos_eq; lra.
Qed.

(** ** C76 *)
Theorem mlp_forward layers act params n x s : layers <> [] -> fits n layers params -> shape x = s ++ [n] ->
  exists y, mlp_call layers act params x = Ok y /\
    shape y = s ++ (if Nat.eqb (last layers 0%nat) 1 then [] else [last layers 0%nat]) /\
    forall p, if Nat.eqb (last layers 0%nat) 1
              then entry y p = nth 0 (net (match act with None => tanh | Some f => f end) params (row x n p)) 0
              else forall k, (k < last layers 0%nat)%nat ->
                entry y (p ++ [k]) = nth k (net (match act with None => tanh | Some f => f end) params (row x n p)) 0.
Proof. exact (fun Hne => mlp_call_ok layers act Hne params n x s). Qed.
Print Assumptions mlp_forward.

Theorem mlp_initialised init n m layers :
  (forall i n m, List.length (fst (init i n m)) = n /\
     Forall (fun r => List.length r = m) (fst (init i n m)) /\ List.length (snd (init i n m)) = m) ->
  exists params, mlp init (n :: m :: layers) = Ok (m :: layers, params) /\ fits n (m :: layers) params.
Proof. exact (fun H => ex_intro _ _ (conj eq_refl (init_fits init H (m :: layers) 0 n))). Qed.
Print Assumptions mlp_initialised.

Theorem mlp_needs_output_layer init n : mlp init [] = Err IndexError /\ mlp init [n] = Err IndexError.
Proof. exact (conj eq_refl eq_refl). Qed.
Print Assumptions mlp_needs_output_layer.

Theorem mlp_rejects_other_sizes layers act params n x s m : fits n layers params -> layers <> [] ->
  shape x = s ++ [m] -> m <> n -> mlp_call layers act params x = Err ValueError.
Proof. exact (mlp_call_wrong_size layers act params n x s m). Qed.
Print Assumptions mlp_rejects_other_sizes.

Theorem mlp_rejects_0d layers act params n x : fits n layers params -> layers <> [] ->
  shape x = [] -> mlp_call layers act params x = Err IndexError.
Proof. exact (mlp_call_0d layers act params n x). Qed.
Print Assumptions mlp_rejects_0d.

(** two inputs, a hidden layer of two, one output *)
Example mlp_example : exists y,
  mlp_call [2; 1]%nat (Some (fun r => r ^ 2)) [([[1; 2]; [3; 4]], [1; 0]); ([[1]; [10]], [5])] (tvec [1; 2]) = Ok y /\
  shape y = [] /\ entry y [] = 1069.
Proof.
  destruct (mlp_forward [2; 1]%nat (Some (fun r => r ^ 2)) [([[1; 2]; [3; 4]], [1; 0]); ([[1]; [10]], [5])] 2 (tvec [1; 2]) [])
    as (y & E & S & V).
  - discriminate.
  - cbn. repeat constructor.
  - reflexivity.
  - exists y. split; [exact E|]. split; [exact S|]. specialize (V []). cbn [last Nat.eqb] in V. rewrite V.
    cbn. ring.
Qed.

(** ** C82 *)
(** negative argument numbers select from the end in [argnums_adf], [argnums_g],
    [argnums_h], [argnums_m0] and [argnum_t] ... *)
Theorem negative_argnums_partial args k : (k < List.length args)%nat ->
  pick args (One (Z.of_nat k - Z.of_nat (List.length args))) = pick args (One (Z.of_nat k)) /\
  pyget args (Z.of_nat k - Z.of_nat (List.length args)) = pyget args (Z.of_nat k).
Proof. exact (negative_same args k). Qed.
Print Assumptions negative_argnums_partial.

(** ... and in [argnum_model], except for -1: then the free model is called with all but
    the last argument, the point, and then all arguments once more *)
Theorem negative_argnum_model_partial adf h na nh model args kw k : (S k < List.length args)%nat ->
  neumann_model adf h na (Z.of_nat k - Z.of_nat (List.length args)) nh model args kw
  = neumann_model adf h na (Z.of_nat k) nh model args kw.
Proof. exact (negative_model adf h na nh model args kw k). Qed.
Print Assumptions negative_argnum_model_partial.

Theorem last_argnum_model_repeats adf h na nh (model : amodel) args kw k : S k = List.length args ->
  neumann_model adf h na (-1) nh model args kw
  = neumann_model adf h na (Z.of_nat k) nh (fun a kw => model (a ++ args) kw) args kw.
Proof. exact (last_model adf h na nh model args kw k). Qed.
Print Assumptions last_argnum_model_repeats.

Definition unary_adf (a : list tensor) : res tensor := match a with [x] => Ok (tsc (entry x [0%nat])) | _ => Err TypeError end.
Definition unary_model : amodel := fun a _ => match a with [x] => Ok (tsc (5 * entry x [0%nat])) | _ => Err TypeError end.
Theorem negative_argnum_model_refuted :
  ~ (forall adf h na nh model args kw k, (k < List.length args)%nat ->
     neumann_model adf h na (Z.of_nat k - Z.of_nat (List.length args)) nh model args kw
     = neumann_model adf h na (Z.of_nat k) nh model args kw) /\
  neumann_model unary_adf None (One 0) (-1) (One 0) unary_model [tvec [2]] [] = Err TypeError /\
  exists y, neumann_model unary_adf None (One 0) 0 (One 0) unary_model [tvec [2]] [] = Ok y.
Proof.
  assert (A : neumann_model unary_adf None (One 0) (-1) (One 0) unary_model [tvec [2]] [] = Err TypeError) by reflexivity.
  assert (B : exists y, neumann_model unary_adf None (One 0) 0 (One 0) unary_model [tvec [2]] [] = Ok y)
    by (eexists; reflexivity).
  split; [|split; assumption].
  intros H. destruct B as (y & B).
  specialize (H unary_adf None (One 0) (One 0) unary_model [tvec [2]] [] 0%nat ltac:(cbn; lia)).
  change (Z.of_nat 0 - Z.of_nat (List.length [tvec [2%R]]))%Z with (-1)%Z in H.
  change (Z.of_nat 0) with 0%Z in H. congruence.
Qed.
Print Assumptions negative_argnum_model_refuted.

(** with two arguments -2 works and selects the first *)
Example negative_argnum_case : exists y,
  neumann_model unary_adf None (One 0) (-2) (One 0) (fun a _ => match a with [x; t] => Ok (tsc (5 * entry x [0%nat] + entry t [])) | _ => Err TypeError end)
    [tvec [2]; tsc 3] [] = Ok y.
Proof. eexists. reflexivity. Qed.
