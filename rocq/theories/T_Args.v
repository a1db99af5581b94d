(** Property theorems that follow the arguments of the public functions of model.py and calc.py to the places
    where they are used. *)
From Coq Require Import String.
From Coquelicot Require Import Coquelicot.
From Verif Require Import Base BaseFacts P_Vec M_Tensor M_Calc M_Model S_Calc S_Model P_AD P_Calc P_Calc2 P_Model P_Model2 M_Domain M_Mumag T_Mumag P_Args.
Open Scope R_scope.

(** ** model.py: the distance gets args[i] for i in argnums_adf, the data args[i] for i in argnums_g, in this order *)
Theorem impose_dirichlet_arguments adf g la lg model m args kw ia ig l v w s :
  impose_dirichlet_bc adf (Some model) (Some g) (Many la) (Many lg) = Direct m ->
  Forall2 (fun k i => pyidx (List.length args) i k) la ia -> Forall2 (fun k i => pyidx (List.length args) i k) lg ig ->
  adf (map (fun i => nth i args (tsc 0)) ia) = Ok l -> g (map (fun i => nth i args (tsc 0)) ig) = Ok w -> model args kw = Ok v ->
  shape l = [] -> shape v = s -> shape w = s ->
  exists y, m args kw = Ok y /\ shape y = s /\ forall p, inside s p -> entry y p = entry l [] * entry v p + entry w p.
Proof.
  intros E Ha Hg El Ew Ev Sl Sv Sw. injection E as <-.
  exact (dirichlet_ok adf g (Many la) (Many lg) model args kw _ l v _ w s (pick_many _ _ _ Ha) El Ev (pick_many _ _ _ Hg) Ew Sl Sv Sw).
Qed.
Print Assumptions impose_dirichlet_arguments.

(** a single position *)
Theorem impose_dirichlet_argument adf g ka kg model m args kw ia ig l v w s :
  impose_dirichlet_bc adf (Some model) (Some g) (One ka) (One kg) = Direct m ->
  pyidx (List.length args) ia ka -> pyidx (List.length args) ig kg ->
  adf [nth ia args (tsc 0)] = Ok l -> g [nth ig args (tsc 0)] = Ok w -> model args kw = Ok v ->
  shape l = [] -> shape v = s -> shape w = s ->
  exists y, m args kw = Ok y /\ shape y = s /\ forall p, inside s p -> entry y p = entry l [] * entry v p + entry w p.
Proof.
  intros E Ha Hg El Ew Ev Sl Sv Sw. injection E as <-.
  exact (dirichlet_ok adf g (One ka) (One kg) model args kw _ l v _ w s (pick_one _ _ _ Ha) El Ev (pick_one _ _ _ Hg) Ew Sl Sv Sw).
Qed.
Print Assumptions impose_dirichlet_argument.

(** distance of args[1], data of (args[2], args[0]) *)
Example dirichlet_arguments_example : exists m y,
  impose_dirichlet_bc (fun a => match a with [x] => Ok x | _ => Err TypeError end) (Some (fun _ _ => Ok (tsc 10)))
    (Some (fun a => match a with [x; z] => Ok (tsc (entry x [] - entry z [])) | _ => Err TypeError end)) (Many [1]%Z) (Many [2; 0]%Z) = Direct m /\
  m [tsc 3; tsc 5; tsc 7] [] = Ok y /\ entry y [] = 54.
Proof.
  eexists. destruct (impose_dirichlet_arguments (fun a => match a with [x] => Ok x | _ => Err TypeError end)
    (fun a => match a with [x; z] => Ok (tsc (entry x [] - entry z [])) | _ => Err TypeError end) [1]%Z [2; 0]%Z (fun _ _ => Ok (tsc 10)) _
    [tsc 3; tsc 5; tsc 7] [] [1]%nat [2; 0]%nat (tsc 5) (tsc 10) (tsc (7 - 3)) [] eq_refl) as (y & E & S & V); try reflexivity.
  - repeat constructor; cbn; lia.
  - repeat constructor; cbn; lia.
  - exists y. split; [reflexivity|]. split; [exact E|]. rewrite V by constructor. cbn. ring.
Qed.

(** the exactness of C65 for what impose_neumann_bc returns *)
Theorem impose_neumann_arguments n D j s adf ka lh am model m args kw phi u h hh X ih :
  impose_neumann_bc adf (Some model) (Some h) (One ka) am (Many lh) = Direct m ->
  (j < List.length args)%nat -> am = Z.of_nat j -> pyidx (List.length args) j ka ->
  Forall2 (fun k i => pyidx (List.length args) i k) lh ih ->
  rep0 n (fun t => adf [t]) phi -> repT n s (fun t => model (upd args j t) kw) u ->
  repT n s (fun t => h (map (fun i => nth i (upd args j t) (tsc 0)) ih)) hh ->
  openset n D -> C1 n D phi -> (forall p, inside s p -> C1 n D (u p)) -> D X ->
  phi X = 0 -> grad_sq n phi X = 1 ->
  (forall p, inside s p -> cont_along (hh p) X (outward n phi X)) ->
  exists U, repT n s (fun t => m (upd args j t) kw) U /\
    forall p, inside s p -> U p X = u p X /\ is_derive (fun t => U p (axpy t X (outward n phi X))) 0 (hh p X).
Proof.
  intros E Hj Ham Hk Hh R0 Ru Rh. injection E as <-.
  apply (neumann_exact_some n D j s adf (One ka) (Many lh) am model args kw phi u h hh X Hj Ham); auto.
  - exists ka. split; [reflexivity|exact Hk].
  - intros t Ht. destruct (Rh t Ht) as (y & Ey). exists y. rewrite (pick_many (upd args j t) lh ih); [exact Ey|].
    rewrite upd_length. exact Hh.
Qed.
Print Assumptions impose_neumann_arguments.

(** ** calc.py: the letters of a string are taken from the left *)
Theorem derivative_names_in_order f c s : derivative (WStr (String c s)) ANone f =
  (g <- derivative (WSeq [SStr (String c EmptyString)]) ANone f ;; derivative (WStr s) ANone g).
Proof. exact (names_step f c s). Qed.
Print Assumptions derivative_names_in_order.

(** ** calc.py: an objective that does not return what value_and_grad and has_aux promise *)
Theorem array_misfit_raises F x v alpha vag has_aux o : shape x = shape v -> F x = Ok o ->
  (exists y, o = OVal y /\ (vag = true \/ has_aux = true)) \/ (exists y a, o = OAux y a /\ vag = false /\ has_aux = false) ->
  hvp_forward_over_reverse F x v alpha vag has_aux = Err TypeError /\ hvp_reverse_over_reverse F x v vag has_aux = Err TypeError /\
  value_grad_hvp F x vag has_aux = Err TypeError.
Proof. exact (misfit1 F x v alpha vag has_aux o). Qed.
Print Assumptions array_misfit_raises.
Example array_misfit_example : value_grad_hvp (fun x => Ok (OVal (tsc 1))) (tvec [1; 2]) false true = Err TypeError.
Proof.
  apply (array_misfit_raises (fun x => Ok (OVal (tsc 1))) (tvec [1; 2]) (tvec [1; 2]) None false true (OVal (tsc 1)) eq_refl eq_refl).
  left. exists (tsc 1). auto.
Qed.

(** ** broadcasting of shapes is symmetric, and both operands broadcast to the result *)
Theorem broadcast_shapes s t : bshape s t = bshape t s /\ forall r, bshape s t = Ok r -> bshape s r = Ok r /\ bshape t r = Ok r.
Proof. exact (conj (bshape_sym s t) (bshape_max s t)). Qed.
Print Assumptions broadcast_shapes.
Example broadcast_column n m : (n <> 0)%nat -> bshape [n; 1]%nat [m] = Ok [n; m].
Proof. exact (brow n m). Qed.

(** ** mumag3.py: the support of a cuboid is its volume *)
Theorem cuboid_support_volume xs ys zs c : Cuboid xs ys zs = Ok c ->
  cub_support c = (last xs 0 - hd 0 xs) * (last ys 0 - hd 0 ys) * (last zs 0 - hd 0 zs).
Proof. exact (cuboid_volume xs ys zs c). Qed.
Print Assumptions cuboid_support_volume.
Example cuboid_support_example : exists c, Cuboid [0; 1] [0; 1] [0; 1] = Ok c /\ cub_support c = 1.
Proof. destruct cuboid_accepts as (c & E). exists c. split; [exact E|]. rewrite (cuboid_support_volume _ _ _ c E). cbn. ring. Qed.
