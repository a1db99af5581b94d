(** Property theorems for boundary conditions on solids (C127). *)
From Coquelicot Require Import Coquelicot.
From Verif Require Import Base BaseFacts M_Quat S_Quat M_RFun S_RFun P_RFun1 P_Vec M_Tensor M_Calc S_Calc M_Model S_Model P_AD P_Calc P_Model
  M_Solid S_Solid P_Solid1 P_Solid2 P_Solid3 P_Solid4 P_Solid5 P_Solid6 M_SolidBC S_SolidBC P_SolidC1 P_SolidC2 P_SolidC3 P_SolidC4 T_Solid.
Import ListNotations.
Open Scope R_scope.

Theorem solid_continuously_differentiable t n x f : good smooth_system n t -> length x = n -> kink_free t x -> build t = Ok f ->
  smooth_near f x.
Proof. exact (solid_smooth t n x f). Qed.
Print Assumptions solid_continuously_differentiable.

(** the predefined R-systems qualify, except alpha = 1 (maximum and minimum) *)
Theorem ralpha_smooth_system alpha s : RAlpha alpha = Ok s -> alpha < 1 -> smooth_system s.
Proof. exact (RAlpha_smooth alpha s). Qed.
Print Assumptions ralpha_smooth_system.

Theorem rp_smooth_system p s : RP p = Ok s -> (2 <= p)%Z -> smooth_system s.
Proof. exact (RP_smooth p s). Qed.
Print Assumptions rp_smooth_system.

Theorem solid_neumann t n f D j s na nh am model args kw u X h hh :
  good smooth_system n t -> (forall x, length x = n -> regular t x) -> build t = Ok f ->
  length X = n -> smooth t X -> kink_free t X ->
  (j < length args)%nat -> am = Z.of_nat j -> (exists a, argn na = [a] /\ pyidx (length args) j a) ->
  repT n s (fun x => model (upd args j x) kw) u -> openset n D -> D X -> (forall p, S_Model.inside s p -> C1 n D (u p)) ->
  repT n s (fun x => xs <- pick (upd args j x) nh ;; h xs) hh -> (forall p, S_Model.inside s p -> cont_at (hh p) X) ->
  exists nu U, leaves t X nu /\ repT n s (fun x => neumann_model (on_arrays f) (Some h) na am nh model (upd args j x) kw) U /\
    forall p, S_Model.inside s p -> U p X = u p X /\ is_derive (fun r => U p (axpy r X nu)) 0 (hh p X).
Proof.
  exact (fun G Rg B HX Sm Kf Hj Ham Hna Hu Od HD Cu =>
    solid_neumann_lemma t n f D j s na nh am model args kw u X G Rg B HX Sm Kf Hj Ham Hna Hu Od HD Cu h hh).
Qed.
Print Assumptions solid_neumann.

Theorem solid_neumann_homogeneous t n f D j s na nh am model args kw u X :
  good smooth_system n t -> (forall x, length x = n -> regular t x) -> build t = Ok f ->
  length X = n -> smooth t X -> kink_free t X ->
  (j < length args)%nat -> am = Z.of_nat j -> (exists a, argn na = [a] /\ pyidx (length args) j a) ->
  repT n s (fun x => model (upd args j x) kw) u -> openset n D -> D X -> (forall p, S_Model.inside s p -> C1 n D (u p)) ->
  (exists is, Forall2 (fun k i => pyidx (length args) i k) (argn nh) is) ->
  exists nu U, leaves t X nu /\ repT n s (fun x => neumann_model (on_arrays f) None na am nh model (upd args j x) kw) U /\
    forall p, S_Model.inside s p -> U p X = u p X /\ is_derive (fun r => U p (axpy r X nu)) 0 0.
Proof. exact (solid_neumann_zero t n f D j s na nh am model args kw u X). Qed.
Print Assumptions solid_neumann_homogeneous.

Theorem solid_dirichlet t n f g na ng model args kw x v xg w s : good sign_correct n t -> build t = Ok f ->
  pick args na = Ok [x] -> M_Tensor.shape x = [n] -> regular t (tlist x) -> on_boundary t (tlist x) ->
  model args kw = Ok v -> pick args ng = Ok xg -> g xg = Ok w -> M_Tensor.shape v = s -> M_Tensor.shape w = s ->
  exists y, dirichlet_model (on_arrays f) (Some g) na ng model args kw = Ok y /\ M_Tensor.shape y = s /\
    forall p, S_Model.inside s p -> entry y p = entry w p.
Proof. exact (solid_dirichlet_lemma t n f g na ng model args kw x v xg w s). Qed.
Print Assumptions solid_dirichlet.

(** The rim of the hole of the plate of T_Solid.v: a model x -> 5 x0 with data 3. *)
Lemma plate_smooth_good s : r0 = Ok s -> good smooth_system 2 (plate s).
Proof.
  intros H. pose proof (RAlpha_smooth 0 s H ltac:(lra)) as N. simpl. repeat split; auto; try lra; apply N.
Qed.
Definition pl (x : list R) : Prop := length x = 2%nat.
Lemma pl_open : openset 2 pl.
Proof. intros x L. split; [exact L|]. exists 1. split; [lra|]. intros y (Ly & _). unfold pl in *. congruence. Qed.
Lemma pl_pd i x : (i < 2)%nat -> pl x -> pd i (fun y => 5 * nth 0 y 0) x = if Nat.eqb i 0 then 5 else 0.
Proof.
  unfold pl. intros Hi. destruct x as [|a [|b [|c x]]]; try discriminate. intros _. unfold pd.
  destruct i as [|[|i]]; try lia; cbn [upd nth Nat.eqb]; apply is_derive_unique; auto_derive; auto; ring.
Qed.
Lemma pl_C1 : C1 2 pl (fun y => 5 * nth 0 y 0).
Proof.
  intros i x Hi L. split.
  - unfold pl in L. destruct x as [|a [|b [|c x]]]; try discriminate.
    destruct i as [|[|i]]; try lia; cbn [upd nth]; auto_derive; auto.
  - intros eps He. exists 1. split; [lra|]. intros y (Ly & _). rewrite !pl_pd by (auto; unfold pl in *; congruence).
    rewrite Rminus_eq_0, Rabs_R0. exact He.
Qed.
Lemma plate_kinks s : r0 = Ok s -> kink_free (plate s) [1 / 2; 0].
Proof.
  intros E. simpl. rewrite cos_neg, sin_neg, cos_PI2, sin_PI2. split; [|split].
  - split; [auto|]. split; [auto|]. unfold single_face, lower, upper. simpl. split.
    + intros [|[|i]] Hi; simpl; try lia; lra.
    + intros i j Hij. assert (i = 0%nat /\ j = 1%nat) as (-> & ->) by lia. simpl. lra.
  - intros H. inversion H. lra.
  - intros ((H & _) & _). apply H. apply plate_box. lra.
Qed.
Example plate_neumann : exists s f nu U, r0 = Ok s /\ build (plate s) = Ok f /\ leaves (plate s) [1 / 2; 0] nu /\
  repT 2 [] (fun x => neumann_model (on_arrays f) (Some (fun a => Ok (tsc 3))) (One 0) 0 (One 0)
      (fun a _ => match a with [x] => Ok (tsc (5 * entry x [0%nat])) | _ => Err TypeError end) (upd [tvec [0; 0]] 0 x) []) U /\
  U [] [1 / 2; 0] = 5 / 2 /\ is_derive (fun r => U [] (axpy r [1 / 2; 0] nu)) 0 3.
Proof.
  destruct (proj1 (RAlpha_accepts 0) ltac:(lra)) as (s & E). pose proof (plate_smooth_good s E) as G.
  destruct (solid_signed (plate s) 2%nat (good_mono _ _ _ cont_sign 2%nat (good_mono _ _ _ norm_cont 2%nat (plate_good s E)))) as (f & B & _).
  destruct (solid_neumann (plate s) 2 f pl 0 [] (One 0) (One 0) 0
     (fun a _ => match a with [x] => Ok (tsc (5 * entry x [0%nat])) | _ => Err TypeError end) [tvec [0; 0]] []
     (fun _ y => 5 * nth 0 y 0) [1 / 2; 0] (fun a => Ok (tsc 3)) (fun _ _ => 3)) as (nu & U & Lv & HU & H); auto.
  - intros x _. simpl. auto.
  - right. split; [apply plate_box; lra|]. simpl. rewrite normR_sumsq, !sumsq_cons. change (sumsq []) with 0.
    replace (1 / 2 * (1 / 2) + (0 * 0 + 0)) with (1 / 2 * (1 / 2)) by ring. apply sqrt_square. lra.
  - apply plate_kinks. exact E.
  - exists 0%Z. split; [reflexivity|]. split; [cbn; lia|]. left. reflexivity.
  - intros x Hx. eexists. split; [reflexivity|]. split; [reflexivity|]. intros p _. rewrite (P_Calc.tlist_nth x 2) by (auto; lia). reflexivity.
  - exact pl_open.
  - reflexivity.
  - intros p _. exact pl_C1.
  - intros x Hx. eexists. split; [reflexivity|]. split; [reflexivity|]. reflexivity.
  - intros p _ e He. exists 1. split; [lra|]. intros y _. rewrite Rminus_eq_0, Rabs_R0. exact He.
  - exists s, f, nu, U. split; [exact E|]. split; [exact B|]. split; [exact Lv|]. split; [exact HU|].
    destruct (H [] (Forall2_nil _)) as (H1 & H2). split; [|exact H2]. etransitivity; [exact H1|]. simpl. lra.
Qed.
