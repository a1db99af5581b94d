(** Proofs: derivatives of the ellipsoid and of whole programs. *)
From Coquelicot Require Import Coquelicot.
From Verif Require Import Base BaseFacts M_Quat S_Quat M_RFun S_RFun M_Solid M_RDual S_Solid S_SolidBC S_RDual P_RDual1 P_RDual2 P_Vec P_Solid1 P_Solid3.

Section Ell.
Variables (a : list R) (fs : list (R -> R)) (x u : list du) (n : du).
Hypothesis La : length x = length a.
Hypothesis Ha : Forall (fun e => 0 < e) a.
Hypothesis H : Forall2 dual_of fs x.
Let gs := map2 (fun (f : R -> R) b s => f s / b) fs a.
Hypothesis Hu : u = map2 (fun x k => (fst x / k, snd x / k)) x a.
Hypothesis Hn : dnorm u = Ok n.

Lemma ell_nz : Forall (fun e => e <> 0) a.
Proof. revert Ha. apply Forall_impl. intros; lra. Qed.
Lemma ell_len : length fs = length a.
Proof. rewrite (f2_length _ _ _ H). exact La. Qed.
Lemma ell_u : Forall2 dual_of gs u.
Proof. rewrite Hu. exact (l_map2 (fun _ => Rdiv) (fun x k => (fst x / k, snd x / k)) fs x a (fun f a b Hf => d_divc b f a Hf) H). Qed.
Lemma ell_point s : bopf fdiv (A1 (at_ s fs)) (A1 (ravel (A1 a))) = Ok (A1 (at_ s gs)).
Proof.
  cbn. rewrite bcast1_eq by (rewrite at_length; apply ell_len). cbn.
  rewrite seq_div1 by (exact ell_nz || (rewrite at_length; apply ell_len)). cbn. unfold gs. now rewrite (at_map2 (fun _ => Rdiv)).
Qed.
Lemma ell_jvp i p : jscaled_sphere_jvp (A1 a) u n i = Ok p ->
  dtrack (fun s => scaled_sphere_jvp (A1 a) (A1 (at_ s fs)) (A1 (basis (length (at_ s fs)) i))) p.
Proof.
  intros E. unfold jscaled_sphere_jvp in E. apply bind_ok in E as (w & Ew & E). apply bind_ok in E as (k & Ek & E).
  destruct (t_norm _ _ _ ell_u Hn) as [Dn Pn].
  assert (Lu : length u = length fs) by (rewrite (f2_length _ _ _ H), Hu; exact (map2_length_eq _ x a La)).
  rewrite Lu in Ew.
  apply (t_ext (fun s => k <- fdiv (1 / 2) (normR (at_ s gs)) ;;
     fdiv (- (2 * normR (at_ s gs) * (sumR (map2 (fun x dx => 2 * (x * dx)) (at_ s gs) (ravel w)) * k))) (2 * 1))).
  - intros s. unfold scaled_sphere_jvp. rewrite ell_point. cbn [bind]. rewrite at_length, Ew. cbn [bind]. unfold sphere_jvp, norm_jvp.
    cbn [ravel]. change (sqrt (sumR (map (fun x => x * x) (at_ s gs)))) with (normR (at_ s gs)).
    destruct (fdiv (1 / 2) (normR (at_ s gs))); reflexivity.
  - apply (t_bind _ k); [exact (t_div _ _ _ _ _ (d_const (1 / 2)) Dn Ek)|]. intros phi Dk.
    refine (t_divc (fun s => - (2 * normR (at_ s gs) * (sumR (map2 (fun x dx => 2 * (x * dx)) (at_ s gs) (ravel w)) * phi s))) _ _ _ _ E).
    apply d_neg, d_mul; [apply d_scal, Dn|]. apply d_mul; [|exact Dk].
    apply (d_ext (fun s => sumR (at_ s (map2 (fun (f : R -> R) e s => 2 * (e * f s)) gs (ravel w))))).
    + intros s. rewrite <- (at_map2 (fun _ u e => 2 * (e * u))). f_equal. apply map2_ext. intros; ring.
    + apply d_sum, (l_map2 (fun _ u e => 2 * (e * u))); [|exact ell_u]. intros. apply d_scal, d_scal; auto.
Qed.
End Ell.

Lemma tracks_ellipsoid n a : length a = n -> Forall (fun e => 0 < e) a -> tracks n (jellipsoid (A1 a)) (ellipsoid (A1 a)).
Proof.
  intros La Ha fs x p Hn H E. assert (Lx : length x = length a) by congruence. unfold jellipsoid in E. cbn [ravel] in E.
  rewrite jbop_eq in E by congruence. cbn [bind] in E. rewrite seq_div2 in E by (exact (ell_nz a Ha) || congruence). cbn [bind] in E.
  set (u := map2 (fun x k => (fst x / k, snd x / k)) x a) in *.
  apply bind_ok in E as (m & Em & E). apply bind_ok in E as (y & Ey & E). apply bind_ok in E as (dy & Edy & E).
  apply bind_ok in E as (nd & End & E). apply bind_ok in E as (q & Eq & E).
  pose proof (ell_u a fs x u H eq_refl) as Du. destruct (t_norm _ _ _ Du Em) as [Dm Pm].
  unfold ellipsoid, normalize_1st_order.
  apply (t_bind _ y).
  { apply (t_ext (fun s => fdiv (1 ^ 2 - normR (at_ s (map2 (fun (f : R -> R) b s => f s / b) fs a)) ^ 2) (2 * 1))).
    - intros s. unfold scale_without_normalization. now rewrite (ell_point a fs x Lx Ha H).
    - exact (t_divc _ _ _ _ (d_sub _ _ _ _ (d_const (1 ^ 2)) (d_sq _ _ Dm)) Ey). }
  intros fy Dy. unfold jacfwd.
  apply (t_ext (fun s => ds <- sequence (map (fun i => scaled_sphere_jvp (A1 a) (A1 (at_ s fs)) (A1 (basis (length (at_ s fs)) i))) (seq 0 (length fs))) ;;
     q <- fsqrt (fy s ^ 2 + normR ds ^ 2) ;; fdiv (fy s) q)).
  { intros s. rewrite at_length.
    generalize (sequence (map (fun i => scaled_sphere_jvp (A1 a) (A1 (at_ s fs)) (A1 (basis (length fs) i))) (seq 0 (length fs)))).
    intros [ds|]; reflexivity. }
  apply (l_bind _ dy).
  { apply (l_seq (fun s i => scaled_sphere_jvp (A1 a) (A1 (at_ s fs)) (A1 (basis (length (at_ s fs)) i))) (jscaled_sphere_jvp (A1 a) u m) (seq 0 (length fs)) (seq 0 (length x)));
      [|exact Edy]. rewrite (f2_length _ _ _ H). generalize (seq 0 (length x)) as l. induction l as [|i l IH]; constructor; auto.
    intros r Er. exact (ell_jvp a fs x u m Lx Ha H eq_refl Em i r Er). }
  intros fd Dd. destruct (t_norm _ _ _ Dd End) as [Dnd _].
  apply (t_bind _ q); [exact (t_sqrt _ _ _ (d_add _ _ _ _ (d_sq _ _ Dy) (d_sq _ _ Dnd)) Eq)|].
  intros fq Dq. exact (t_div _ _ _ _ _ Dy Dq E).
Qed.

(** ** Programs *)
Definition tracked dsys user (t : solid) : Prop := forall n, good (fun s => sys_tracks (dsys s) s) n t ->
  (forall f, In f (user_parts t) -> forall n, tracks n (user f) f) ->
  exists J f, jbuild dsys user t = Ok J /\ build t = Ok f /\ tracks n J f.

Lemma tracks_prim dsys user n p : good_prim (fun s => sys_tracks (dsys s) s) n p ->
  (forall f, In f (user_parts (Prim p)) -> forall n, tracks n (user f) f) -> tracks n (jbuild_prim dsys user p) (build_prim p).
Proof.
  intros G U. destruct p as [e c s|e c s|r|r|a|f]; cbn in G |- *.
  - apply tracks_cuboid; tauto.
  - apply tracks_cuboid; tauto.
  - apply tracks_sphere; auto.
  - apply tracks_cylinder; tauto.
  - apply tracks_ellipsoid; tauto.
  - apply U. left; reflexivity.
Qed.
Lemma tracks_move n m J f : good_move n m -> tracks (source m n) J f ->
  exists J' f', jbuild_move m J = Ok J' /\ build_move m f = Ok f' /\ tracks n J' f'.
Proof.
  intros G T. destruct m as [y|k|a|t o1 o2|t ax o|t1 t2 t3 o|v o|v o|b]; cbn [good_move source] in G, T.
  - eexists _, _; split; [reflexivity|split; [reflexivity|]]. apply tracks_translate; auto.
  - exact (tracks_scale n J f k G T).
  - eexists _, _; split; [reflexivity|split; [reflexivity|]]. apply tracks_stretch; tauto.
  - subst n. eexists _, _; split; [reflexivity|split; [reflexivity|]]. apply tracks_rotate2; auto.
  - destruct G as [-> _]. eexists _, _; split; [reflexivity|split; [reflexivity|]]. apply tracks_spin; auto.
  - subst n. eexists _, _; split; [reflexivity|split; [reflexivity|]]. apply tracks_spin; auto.
  - eexists _, _; split; [reflexivity|split; [reflexivity|]]. apply tracks_along; tauto.
  - eexists _, _; split; [reflexivity|split; [reflexivity|]]. apply tracks_along; tauto.
  - subst n. eexists _, _; split; [reflexivity|split; [reflexivity|]]. apply tracks_revolve; auto.
Qed.
Lemma tracked_list dsys user l n : Forall (tracked dsys user) l -> Forall (good (fun s => sys_tracks (dsys s) s) n) l ->
  (forall f, In f (flat_map user_parts l) -> forall n, tracks n (user f) f) ->
  exists Js fs, sequence (map (jbuild dsys user) l) = Ok Js /\ sequence (map build l) = Ok fs /\ Forall2 (tracks n) Js fs.
Proof.
  intros T. induction T as [|t l Ht _ IH]; intros G U.
  - exists [], []. repeat split; constructor.
  - inversion G as [|? ? Gt Gl]; subst.
    destruct (Ht n Gt) as (J & f & EJ & Ef & Tf); [intros f Hf; apply U; cbn; apply in_or_app; auto|].
    destruct IH as (Js & fs & EJs & Efs & Tfs); [auto|intros f' Hf; apply U; cbn; apply in_or_app; auto|].
    exists (J :: Js), (f :: fs). cbn. rewrite EJ, Ef. cbn. rewrite EJs, Efs. split; [reflexivity|split; [reflexivity|constructor; auto]].
Qed.
Lemma solid_tracked dsys user t : tracked dsys user t.
Proof.
  induction t as [p|m t IH|t IH|o s t1 t2 IH1 IH2|s l IH|s l IH] using solid_rect'; intros n G U.
  - eexists _, _; split; [reflexivity|split; [reflexivity|]]. apply tracks_prim; auto.
  - destruct G as [Gm G]. destruct (IH _ G U) as (J & f & EJ & Ef & T). cbn. rewrite EJ, Ef. cbn. exact (tracks_move n m J f Gm T).
  - destruct (IH _ G U) as (J & f & EJ & Ef & T). cbn. rewrite EJ, Ef. eexists _, _; split; [reflexivity|split; [reflexivity|]]. apply tracks_negate, T.
  - destruct G as (Gs & G1 & G2). destruct (IH1 _ G1) as (J1 & f1 & EJ1 & Ef1 & T1); [intros f Hf; apply U; cbn; apply in_or_app; auto|].
    destruct (IH2 _ G2) as (J2 & f2 & EJ2 & Ef2 & T2); [intros f Hf; apply U; cbn; apply in_or_app; auto|].
    cbn. rewrite EJ1, Ef1. cbn. rewrite EJ2, Ef2. eexists _, _; split; [reflexivity|split; [reflexivity|]]. apply tracks_op2; auto.
  - destruct G as (Gs & NE & G). apply fold_and in G. destruct (tracked_list dsys user l n IH G U) as (Js & fs & EJ & Ef & T).
    cbn. rewrite EJ, Ef. eexists _, _; split; [reflexivity|split; [reflexivity|]]. apply tracks_compose; [apply Gs|exact T|].
    intros ->. inversion T; subst. destruct l; [auto|]. apply sequence_length in EJ. discriminate.
  - destruct G as (Gs & NE & G). apply fold_and in G. destruct (tracked_list dsys user l n IH G U) as (Js & fs & EJ & Ef & T).
    cbn. rewrite EJ, Ef. eexists _, _; split; [reflexivity|split; [reflexivity|]]. apply tracks_compose; [apply Gs|exact T|].
    intros ->. inversion T; subst. destruct l; [auto|]. apply sequence_length in EJ. discriminate.
Qed.
