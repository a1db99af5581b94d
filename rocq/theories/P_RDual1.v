(** Proofs: the rules for pairs. *)
From Coquelicot Require Import Coquelicot.
From Verif Require Import Base BaseFacts M_Quat M_RFun M_Solid M_RDual S_Solid S_SolidBC S_RDual.

Lemma d_ext f g p : (forall s, f s = g s) -> dual_of f p -> dual_of g p.
Proof. intros E [H D]. split; [rewrite <- E; exact H|]. apply (is_derive_ext f g); auto. Qed.
Lemma d_eq f p q : fst p = fst q -> snd p = snd q -> dual_of f p -> dual_of f q.
Proof. intros A B [H D]. split; [rewrite <- A; exact H|rewrite <- B; exact D]. Qed.
Lemma d_const c : dual_of (fun _ => c) (dconst c).
Proof. split; [reflexivity|]. exact (@is_derive_const R_AbsRing R_NormedModule c 0). Qed.
Lemma d_add fa fb a b : dual_of fa a -> dual_of fb b -> dual_of (fun s => fa s + fb s) (dadd a b).
Proof. intros [Ha Da] [Hb Db]. split; [cbn; now rewrite Ha, Hb|]. exact (is_derive_plus fa fb 0 _ _ Da Db). Qed.
Lemma d_sub fa fb a b : dual_of fa a -> dual_of fb b -> dual_of (fun s => fa s - fb s) (dsub a b).
Proof. intros [Ha Da] [Hb Db]. split; [cbn; now rewrite Ha, Hb|]. exact (is_derive_minus fa fb 0 _ _ Da Db). Qed.
Lemma d_neg fa a : dual_of fa a -> dual_of (fun s => - fa s) (dneg a).
Proof. intros [Ha Da]. split; [cbn; now rewrite Ha|]. exact (is_derive_opp fa 0 _ Da). Qed.
Lemma d_scal c fa a : dual_of fa a -> dual_of (fun s => c * fa s) (dscal c a).
Proof. intros [Ha Da]. split; [cbn; now rewrite Ha|]. exact (is_derive_scal fa 0 c _ Da). Qed.
Lemma d_mul fa fb a b : dual_of fa a -> dual_of fb b -> dual_of (fun s => fa s * fb s) (dmul a b).
Proof.
  intros [Ha Da] [Hb Db]. split; [cbn; now rewrite Ha, Hb|]. cbn. rewrite <- Ha, <- Hb.
  exact (is_derive_mult fa fb 0 _ _ Da Db Rmult_comm).
Qed.
Lemma d_sq fa a : dual_of fa a -> dual_of (fun s => fa s ^ 2) (dsq a).
Proof.
  intros H. apply (d_ext (fun s => fa s * fa s)); [intros; ring|].
  eapply d_eq; [| |apply d_mul; exact H]; cbn; ring.
Qed.
Lemma d_comp F F' fa a : dual_of fa a -> is_derive F (fst a) F' -> dual_of (fun s => F (fa s)) (F (fst a), snd a * F').
Proof.
  intros [Ha Da] HF. split; [cbn; now rewrite Ha|]. cbn.
  apply (is_derive_comp F fa 0 F' (snd a)); [rewrite Ha; exact HF|exact Da].
Qed.
Lemma d_cont fa a : dual_of fa a -> continuous fa 0.
Proof. intros [_ D]. apply (ex_derive_continuous (K := R_AbsRing) (V := R_NormedModule)). exists (snd a). exact D. Qed.
Lemma d_pos fa a : dual_of fa a -> 0 < fst a -> locally 0 (fun s => 0 < fa s).
Proof.
  intros H P. pose proof (d_cont _ _ H) as C. apply C. destruct H as [H _]. rewrite H.
  exists (mkposreal _ P). intros y Hy. change (Rabs (y - fst a) < fst a) in Hy. apply Rabs_def2 in Hy. lra.
Qed.
Lemma d_nz fa a : dual_of fa a -> fst a <> 0 -> locally 0 (fun s => fa s <> 0).
Proof.
  intros H P. destruct (Rlt_dec 0 (fst a)) as [Q|Q].
  - apply (filter_imp (fun s => 0 < fa s)); [intros; lra|apply (d_pos _ _ H Q)].
  - apply (filter_imp (fun s => 0 < - fa s)); [intros; lra|]. apply (d_pos _ _ (d_neg _ _ H)). cbn. lra.
Qed.
Lemma d_quot fa fb a b : dual_of fa a -> dual_of fb b -> fst b <> 0 ->
  dual_of (fun s => fa s / fb s) (fst a / fst b, snd a / fst b - snd b * fst a / (fst b * fst b)).
Proof.
  intros [Ha Da] [Hb Db] Z. split; [cbn; now rewrite Ha, Hb|]. cbn.
  replace (snd a / fst b - snd b * fst a / (fst b * fst b))
    with ((snd a * fb 0 - fa 0 * snd b) / (fb 0 ^ 2)) by (rewrite Ha, Hb; field; exact Z).
  apply is_derive_div; auto. rewrite Hb; exact Z.
Qed.
Lemma d_root fa a : dual_of fa a -> 0 < fst a -> dual_of (fun s => sqrt (fa s)) (sqrt (fst a), snd a * (1 / 2 / sqrt (fst a))).
Proof.
  intros [Ha Da] P. split; [cbn; now rewrite Ha|]. cbn.
  replace (snd a * (1 / 2 / sqrt (fst a))) with (snd a / (2 * sqrt (fa 0))).
  - apply is_derive_sqrt; auto. rewrite Ha; exact P.
  - rewrite Ha. field. apply Rgt_not_eq, sqrt_lt_R0, P.
Qed.

(** ** Computations *)
Lemma t_ok phi p : dual_of phi p -> dtrack (fun s => Ok (phi s)) p.
Proof. intros H. exists phi. split; [exact H|]. apply filter_forall. reflexivity. Qed.
Lemma t_loc F G p : locally 0 (fun s => F s = G s) -> dtrack F p -> dtrack G p.
Proof.
  intros E (phi & H & L). exists phi. split; [exact H|].
  generalize (filter_and _ _ E L). apply filter_imp. intros s [<- Q]. exact Q.
Qed.
Lemma t_ext F G p : (forall s, F s = G s) -> dtrack F p -> dtrack G p.
Proof. intros E. apply t_loc. apply filter_forall. exact E. Qed.
Lemma t_bind F p G q : dtrack F p -> (forall phi, dual_of phi p -> dtrack (fun s => G s (phi s)) q) ->
  dtrack (fun s => v <- F s ;; G s v) q.
Proof.
  intros (phi & H & L) K. apply (t_loc (fun s => G s (phi s))); [|apply K; exact H].
  revert L. apply filter_imp. intros s ->. reflexivity.
Qed.
Lemma ddivc_ok a c p : ddivc a c = Ok p -> c <> 0 /\ p = (fst a / c, snd a / c).
Proof.
  unfold ddivc, fdiv. destruct (Req_EM_T c 0) as [E|E]; cbn; [discriminate|]. intros H. injection H as <-. auto.
Qed.
Lemma t_divc fa a c p : dual_of fa a -> ddivc a c = Ok p -> dtrack (fun s => fdiv (fa s) c) p.
Proof.
  intros H E. apply ddivc_ok in E as [Z ->]. apply (t_ext (fun s => Ok (fa s / c))).
  - intros s. now rewrite fdiv_ok.
  - apply t_ok. apply (d_ext (fun s => / c * fa s)); [intros; unfold Rdiv; ring|].
    eapply d_eq; [| |apply d_scal; exact H]; cbn; unfold Rdiv; ring.
Qed.
Lemma t_div fa fb a b p : dual_of fa a -> dual_of fb b -> ddiv a b = Ok p -> dtrack (fun s => fdiv (fa s) (fb s)) p.
Proof.
  intros Ha Hb E. unfold ddiv, fdiv in E. destruct (Req_EM_T (fst b) 0) as [Z|Z]; cbn in E; [discriminate|]. injection E as <-.
  apply (t_loc (fun s => Ok (fa s / fb s))).
  - generalize (d_nz _ _ Hb Z). apply filter_imp. intros s Q. now rewrite fdiv_ok.
  - apply t_ok, d_quot; auto.
Qed.
Lemma dsqrt_ok a p : dsqrt a = Ok p -> 0 < fst a /\ p = (sqrt (fst a), snd a * (1 / 2 / sqrt (fst a))).
Proof.
  unfold dsqrt, fsqrt. destruct (Rlt_dec (fst a) 0); cbn; [discriminate|].
  destruct (Req_dec (fst a) 0) as [Z|Z].
  - rewrite Z, sqrt_0, fdiv_0 by reflexivity. discriminate.
  - assert (0 < fst a) by lra. rewrite fdiv_ok by (apply Rgt_not_eq, sqrt_lt_R0; auto). cbn. intros E. injection E as <-. auto.
Qed.
Lemma dsqrt_fin a : 0 < fst a -> dsqrt a = Ok (sqrt (fst a), snd a * (1 / 2 / sqrt (fst a))).
Proof.
  intros P. unfold dsqrt. rewrite fsqrt_ok by lra. cbn. rewrite fdiv_ok by (apply Rgt_not_eq, sqrt_lt_R0; auto). reflexivity.
Qed.
Lemma t_sqrt fa a p : dual_of fa a -> dsqrt a = Ok p -> dtrack (fun s => fsqrt (fa s)) p.
Proof.
  intros H E. apply dsqrt_ok in E as [P ->]. apply (t_loc (fun s => Ok (sqrt (fa s)))).
  - generalize (d_pos _ _ H P). apply filter_imp. intros s Q. rewrite fsqrt_ok by lra. reflexivity.
  - apply t_ok, d_root; auto.
Qed.

(** lists *)
Definition ltrack (F : R -> res (list R)) (ps : list du) : Prop :=
  exists phis, Forall2 dual_of phis ps /\ locally 0 (fun s => F s = Ok (map (fun g => g s) phis)).
Lemma l_ok phis ps : Forall2 dual_of phis ps -> ltrack (fun s => Ok (map (fun g => g s) phis)) ps.
Proof. intros H. exists phis. split; [exact H|]. apply filter_forall. reflexivity. Qed.
Lemma l_ext F G ps : (forall s, F s = G s) -> ltrack F ps -> ltrack G ps.
Proof.
  intros E (phi & H & L). exists phi. split; [exact H|]. revert L. apply filter_imp. intros s Q. rewrite <- E. exact Q.
Qed.
Lemma l_bind F ps G q : ltrack F ps -> (forall phis, Forall2 dual_of phis ps -> dtrack (fun s => G s (map (fun g => g s) phis)) q) ->
  dtrack (fun s => v <- F s ;; G s v) q.
Proof.
  intros (phi & H & L) K. apply (t_loc (fun s => G s (map (fun g => g s) phi))); [|apply K; exact H].
  revert L. apply filter_imp. intros s ->. reflexivity.
Qed.
Lemma l_seq {A B} (F : R -> A -> res R) (J : B -> res du) (l : list A) (m : list B) ps :
  Forall2 (fun a b => forall p, J b = Ok p -> dtrack (fun s => F s a) p) l m ->
  sequence (map J m) = Ok ps -> ltrack (fun s => sequence (map (F s) l)) ps.
Proof.
  intros H. revert ps. induction H as [|a b l m Hab _ IH]; intros ps E.
  - cbn in E. injection E as <-. exists []. split; [constructor|]. apply filter_forall. reflexivity.
  - cbn in E. apply bind_ok in E as (p & Ep & E). apply bind_ok in E as (q & Eq & E). injection E as <-.
    destruct (Hab p Ep) as (phi & D & L). destruct (IH q Eq) as (phis & D' & L').
    exists (phi :: phis). split; [constructor; auto|]. generalize (filter_and _ _ L L'). apply filter_imp.
    intros s [Q Q']. cbn. rewrite Q. cbn. rewrite Q'. reflexivity.
Qed.
Lemma l_map2 {B} (F : R -> R -> B -> R) (D : du -> B -> du) fs x (y : list B) :
  (forall f a b, dual_of f a -> dual_of (fun s => F s (f s) b) (D a b)) ->
  Forall2 dual_of fs x -> Forall2 dual_of (map2 (fun f b s => F s (f s) b) fs y) (map2 D x y).
Proof.
  intros K H. revert y. induction H as [|f a fs x Hf _ IH]; intros [|b y]; cbn; constructor; auto.
Qed.
Lemma at_map2 {B} (F : R -> R -> B -> R) fs (y : list B) s :
  map2 (F s) (map (fun g => g s) fs) y = map (fun g => g s) (map2 (fun (f : R -> R) b s => F s (f s) b) fs y).
Proof. revert y. induction fs as [|f fs IH]; intros [|b y]; cbn; f_equal; auto. Qed.
Lemma l_map (F : R -> R) (D : du -> du) fs x :
  (forall f a, dual_of f a -> dual_of (fun s => F (f s)) (D a)) ->
  Forall2 dual_of fs x -> Forall2 dual_of (map (fun f s => F (f s)) fs) (map D x).
Proof. intros K. induction 1; cbn; constructor; auto. Qed.
Lemma at_map (F : R -> R) fs s : map F (map (fun g => g s) fs) = map (fun g => g s) (map (fun (f : R -> R) s => F (f s)) fs).
Proof. rewrite !map_map. reflexivity. Qed.
Lemma d_sum fs x : Forall2 dual_of fs x -> dual_of (fun s => sumR (map (fun g => g s) fs)) (dsum x).
Proof.
  induction 1 as [|f a fs x H _ IH]; [apply d_const|]. exact (d_add f (fun s => sumR (map (fun g => g s) fs)) a (dsum x) H IH).
Qed.
Lemma f2_length {A B} (P : A -> B -> Prop) l m : Forall2 P l m -> length l = length m.
Proof. induction 1; cbn; auto. Qed.
Lemma d_sumsq fs x : Forall2 dual_of fs x -> dual_of (fun s => sumsq (map (fun g => g s) fs)) (dsum (map (fun a => dmul a a) x)).
Proof.
  intros H. apply (d_ext (fun s => sumR (map (fun g => g s) (map (fun (f : R -> R) s => f s * f s) fs)))).
  - intros s. unfold sumsq. now rewrite <- (at_map (fun u => u * u)).
  - apply d_sum. apply (l_map (fun u => u * u)); auto. intros. apply d_mul; auto.
Qed.
Lemma t_norm fs x p : Forall2 dual_of fs x -> dnorm x = Ok p ->
  dual_of (fun s => normR (map (fun g => g s) fs)) p /\ 0 < fst p.
Proof.
  intros H E. apply dsqrt_ok in E as [P ->]. split; [|cbn; apply sqrt_lt_R0, P].
  exact (d_root _ _ (d_sumsq _ _ H) P).
Qed.
Lemma dsum_fst x : fst (dsum (map (fun a => dmul a a) x)) = sumsq (map fst x).
Proof. 
  induction x as [|a x IH]; [reflexivity|]. cbn [map]. rewrite sumsq_cons, <- IH. reflexivity.
Qed.
