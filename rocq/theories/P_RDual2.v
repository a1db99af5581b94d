(** Proofs: the derivatives of the primitives and transformations. *)
From Coquelicot Require Import Coquelicot.
From Verif Require Import Base BaseFacts M_Quat S_Quat M_RFun S_RFun M_Solid M_RDual S_Solid S_SolidBC S_RDual P_RDual1 P_Vec P_Solid1 P_Solid3.

Notation at_ s fs := (map (fun g : R -> R => g s) fs).

Lemma jbop_eq {C} (f : du -> R -> C) x m : length x = length m -> jbop f x (A1 m) = Ok (map2 f x m).
Proof. intros H. cbn. rewrite H, Nat.eqb_refl. reflexivity. Qed.
Lemma bop_eq f l m : length l = length m -> bop f (A1 l) (A1 m) = Ok (A1 (map2 f l m)).
Proof. intros H. cbn. now rewrite bcast1_eq. Qed.
Lemma at_length s (fs : list (R -> R)) : length (at_ s fs) = length fs.
Proof. apply map_length. Qed.

(** a step before the function: the point is mapped first *)
Lemma tracks_pre n m (J : jadf) (f : adf) (P : list du -> res (list du)) (Q : arr -> res arr) :
  tracks m J f ->
  (forall fs x y, length x = n -> Forall2 dual_of fs x -> P x = Ok y -> length y = m /\
    ltrack (fun s => r <- Q (A1 (at_ s fs)) ;; match r with A1 l => Ok l | A0 _ => Err TypeError end) y) ->
  tracks n (fun x => y <- P x ;; J y) (fun x => y <- Q x ;; f y).
Proof.
  intros T K fs x p Hn H E. apply bind_ok in E as (y & Ey & E). destruct (K fs x y Hn H Ey) as (L & phis & D & N).
  apply (t_loc (fun s => f (A1 (at_ s phis)))); [|exact (T phis y p L D E)].
  revert N. apply filter_imp. intros s. destruct (Q (A1 (at_ s fs))) as [[r|l]|e]; cbn; try discriminate. intros W. injection W as ->. reflexivity.
Qed.

Lemma tracks_translate n J f y : length y = n -> tracks n J f -> tracks n (jtranslate J (A1 y)) (translate f (A1 y)).
Proof.
  intros Ly T. apply (tracks_pre n n J f (fun x => jbop (fun a y => dsub a (dconst y)) x (A1 y)) (fun x => bop Rminus x (A1 y))); [exact T|].
  intros fs x z Hn H E. rewrite jbop_eq in E by congruence. injection E as <-. split; [rewrite map2_length_eq; congruence|].
  pose proof (f2_length _ _ _ H) as Lf.
  eapply l_ext; [|apply l_ok, (l_map2 (fun _ => Rminus) _ _ _ y (fun f a b Hf => d_sub _ _ _ _ Hf (d_const b)) H)].
  intros s. rewrite bop_eq by (rewrite at_length; congruence). cbn. now rewrite (at_map2 (fun _ => Rminus)).
Qed.

Lemma seq_divc x k y : sequence (map (fun a => ddivc a k) x) = Ok y -> length y = length x /\ (x <> [] -> k <> 0) /\ y = map (fun a => (fst a / k, snd a / k)) x.
Proof.
  revert y. induction x as [|a x IH]; cbn; intros y E; [injection E as <-; split; [reflexivity|split; [congruence|reflexivity]]|].
  apply bind_ok in E as (p & Ep & E). apply bind_ok in E as (q & Eq & E). injection E as <-. apply ddivc_ok in Ep as [Z ->].
  destruct (IH q Eq) as (L & _ & ->). cbn. split; [congruence|split; [auto|reflexivity]].
Qed.
Lemma d_divc k f a : dual_of f a -> dual_of (fun s => f s / k) (fst a / k, snd a / k).
Proof.
  intros H. apply (d_ext (fun s => / k * f s)); [intros; unfold Rdiv; ring|].
  eapply d_eq; [| |apply d_scal; exact H]; cbn; unfold Rdiv; ring.
Qed.
Lemma tracks_post n J f (c : R) : tracks n J f -> tracks n (fun x => v <- J x ;; Ok (dscal c v)) (fun x => v <- f x ;; Ok (v * c)).
Proof.
  intros T fs x p Hn H E. apply bind_ok in E as (v & Ev & E). injection E as <-.
  apply (t_bind _ v); [apply (T fs x v Hn H Ev)|]. intros phi D. apply t_ok.
  apply (d_ext (fun s => c * phi s)); [intros; ring|]. apply d_scal, D.
Qed.
Lemma tracks_scale n J f k : 0 < k -> tracks n J f ->
  exists J' f', jscale J (A0 k) = Ok J' /\ scale f (A0 k) = Ok f' /\ tracks n J' f'.
Proof.
  intros Hk T. eexists. eexists. split; [reflexivity|]. split; [reflexivity|].
  apply (tracks_pre n n (fun u => v <- J u ;; Ok (dscal k v)) (fun u => v <- f u ;; Ok (v * k))
          (fun x => sequence (map (fun a => ddivc a k) x)) (fun x => bopf fdiv x (A0 k))); [apply tracks_post, T|].
  intros fs x y Hn H E. apply seq_divc in E as (L & _ & ->). split; [congruence|].
  eapply l_ext; [|apply l_ok, (l_map (fun u => u / k) _ _ _ (d_divc k) H)].
  intros s. cbn. rewrite (sequence_map_ext _ (fun u => u / k)) by (intros; rewrite fdiv_ok by lra; reflexivity).
  cbn. now rewrite (at_map (fun u => u / k)).
Qed.
Lemma seq_div2 x a : length x = length a -> Forall (fun e => e <> 0) a ->
  sequence (map2 ddivc x a) = Ok (map2 (fun x k => (fst x / k, snd x / k)) x a).
Proof.
  intros L H. revert x L. induction H as [|k a Hk _ IH]; intros [|v x] L; try discriminate; [reflexivity|].
  cbn. unfold ddivc at 1. rewrite !fdiv_ok by auto. cbn. rewrite IH by (cbn in L; congruence). reflexivity.
Qed.
Lemma seq_div1 x a : length x = length a -> Forall (fun e => e <> 0) a -> sequence (map2 fdiv x a) = Ok (map2 Rdiv x a).
Proof.
  intros L H. revert x L. induction H as [|k a Hk _ IH]; intros [|v x] L; try discriminate; [reflexivity|].
  cbn. rewrite !fdiv_ok by auto. cbn. rewrite IH by (cbn in L; congruence). reflexivity.
Qed.
Lemma tracks_stretch n J f a : length a = n -> Forall (fun e => e <> 0) a -> tracks n J f ->
  tracks n (jstretch J (A1 a)) (scale_without_normalization f (A1 a)).
Proof.
  intros La Ha T. intros fs x p Hn H E. unfold jstretch in E. cbn [ravel] in E. rewrite jbop_eq in E by congruence. cbn [bind] in E.
  rewrite seq_div2 in E by (auto; congruence). cbn [bind] in E.
  pose proof (f2_length _ _ _ H) as Lf.
  apply (t_ext (fun s => f (A1 (at_ s (map2 (fun (g : R -> R) b s => g s / b) fs a))))).
  - intros s. unfold scale_without_normalization. cbn. rewrite bcast1_eq by (rewrite at_length; congruence). cbn.
    rewrite seq_div1 by (auto; rewrite at_length; congruence). cbn. now rewrite (at_map2 (fun _ => Rdiv)).
  - refine (T _ _ _ _ (l_map2 (fun _ => Rdiv) (fun x k => (fst x / k, snd x / k)) fs x a (fun f a b Hf => d_divc b f a Hf) H) E).
    rewrite map2_length_eq; congruence.
Qed.

Lemma tracks_rotate2 J f t o1 o2 : tracks 2 J f -> tracks 2 (jrotate2d J t (A1 [o1; o2])) (rotate2d f t (A1 [o1; o2])).
Proof.
  intros T. apply tracks_translate; [reflexivity|].
  pose proof (tracks_translate 2 J f [- o1; - o2] eq_refl T) as T'.
  intros fs x p Hn H E. inversion H as [|f1 x1 fs1 xs1 H1 Hr1]; subst; [discriminate|].
  inversion Hr1 as [|f2 x2 fs2 xs2 H2 Hr2]; subst; [discriminate|]. inversion Hr2; subst; [|discriminate].
  refine (T' [fun s => cos t * f1 s + sin t * f2 s; fun s => - sin t * f1 s + cos t * f2 s] _ p _ _ E); [reflexivity|].
  constructor; [apply d_add; apply d_scal; auto|constructor; [apply d_add; apply d_scal; auto|constructor]].
Qed.

Lemma tracks_negate n J f : tracks n J f -> tracks n (jnegate J) (negate f).
Proof.
  intros T fs x p Hn H E. apply bind_ok in E as (v & Ev & E). injection E as <-.
  apply (t_bind _ v); [apply (T fs x v Hn H Ev)|]. intros phi D. apply t_ok, d_neg, D.
Qed.
Lemma tracks_pointwise n D op J K f g : op_tracks D op -> tracks n J f -> tracks n K g -> tracks n (jpointwise D J K) (pointwise op f g).
Proof.
  intros O T U fs x p Hn H E. apply bind_ok in E as (a & Ea & E). apply bind_ok in E as (b & Eb & E).
  apply (t_bind _ a); [apply (T fs x a Hn H Ea)|]. intros fa Da.
  apply (t_bind _ b); [apply (U fs x b Hn H Eb)|]. intros fb Db. exact (O fa fb a b p Da Db E).
Qed.
Lemma tracks_op2 n o d s J K f g : sys_tracks d s -> tracks n J f -> tracks n K g -> tracks n (jbuild_op2 o d J K) (build_op2 o s f g).
Proof.
  intros [Oc Od] T U. destruct o; apply tracks_pointwise; auto; intros fa fb a b p Da Db E.
  - apply bind_ok in E as (c1 & E1 & E). apply bind_ok in E as (c2 & E2 & E).
    apply (t_bind _ c1); [exact (Od _ _ _ _ _ Da (d_neg _ _ Db) E1)|]. intros f1 D1.
    apply (t_bind _ c2); [exact (Od _ _ _ _ _ (d_neg _ _ Da) Db E2)|]. intros f2 D2. exact (Oc _ _ _ _ _ D1 D2 E).
  - exact (Od _ _ _ _ _ (d_neg _ _ Da) Db E).
  - exact (Oc _ _ _ _ _ Da (d_neg _ _ Db) E).
  - apply bind_ok in E as (c1 & E1 & E). apply bind_ok in E as (c2 & E2 & E).
    apply (t_bind _ c1); [exact (Oc _ _ _ _ _ Da (d_neg _ _ Db) E1)|]. intros f1 D1.
    apply (t_bind _ c2); [exact (Oc _ _ _ _ _ (d_neg _ _ Da) Db E2)|]. intros f2 D2. exact (Od _ _ _ _ _ D1 D2 E).
Qed.
Lemma reduce_from_track D op fs x fa a p : op_tracks D op -> dual_of fa a -> Forall2 dual_of fs x ->
  reduce_from D a x = Ok p -> dtrack (fun s => reduce_from op (fa s) (at_ s fs)) p.
Proof.
  intros O Ha H. revert fa a Ha. induction H as [|f b fs x Hf _ IH]; intros fa a Ha E.
  - cbn in *. injection E as <-. apply t_ok, Ha.
  - cbn in E. apply bind_ok in E as (c & Ec & E). cbn.
    apply (t_bind _ c); [exact (O _ _ _ _ _ Ha Hf Ec)|]. intros phi D'. exact (IH phi c D' E).
Qed.
Lemma reduce_track D op fs x p : op_tracks D op -> Forall2 dual_of fs x -> reduce D x = Ok p -> dtrack (fun s => reduce op (at_ s fs)) p.
Proof.
  intros O [|f b fs' x' Hf H] E; [discriminate|]. cbn in *. exact (reduce_from_track D op fs' x' f b p O Hf H E).
Qed.

(** compose of scalar functions *)
Lemma compose_scalars op (fs : list adf) x : compose op (map scalar_adf fs) x =
  (vs <- sequence (map (fun f : adf => f x) fs) ;; match vs with [] => Err ValueError | _ => reduce op vs end).
Proof.
  unfold compose. rewrite map_map.
  assert (E : sequence (map (fun f => d <- scalar_adf f x ;; Ok (ravel d)) fs) =
              (vs <- sequence (map (fun f : adf => f x) fs) ;; Ok (map (fun v => [v]) vs))).
  { induction fs as [|f fs IH]; [reflexivity|]. cbn [map sequence]. unfold scalar_adf at 1. destruct (f x) as [v|e]; [|reflexivity].
    cbn [bind ravel]. rewrite IH. generalize (sequence (map (fun f : adf => f x) fs)) as r. intros [vs|e]; reflexivity. }
  rewrite E. generalize (sequence (map (fun f : adf => f x) fs)) as r. intros [vs|e]; [|reflexivity]. cbn [bind].
  assert (C : concat (map (fun v : R => [v]) vs) = vs) by (induction vs; cbn; congruence).
  rewrite C. destruct vs; reflexivity.
Qed.
Lemma tracks_compose n D op Js gs : op_tracks D op -> Forall2 (tracks n) Js gs -> Js <> [] ->
  tracks n (jcompose D Js) (compose op (map scalar_adf gs)).
Proof.
  intros O T NE fs x p Hn H E. unfold jcompose in E. apply bind_ok in E as (vs & Ev & E).
  apply (t_ext (fun s => vs <- sequence (map (fun f : adf => f (A1 (at_ s fs))) gs) ;; match vs with [] => Err ValueError | _ => reduce op vs end));
    [intros s; symmetry; apply compose_scalars|].
  apply (l_bind _ vs).
  - apply (l_seq (fun s (f : adf) => f (A1 (at_ s fs))) (fun J : jadf => J x) gs Js); [|exact Ev].
    clear -T Hn H. induction T as [|J g Js gs T0 _ IH]; constructor; auto. intros p Ep. exact (T0 fs x p Hn H Ep).
  - intros phis Dp. destruct Dp as [|phi v phis' vs' Hd Hr]; [discriminate|].
    exact (reduce_track D op _ _ p O (Forall2_cons _ _ Hd Hr) E).
Qed.

(** ** Primitives *)
Lemma tracks_sphere n r : 0 < r -> tracks n (jsphere r) (sphere r).
Proof.
  intros Hr fs x p Hn H E. apply bind_ok in E as (q & Eq & E). destruct (t_norm _ _ _ H Eq) as [D _].
  exact (t_divc _ _ _ _ (d_sub _ _ _ _ (d_const (r ^ 2)) (d_sq _ _ D)) E).
Qed.
Lemma f2_firstn {A B} (P : A -> B -> Prop) k l m : Forall2 P l m -> Forall2 P (firstn k l) (firstn k m).
Proof. intros H. revert k. induction H; intros [|k]; cbn; constructor; auto. Qed.
Lemma tracks_cylinder n r : 0 < r -> tracks n (jcylinder r) (cylinder r).
Proof.
  intros Hr fs x p Hn H E. apply (t_ext (fun s => sphere r (A1 (at_ s (firstn 2 fs))))).
  - intros s. cbn [cylinder]. now rewrite firstn_map.
  - exact (tracks_sphere _ r Hr _ _ p eq_refl (f2_firstn _ 2 _ _ H) E).
Qed.
Lemma interleave_track fs gs x y z : Forall2 dual_of fs x -> Forall2 dual_of gs y -> dinterleave x y = Ok z ->
  exists hs, Forall2 dual_of hs z /\ forall s, interleave (at_ s fs) (at_ s gs) = Ok (at_ s hs).
Proof.
  intros H. revert gs y z. induction H as [|f a fs x Hf _ IH]; intros gs y z [|g b gs' y' Hg Hr] E; cbn in E; try discriminate.
  - injection E as <-. exists []. split; [constructor|reflexivity].
  - apply bind_ok in E as (t & Et & E). injection E as <-. destruct (IH gs' y' t Hr Et) as (hs & D & Q).
    exists (f :: g :: hs). split; [constructor; [auto|constructor; auto]|]. intros s. cbn. rewrite Q. reflexivity.
Qed.
Lemma jbop_track fs x (F : R -> R -> R) (D : du -> R -> du) b z : (forall f a c, dual_of f a -> dual_of (fun s => F (f s) c) (D a c)) ->
  Forall2 dual_of fs x -> (match b with A0 _ => True | A1 m => length m = length x end) -> jbop D x b = Ok z ->
  exists hs, Forall2 dual_of hs z /\ (forall s, bop F (A1 (at_ s fs)) b = Ok (A1 (at_ s hs))) /\
             (forall s, bop (fun u v => F v u) b (A1 (at_ s fs)) = Ok (A1 (at_ s hs))).
Proof.
  intros K H Lb E. pose proof (f2_length _ _ _ H) as Lf. destruct b as [c|m].
  - cbn in E. injection E as <-. exists (map (fun (f : R -> R) s => F (f s) c) fs). split.
    + apply (l_map (fun u => F u c)); auto.
    + split; intros s; cbn; now rewrite (at_map (fun u => F u c)).
  - rewrite jbop_eq in E by congruence. injection E as <-. exists (map2 (fun (f : R -> R) c s => F (f s) c) fs m). split.
    + apply (l_map2 (fun _ => F)); auto.
    + split; intros s; rewrite bop_eq by (rewrite at_length; congruence); do 2 f_equal.
      * apply (at_map2 (fun _ => F)).
      * rewrite <- (at_map2 (fun _ => F)). generalize (at_ s fs) as l. clear. revert m.
        induction m as [|c m IH]; intros [|u l]; cbn; f_equal; auto.
Qed.
Lemma tracks_cuboid n e c d s : sys_tracks d s -> (match e with A0 _ => True | A1 m => length m = n end) ->
  tracks n (jcuboid e c d) (cuboid e c s).
Proof.
  intros [Oc _] Le fs x p Hn H E. unfold jcuboid in E. apply bind_ok in E as (a & Ea & E). apply bind_ok in E as (b & Eb & E).
  apply bind_ok in E as (z & Ez & E).
  assert (Lm : forall f : R -> R, match amap f e with A0 _ => True | A1 m => length m = length x end)
    by (intros f; destruct e; cbn; auto; rewrite map_length; congruence).
  assert (Le' : match e with A0 _ => True | A1 m => length m = length x end) by (destruct e; auto; congruence).
  set (ub := if c then amap (fun e => e / 2) e else e) in *. set (lb := if c then amap (fun e => - e / 2) e else amap (fun _ => 0) e) in *.
  assert (Lub : match ub with A0 _ => True | A1 m => length m = length x end) by (unfold ub; destruct c; [exact (Lm _)|exact Le']).
  assert (Llb : match lb with A0 _ => True | A1 m => length m = length x end) by (unfold lb; destruct c; exact (Lm _)).
  destruct (jbop_track fs x (fun u v => v - u) _ ub a (fun f a c H => d_sub _ _ _ _ (d_const c) H) H Lub Ea) as (ha & Da & _ & Qa).
  destruct (jbop_track fs x Rminus _ lb b (fun f a c H => d_sub _ _ _ _ H (d_const c)) H Llb Eb) as (hb & Db & Qb & _).
  destruct (interleave_track ha hb a b z Da Db Ez) as (hs & Dz & Qz).
  apply (t_ext (fun s0 => reduce (conj_ s) (at_ s0 hs))); [|exact (reduce_track _ _ _ _ p Oc Dz E)].
  intros s0. unfold cuboid, compose. cbn [map]. fold ub lb.
  change (bop Rminus ub (A1 (at_ s0 fs))) with (bop (fun u v => (fun u v => v - u) v u) ub (A1 (at_ s0 fs))). rewrite Qa. cbn [bind].
  rewrite Qb. cbn [bind ravel]. rewrite Qz. cbn. now rewrite app_nil_r.
Qed.

(** ** Mirrors *)
Lemma d_dot fs x m : Forall2 dual_of fs x -> length m = length x ->
  dual_of (fun s => dotR (at_ s fs) m) (dsum (map2 (fun a e => dscal e a) x m)).
Proof.
  intros H _. apply (d_ext (fun s => sumR (at_ s (map2 (fun (f : R -> R) e s => e * f s) fs m)))).
  - intros s. unfold dotR. rewrite <- (at_map2 (fun _ u e => e * u)). f_equal. apply map2_ext. intros; ring.
  - apply d_sum. apply (l_map2 (fun _ u e => e * u)); auto. intros. apply d_scal; auto.
Qed.
Lemma tracks_along n J f c v o : length v = n -> length o = n -> dotR v v <> 0 -> tracks n J f ->
  tracks n (jtranslate (fun x => y <- jalong c x (A1 v) ;; jtranslate J (amap Ropp (A1 o)) y) (A1 o))
           (translate (fun x => y <- along_normal c x (A1 v) ;; translate f (amap Ropp (A1 o)) y) (A1 o)).
Proof.
  intros Lv Lo NZ T. apply tracks_translate; [auto|].
  apply (tracks_pre n n (jtranslate J (amap Ropp (A1 o))) (translate f (amap Ropp (A1 o))) (fun x => jalong c x (A1 v)) (fun x => along_normal c x (A1 v))).
  { apply tracks_translate; [rewrite map_length; auto|exact T]. }
  intros fs x y Hn H E. pose proof (f2_length _ _ _ H) as Lf. unfold jalong in E. rewrite Hn, Lv, Nat.eqb_refl in E. cbn [bind] in E.
  apply bind_ok in E as (k & Ek & E). apply ddivc_ok in Ek as [Z ->].
  rewrite jbop_eq in E by congruence. injection E as <-. split; [rewrite map2_length_eq; congruence|].
  set (w := dsum (map2 (fun a e => dscal e a) x v)) in *.
  pose proof (d_dot fs x v H ltac:(congruence)) as Dw. fold w in Dw.
  pose proof (d_divc (anorm (A1 v) ^ 2) _ _ (d_scal c _ _ Dw)) as Dk.
  eapply l_ext; [|apply l_ok, (l_map2 (fun s u e => u - e * (c * dotR (at_ s fs) v / anorm (A1 v) ^ 2)) _ _ _ v
      (fun f a b Hf => d_sub _ _ _ _ Hf (d_scal b _ _ Dk)) H)].
  intros s. unfold along_normal. cbn [amatmul]. rewrite at_length, Lf, Hn, Lv, Nat.eqb_refl. cbn [bind]. rewrite fdiv_ok by exact Z. cbn [bind amap].
  rewrite bop_eq by (rewrite at_length, map_length; congruence). cbn [bind].
  rewrite <- (at_map2 (fun s u e => u - e * (c * dotR (at_ s fs) v / anorm (A1 v) ^ 2))).
  rewrite map2_map_r. f_equal. apply map2_ext. intros; ring.
Qed.

(** ** Revolutions *)
Lemma tracks_revolve (y : bool) J f : tracks 2 J f -> tracks 3 (jrevolution J (if y then 1%Z else 0%Z)) (revolution f (if y then 1%Z else 0%Z)).
Proof.
  intros T fs x p Hn H E. inversion H as [|f1 x1 fs1 xs1 H1 Hr1]; subst; [discriminate|].
  inversion Hr1 as [|f2 x2 fs2 xs2 H2 Hr2]; subst; [discriminate|]. inversion Hr2 as [|f3 x3 fs3 xs3 H3 Hr3]; subst; [discriminate|].
  inversion Hr3; subst; [|discriminate]. destruct y; cbn in E |- *; apply bind_ok in E as (r & Er & E).
  - apply (t_bind _ r); [exact (t_sqrt _ _ _ (d_add _ _ _ _ (d_sq _ _ H1) (d_sq _ _ H3)) Er)|]. intros phi D.
    exact (T [phi; f2] [r; x2] p eq_refl (Forall2_cons _ _ D (Forall2_cons _ _ H2 (Forall2_nil _))) E).
  - apply (t_bind _ r); [exact (t_sqrt _ _ _ (d_add _ _ _ _ (d_sq _ _ H2) (d_sq _ _ H3)) Er)|]. intros phi D.
    exact (T [f1; phi] [x1; r] p eq_refl (Forall2_cons _ _ H1 (Forall2_cons _ _ D (Forall2_nil _))) E).
Qed.

(** ** Rotations in space *)
Lemma d_lin (G : R -> R -> R -> R) f1 f2 f3 x1 x2 x3 : (forall a b c, G a b c = G 1 0 0 * a + G 0 1 0 * b + G 0 0 1 * c) ->
  dual_of f1 x1 -> dual_of f2 x2 -> dual_of f3 x3 ->
  dual_of (fun s => G (f1 s) (f2 s) (f3 s)) (G (fst x1) (fst x2) (fst x3), G (snd x1) (snd x2) (snd x3)).
Proof.
  intros K H1 H2 H3. apply (d_ext (fun s => G 1 0 0 * f1 s + G 0 1 0 * f2 s + G 0 0 1 * f3 s)); [intros s; symmetry; apply K|].
  eapply d_eq; [| |apply d_add; [apply d_add|]; apply d_scal; eassumption]; cbn [fst snd dadd dscal]; symmetry; apply K.
Qed.
Lemma tracks_spin q J f o : tracks 3 J f ->
  tracks 3 (jtranslate (fun x => match x with
              | [x1; x2; x3] => y <- quaternion_rotation (mk3 (fst x1) (fst x2) (fst x3)) q ;;
                  dy <- quaternion_rotation (mk3 (snd x1) (snd x2) (snd x3)) q ;;
                  jtranslate J (amap Ropp (A1 (list3 o))) (combine (list3 y) (list3 dy))
              | _ => Err AssertionError end) (A1 (list3 o)))
           (translate (fun x => match x with
              | A1 [x1; x2; x3] => y <- quaternion_rotation (mk3 x1 x2 x3) q ;; translate f (amap Ropp (A1 (list3 o))) (A1 (list3 y))
              | _ => Err AssertionError end) (A1 (list3 o))).
Proof.
  intros T. apply tracks_translate; [reflexivity|]. pose proof (tracks_translate 3 J f (map Ropp (list3 o)) eq_refl T) as T'.
  intros fs x p Hn H E. inversion H as [|f1 x1 fs1 xs1 H1 Hr1]; subst; [discriminate|].
  inversion Hr1 as [|f2 x2 fs2 xs2 H2 Hr2]; subst; [discriminate|]. inversion Hr2 as [|f3 x3 fs3 xs3 H3 Hr3]; subst; [discriminate|].
  inversion Hr3; subst; [|discriminate]. clear H Hr1 Hr2 Hr3 Hn T.
  apply bind_ok in E as (y & Ey & E). apply bind_ok in E as (dy & Edy & E).
  unfold quaternion_rotation in *. apply bind_ok in Ey as (qi & Eq & Ey). rewrite Eq in Edy |- *. cbn [bind] in Edy |- *.
  injection Ey as <-. injection Edy as <-.
  set (L := fun a b c => list3 (imag (q_mul (q_mul qi (OQ (mkQ 0 (mk3 a b c)))) (OQ q)))).
  refine (T' [fun s => nth 0 (L (f1 s) (f2 s) (f3 s)) 0; fun s => nth 1 (L (f1 s) (f2 s) (f3 s)) 0; fun s => nth 2 (L (f1 s) (f2 s) (f3 s)) 0] _ p _ _ E); [reflexivity|].
  constructor; [|constructor; [|constructor; [|constructor]]];
    [apply (d_lin (fun a b c => nth 0 (L a b c) 0)) | apply (d_lin (fun a b c => nth 1 (L a b c) 0)) | apply (d_lin (fun a b c => nth 2 (L a b c) 0))]; auto;
    intros a b c; unfold L; destruct qi as [qa [qb qc qd]], q as [ra [rb rc rd]]; unfold list3, q_mul, vadd3, vscal3, cross3, dot3; cbn [nth imag real v1 v2 v3]; ring.
Qed.
