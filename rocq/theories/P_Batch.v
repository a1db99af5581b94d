(** Proofs about arrays of samples. *)
From Coquelicot Require Import Coquelicot.
From Verif Require Import Base BaseFacts P_Vec S_RFun M_Tensor M_Calc M_Domain S_Model P_Calc P_Model P_Surface1.
From Verif Require Import S_Domain P_Domain1 P_Domain4 M_Batch S_Batch.

(** ** Broadcasting *)
Lemma nbop_same f a b s : nshape a = s -> nshape b = s ->
  exists y, nbop f a b = Ok y /\ nshape y = s /\
    forall p, inside s p -> nentry y p = (x <- nentry a p ;; z <- nentry b p ;; Ok (f x z)).
Proof.
  intros Ha Hb. unfold nbop. rewrite Ha, Hb, bshape_same. cbn [bind].
  eexists. split; [reflexivity|]. split; [reflexivity|]. intros p Hp. cbn [nentry]. rewrite bidx_inside by auto. reflexivity.
Qed.
Lemma nbop_scal_r f a b s : nshape a = s -> nshape b = [] ->
  exists y, nbop f a b = Ok y /\ nshape y = s /\
    forall p, inside s p -> nentry y p = (x <- nentry a p ;; z <- nentry b [] ;; Ok (f x z)).
Proof.
  intros Ha Hb. unfold nbop. rewrite Ha, Hb, bshape_nil_r. cbn [bind].
  eexists. split; [reflexivity|]. split; [reflexivity|]. intros p Hp. cbn [nentry].
  rewrite bidx_nil, (bidx_inside s p Hp). reflexivity.
Qed.
Lemma bshape_last s n : bshape (s ++ [n]) [n] = Ok (s ++ [n]).
Proof.
  unfold bshape. rewrite rev_app_distr. cbn [rev app bshape_rev]. unfold bdim. rewrite Nat.eqb_refl. cbn [bind].
  assert (G : forall r, bshape_rev r [] = Ok r) by (intros [|]; reflexivity). rewrite G. cbn [bind].
  cbn [rev]. rewrite rev_involutive. reflexivity.
Qed.
Lemma bshape_last_l s n : bshape [n] (s ++ [n]) = Ok (s ++ [n]).
Proof.
  unfold bshape. rewrite rev_app_distr. cbn [rev app bshape_rev]. unfold bdim. rewrite Nat.eqb_refl. cbn [bind].
  cbn [bind rev]. rewrite rev_involutive. reflexivity.
Qed.
Lemma bidx_last n p k : (k < n)%nat -> bidx [n] (p ++ [k]) = [k].
Proof.
  intros H. unfold bidx. rewrite rev_app_distr. cbn [rev app bidx_rev].
  destruct (Nat.eqb_spec n 1) as [->|]; cbn; [|reflexivity]. f_equal. lia.
Qed.
Lemma nbop_last f a b s n : nshape a = s ++ [n] -> nshape b = [n] ->
  exists y, nbop f a b = Ok y /\ nshape y = s ++ [n] /\
    forall p k, inside s p -> (k < n)%nat ->
      nentry y (p ++ [k]) = (x <- nentry a (p ++ [k]) ;; z <- nentry b [k] ;; Ok (f x z)).
Proof.
  intros Ha Hb. unfold nbop. rewrite Ha, Hb, bshape_last. cbn [bind].
  eexists. split; [reflexivity|]. split; [reflexivity|]. intros p k Hp Hk. cbn [nentry].
  rewrite bidx_last by auto. rewrite bidx_inside; [reflexivity|]. apply inside_app; [auto|]. constructor; [auto|constructor].
Qed.
Lemma nbop_last_l f a b s n : nshape a = [n] -> nshape b = s ++ [n] ->
  exists y, nbop f a b = Ok y /\ nshape y = s ++ [n] /\
    forall p k, inside s p -> (k < n)%nat ->
      nentry y (p ++ [k]) = (x <- nentry a [k] ;; z <- nentry b (p ++ [k]) ;; Ok (f x z)).
Proof.
  intros Ha Hb. unfold nbop. rewrite Ha, Hb, bshape_last_l. cbn [bind].
  eexists. split; [reflexivity|]. split; [reflexivity|]. intros p k Hp Hk. cbn [nentry].
  rewrite bidx_last by auto. rewrite bidx_inside; [reflexivity|]. apply inside_app; [auto|]. constructor; [auto|constructor].
Qed.
Lemma nlast_shape x s n k : nshape x = s ++ [n] -> nshape (nlast x k) = s.
Proof. intros E. cbn [nlast nshape]. rewrite E. apply removelast_last. Qed.
Lemma nstack_ok (l : list ntensor) (a : ntensor) s : l <> [] -> (forall b, In b l -> nshape b = s) ->
  exists y, nstack l = Ok y /\ nshape y = s ++ [length l] /\
    forall p k, (k < length l)%nat -> nentry y (p ++ [k]) = nentry (nth k l a) p.
Proof.
  intros Ne H. destruct l as [|b l']; [congruence|]. unfold nstack.
  replace (forallb _ _) with true.
  2:{ symmetry. apply forallb_forall. intros c Hc. rewrite (H c Hc), (H b) by (left; auto). apply list_eqb_refl. }
  eexists. split; [reflexivity|]. cbn [nshape nentry]. rewrite (H b) by (left; auto). split; [reflexivity|].
  intros p k Hk. rewrite last_last, removelast_last. rewrite (nth_indep _ b a) by auto. reflexivity.
Qed.
Lemma last_is_ok n s : last_is n (s ++ [n]) = Ok tt.
Proof. unfold last_is, last_dim. rewrite rev_app_distr. cbn. unfold assert_. rewrite Nat.eqb_refl. reflexivity. Qed.

(** ** Points *)
Lemma point_ext d y p g : (forall k, (k < d)%nat -> nentry y (p ++ [k]) = Ok (g k)) ->
  point d y p = Ok (map g (seq 0 d)).
Proof.
  intros H. unfold point. apply sequence_map_ext. intros k Hk. apply H. apply in_seq in Hk. lia.
Qed.
Lemma sample_length n x p : length (sample n x p) = n.
Proof. unfold sample. rewrite map_length, seq_length. reflexivity. Qed.
Lemma sample_nth n x p k : (k < n)%nat -> nth k (sample n x p) 0 = entry x (p ++ [k]).
Proof.
  intros H. unfold sample. rewrite (nth_indep _ 0 (entry x (p ++ [0%nat]))) by (rewrite map_length, seq_length; auto).
  rewrite (map_nth (fun j => entry x (p ++ [j]))). rewrite seq_nth by auto. reflexivity.
Qed.
Lemma list_map_nth (l : list R) : l = map (fun k => nth k l 0) (seq 0 (length l)).
Proof.
  apply nth_ext with 0 0; [rewrite map_length, seq_length; auto|]. intros k Hk.
  rewrite (nth_map_lt _ _ _ 0%nat) by (rewrite seq_length; auto). rewrite seq_nth by auto. reflexivity.
Qed.

(** ** Hypercube *)
Lemma n_hypercube_ok l u n x s : length l = n -> length u = n -> nshape x = s ++ [n] ->
  exists y, n_hypercube x l u = Ok y /\ nshape y = s ++ [n] /\
    forall p k, inside s p -> (k < n)%nat -> nentry y (p ++ [k]) =
      (v <- nentry x (p ++ [k]) ;; Ok (wrap1 v * (nth k u 0 - nth k l 0) + nth k l 0)).
Proof.
  intros Ll Lu Sx. unfold n_hypercube.
  destruct (nbop_same Rminus (nvec u) (nvec l) [n]) as (w & -> & Sw & Ew);
    [cbn; rewrite Lu; auto|cbn; rewrite Ll; auto|]. cbn [bind].
  destruct (nbop_last Rmult (nmap (tot wrap1) x) w s n) as (q & -> & Sq & Eq); [exact Sx|exact Sw|]. cbn [bind].
  destruct (nbop_last Rplus q (nvec l) s n) as (y & -> & Sy & Ey); [exact Sq|cbn; rewrite Ll; auto|].
  exists y. split; [reflexivity|]. split; [exact Sy|]. intros p k Hp Hk. rewrite Ey, Eq, Ew by (auto; repeat constructor; auto).
  cbn [nmap nentry nvec nof tvec entry hd bind tot]. destruct (nentry x (p ++ [k])); reflexivity.
Qed.
Lemma b_hypercube_n x l u : b_hypercube x l u = n_hypercube (nof x) l u.
Proof. reflexivity. Qed.
Lemma transform_hypercube_list l u x : length l = length u -> length x = length l ->
  transform_hypercube (A1 x) l u =
  Ok (A1 (map (fun k => wrap1 (nth k x 0) * (nth k u 0 - nth k l 0) + nth k l 0) (seq 0 (length l)))).
Proof.
  intros L Lx. unfold transform_hypercube, bop, amap, bcast1.
  rewrite <- L, Nat.eqb_refl. cbn [bind]. rewrite map_length, map2_length_eq by auto. rewrite Lx, <- L, Nat.eqb_refl. cbn [bind].
  rewrite map2_length_eq by (rewrite map_length, map2_length_eq; congruence). rewrite map_length, Lx, Nat.eqb_refl. cbn [bind].
  do 2 f_equal. apply nth_ext with 0 0.
  - rewrite map_length, seq_length, map2_length_eq; [rewrite map2_length_eq; rewrite ?map_length; auto; rewrite map2_length_eq; congruence|].
    rewrite map2_length_eq; rewrite ?map_length; auto; rewrite map2_length_eq; congruence.
  - intros k Hk. assert (k < length l)%nat as K.
    { rewrite map2_length_eq in Hk; [rewrite map2_length_eq in Hk; rewrite ?map_length in *; auto; try rewrite map2_length_eq; congruence|].
      rewrite map2_length_eq; rewrite ?map_length; auto; rewrite map2_length_eq; congruence. }
    rewrite (nth_map2 Rplus _ _ k 0 0) by (rewrite ?map2_length_eq, ?map_length; rewrite ?map2_length_eq, ?map_length; congruence).
    rewrite (nth_map2 Rmult _ _ k 0 0) by (rewrite ?map_length, ?map2_length_eq; congruence).
    rewrite (nth_map2 Rminus _ _ k 0 0) by congruence.
    rewrite (nth_map_lt _ _ _ 0) by congruence.
    rewrite (nth_map_lt _ _ _ 0%nat) by (rewrite seq_length; auto). rewrite seq_nth by auto. reflexivity.
Qed.
Lemma batch_hypercube l u : length l = length u ->
  pointwise (length l) (length l) (fun x => b_hypercube x l u) (fun v => flat (transform_hypercube (A1 v) l u)).
Proof.
  intros L s x Sx. rewrite b_hypercube_n.
  destruct (n_hypercube_ok l u (length l) (nof x) s) as (y & -> & Sy & Ey); auto.
  exists y. split; [reflexivity|]. split; [exact Sy|]. intros p Hp.
  rewrite transform_hypercube_list by (rewrite ?sample_length; auto). cbn [flat bind ravel].
  rewrite (point_ext _ y p (fun k => wrap1 (nth k (sample (length l) x p) 0) * (nth k u 0 - nth k l 0) + nth k l 0)); [reflexivity|].
  intros k Hk. rewrite Ey by auto. cbn. rewrite sample_nth by auto. reflexivity.
Qed.

(** ** Round domains *)
Lemma o2 (o : list R) : length o = 2%nat -> exists a b, o = [a; b].
Proof. destruct o as [|a [|b [|]]]; try discriminate. eauto. Qed.
Lemma o3 (o : list R) : length o = 3%nat -> exists a b c, o = [a; b; c].
Proof. destruct o as [|a [|b [|c [|]]]]; try discriminate. eauto. Qed.
Lemma sample2 x p : sample 2 x p = [entry x (p ++ [0%nat]); entry x (p ++ [1%nat])].
Proof. reflexivity. Qed.
Lemma sample3 x p : sample 3 x p = [entry x (p ++ [0%nat]); entry x (p ++ [1%nat]); entry x (p ++ [2%nat])].
Proof. reflexivity. Qed.
Ltac shp Sx := cbn [nmap nshape nof tmap shape]; rewrite ?Sx; eauto using removelast_last.

Lemma batch_annulus r1 r2 o : length o = 2%nat ->
  pointwise 2 2 (fun x => b_annulus x r1 r2 o) (fun v => transform_annulus (A1 v) r1 r2 o).
Proof.
  intros Lo s x Sx. destruct (o2 o Lo) as (a & b & ->). unfold b_annulus. rewrite Sx, last_is_ok. cbn [bind length Nat.eqb assert_].
  assert (S0 : forall k, nshape (nlast (nof (tmap mod1 x)) k) = s).
  { intros k. apply (nlast_shape _ s 2). cbn. exact Sx. }
  match goal with |- context [nbop Rmult ?r ?c] => destruct (nbop_same Rmult r c s) as (x1 & -> & S1 & E1); [apply S0|apply S0|] end.
  cbn [bind].
  match goal with |- context [nbop Rmult ?r ?c] => destruct (nbop_same Rmult r c s) as (x2 & -> & S2 & E2); [apply S0|apply S0|] end.
  cbn [bind].
  destruct (nstack_ok [x1; x2] x1 s) as (z & -> & Sz & Ez); [discriminate| |].
  { intros q [<-|[<-|[]]]; auto. }
  cbn [bind]. destruct (nbop_last Rplus z (nvec [a; b]) s 2) as (y & -> & Sy & Ey); [exact Sz|reflexivity|].
  exists y. split; [reflexivity|]. split; [exact Sy|]. intros p Hp. rewrite sample2.
  unfold point. cbn [seq map]. rewrite !Ey by (auto; lia). rewrite !Ez by (cbn; lia). cbn [nth]. rewrite E1, E2 by auto.
  cbn [nmap nlast nentry nof tmap entry nvec tvec hd nth transform_annulus tot bind].
  destruct (fsqrt _); reflexivity.
Qed.

Lemma batch_sphere r o : length o = 3%nat ->
  pointwise 3 3 (fun x => b_sphere x r o) (fun v => transform_sphere (A1 v) r o).
Proof.
  intros Lo s x Sx. destruct (o3 o Lo) as (a & b & c & ->). unfold b_sphere. rewrite Sx, last_is_ok. cbn [bind length Nat.eqb assert_].
  assert (S0 : forall k, nshape (nlast (nof (tmap mod1 x)) k) = s).
  { intros k. apply (nlast_shape _ s 3). cbn. exact Sx. }
  match goal with |- context [nbop Rmult ?r ?c] => destruct (nbop_same Rmult r c s) as (a1 & -> & Sa1 & Ea1); [apply S0|apply S0|] end.
  cbn [bind].
  match goal with |- context [nbop Rmult ?r ?c] => destruct (nbop_same Rmult r c s) as (x1 & -> & S1 & E1); [exact Sa1|apply S0|] end.
  cbn [bind].
  match goal with |- context [nbop Rmult ?r ?c] => destruct (nbop_same Rmult r c s) as (a2 & -> & Sa2 & Ea2); [apply S0|apply S0|] end.
  cbn [bind].
  match goal with |- context [nbop Rmult ?r ?c] => destruct (nbop_same Rmult r c s) as (x2 & -> & S2 & E2); [exact Sa2|apply S0|] end.
  cbn [bind].
  match goal with |- context [nbop Rmult ?r ?c] => destruct (nbop_same Rmult r c s) as (x3 & -> & S3 & E3); [apply S0|apply S0|] end.
  cbn [bind].
  destruct (nstack_ok [x1; x2; x3] x1 s) as (z & -> & Sz & Ez); [discriminate| |].
  { intros q [<-|[<-|[<-|[]]]]; auto. }
  cbn [bind length] in *. destruct (nbop_scal_r Rmult z (nsc r) (s ++ [3%nat])) as (w & -> & Sw & Ew); [exact Sz|reflexivity|].
  cbn [bind]. destruct (nbop_last Rplus w (nvec [a; b; c]) s 3) as (y & -> & Sy & Ey); [exact Sw|reflexivity|].
  exists y. split; [reflexivity|]. split; [exact Sy|]. intros p Hp. rewrite sample3.
  unfold point. cbn [seq map]. rewrite !Ey by (auto; lia).
  rewrite !Ew by (apply inside_app; auto; repeat constructor). rewrite !Ez by (cbn; lia). cbn [nth]. rewrite E1, E2, E3, Ea1, Ea2 by auto.
  cbn [nmap nlast nentry nof tmap entry nvec nsc tsc tvec hd nth transform_sphere tot bind].
  destruct (fpow _ _); [|reflexivity]. cbn [bind]. destruct (fsqrt _); reflexivity.
Qed.

Lemma batch_sphere_bnd r o : length o = 3%nat ->
  pointwise 2 3 (fun x => b_sphere_bnd x r o) (fun v => transform_sphere_bnd (A1 v) r o).
Proof.
  intros Lo s x Sx. destruct (o3 o Lo) as (a & b & c & ->). unfold b_sphere_bnd. rewrite Sx, last_is_ok. cbn [bind length Nat.eqb assert_].
  assert (S0 : forall k, nshape (nlast (nof (tmap mod1 x)) k) = s).
  { intros k. apply (nlast_shape _ s 2). cbn. exact Sx. }
  match goal with |- context [nbop Rmult ?r ?c] => destruct (nbop_same Rmult r c s) as (x1 & -> & S1 & E1); [apply S0|apply S0|] end.
  cbn [bind].
  match goal with |- context [nbop Rmult ?r ?c] => destruct (nbop_same Rmult r c s) as (x2 & -> & S2 & E2); [apply S0|apply S0|] end.
  cbn [bind].
  match goal with |- context [nstack [x1; x2; ?t]] => destruct (nstack_ok [x1; x2; t] x1 s) as (z & -> & Sz & Ez) end; [discriminate| |].
  { intros q [<-|[<-|[<-|[]]]]; auto. apply S0. }
  cbn [bind length] in *. destruct (nbop_scal_r Rmult z (nsc r) (s ++ [3%nat])) as (w & -> & Sw & Ew); [exact Sz|reflexivity|].
  cbn [bind]. destruct (nbop_last Rplus w (nvec [a; b; c]) s 3) as (y & -> & Sy & Ey); [exact Sw|reflexivity|].
  exists y. split; [reflexivity|]. split; [exact Sy|]. intros p Hp. rewrite sample2.
  unfold point. cbn [seq map]. rewrite !Ey by (auto; lia).
  rewrite !Ew by (apply inside_app; auto; repeat constructor). rewrite !Ez by (cbn; lia). cbn [nth]. rewrite E1, E2 by auto.
  cbn [nmap nlast nentry nof tmap entry nvec nsc tsc tvec hd nth transform_sphere_bnd tot bind].
  destruct (fpow _ _); reflexivity.
Qed.

(** the circle: axes of size 1 disappear *)
Lemma filter_no_ones s : no_ones s -> filter (fun n => negb (Nat.eqb n 1)) s = s.
Proof.
  induction s as [|n s IH]; intros H; [reflexivity|]. cbn. destruct (Nat.eqb_spec n 1) as [->|].
  - exfalso. apply (H 1%nat); [left|]; auto.
  - cbn. f_equal. apply IH. intros m Hm. apply H. right. exact Hm.
Qed.
Lemma unsqueeze_no_ones s p : no_ones s -> inside s p -> unsqueeze s p = p.
Proof.
  intros H I. induction I as [|i n p s Hi I IH]; [reflexivity|]. cbn. destruct (Nat.eqb_spec n 1) as [->|].
  - exfalso. apply (H 1%nat); [left|]; auto.
  - f_equal. apply IH. intros m Hm. apply H. right. exact Hm.
Qed.
Lemma unsqueeze_no_ones1 s p : no_ones s -> inside s p -> unsqueeze (s ++ [1%nat]) p = p ++ [0%nat].
Proof.
  intros H I. induction I as [|i n p s Hi I IH]; [reflexivity|]. cbn. destruct (Nat.eqb_spec n 1) as [->|].
  - exfalso. apply (H 1%nat); [left|]; auto.
  - f_equal. apply IH. intros m Hm. apply H. right. exact Hm.
Qed.
Lemma b_circle_bnd_ok x r a b : exists y, b_circle_bnd x r [a; b] = Ok y /\ nshape y = shape (squeeze x) ++ [2%nat] /\
  forall p, inside (shape (squeeze x)) p -> point 2 y p = transform_circle_bnd (entry (squeeze x) p) r [a; b].
Proof.
  unfold b_circle_bnd. cbn [length Nat.eqb assert_ bind].
  set (s := shape (squeeze x)).
  match goal with |- context [nstack [?t; ?u]] => destruct (nstack_ok [t; u] t s) as (z & -> & Sz & Ez) end; [discriminate| |].
  { intros q [<-|[<-|[]]]; reflexivity. }
  cbn [bind length] in *. destruct (nbop_scal_r Rmult z (nsc r) (s ++ [2%nat])) as (w & -> & Sw & Ew); [exact Sz|reflexivity|].
  cbn [bind]. destruct (nbop_last Rplus w (nvec [a; b]) s 2) as (y & -> & Sy & Ey); [exact Sw|reflexivity|].
  exists y. split; [reflexivity|]. split; [exact Sy|]. intros p Hp.
  unfold point. cbn [seq map]. rewrite !Ey by (auto; lia).
  rewrite !Ew by (apply inside_app; auto; repeat constructor). rewrite !Ez by (cbn; lia). reflexivity.
Qed.
Lemma batch_circle_bnd r o s x : length o = 2%nat -> no_ones s -> (shape x = s \/ shape x = s ++ [1%nat]) ->
  exists y, b_circle_bnd x r o = Ok y /\ nshape y = s ++ [2%nat] /\
    forall p, inside s p -> point 2 y p =
      transform_circle_bnd (entry x (if Nat.eqb (length (shape x)) (length s) then p else p ++ [0%nat])) r o.
Proof.
  intros Lo N Sx. destruct (o2 o Lo) as (a & b & ->). destruct (b_circle_bnd_ok x r a b) as (y & E & Sy & Ey).
  exists y. split; [exact E|].
  assert (Q : shape (squeeze x) = s).
  { cbn. destruct Sx as [->| ->]; [apply filter_no_ones; auto|]. rewrite filter_app, filter_no_ones by auto. cbn. apply app_nil_r. }
  rewrite Q in *. split; [exact Sy|]. intros p Hp. rewrite Ey by auto. f_equal. cbn [squeeze entry].
  destruct Sx as [Sx|Sx]; rewrite Sx.
  - rewrite Nat.eqb_refl. f_equal. apply unsqueeze_no_ones; auto.
  - rewrite app_length. cbn [length]. replace (Nat.eqb (length s + 1) (length s)) with false by (symmetry; apply Nat.eqb_neq; lia).
    f_equal. apply unsqueeze_no_ones1; auto.
Qed.

(** ** The boundary of the hypercube *)
Lemma sequence_const_err {A B} (r : res A) (g : A -> nat -> B) ks e : ks <> [] -> r = Err e ->
  sequence (map (fun k => y <- r ;; Ok (g y k)) ks) = Err e.
Proof. intros Ne ->. destruct ks; [congruence|reflexivity]. Qed.
Lemma bnd_insert_length dim sup cum vals x y : (0 < dim)%nat -> length x = (dim - 1)%nat ->
  bnd_insert dim sup cum vals x = Ok y -> length y = dim.
Proof.
  intros Hd Lx. unfold bnd_insert. destruct x as [|x0 x']; [discriminate|].
  set (i := argmax _). set (q := if Nat.eqb i 0 then _ else _). destruct q as [q'|]; cbn [bind]; [|discriminate].
  intros H. injection H as <-. unfold insert_at. rewrite app_length. cbn [length]. rewrite firstn_length, skipn_length.
  change (q' :: x') with (upd (x0 :: x') 0 q'). rewrite upd_length. rewrite Lx.
  assert (i mod dim < dim)%nat by (apply Nat.mod_upper_bound; lia). lia.
Qed.
Lemma insert_rules_total l u : proper_box l u -> l <> [] -> exists r, insert_rules l u = Ok r.
Proof. intros. eexists. apply insert_rules_ok; auto. Qed.
(** rows of samples of length dim-1 *)
Lemma bnd_core l u r x s : proper_box l u -> l <> [] -> insert_rules l u = Ok r ->
  shape x = s ++ [(length l - 1)%nat] ->
  let '(sup, cum, vals) := r in
  exists y, n_hypercube (along_last (length l) (bnd_insert (length l) sup cum vals) (tmap mod1 x)) l u = Ok y /\
    nshape y = s ++ [length l] /\
    forall p, inside s p -> point (length l) y p =
      (z <- bnd_insert (length l) sup cum vals (map mod1 (sample (length l - 1) x p)) ;; flat (transform_hypercube (A1 z) l u)).
Proof.
  intros (L & Hb) Ne HR Sx. destruct r as [[sup cum] vals].
  destruct (n_hypercube_ok l u (length l) (along_last (length l) (bnd_insert (length l) sup cum vals) (tmap mod1 x)) s)
    as (y & E & Sy & Ey); auto.
  { cbn [along_last nshape tmap shape]. rewrite Sx, removelast_last. reflexivity. }
  exists y. split; [exact E|]. split; [exact Sy|]. intros p Hp.
  set (row := map mod1 (sample (length l - 1) x p)).
  assert (Er : forall k, (k < length l)%nat -> nentry y (p ++ [k]) =
     (z <- bnd_insert (length l) sup cum vals row ;; Ok (wrap1 (nth k z 0) * (nth k u 0 - nth k l 0) + nth k l 0))).
  { intros k Hk. rewrite Ey by auto. cbn [along_last nentry tmap shape entry]. rewrite Sx, last_last, removelast_last, last_last.
    replace (map (fun j => mod1 (entry x (p ++ [j]))) (seq 0 (length l - 1))) with row.
    2:{ unfold row, sample. rewrite map_map. reflexivity. }
    destruct (bnd_insert _ _ _ _ row); reflexivity. }
  assert (Lr : length row = (length l - 1)%nat) by (unfold row; rewrite map_length; apply sample_length).
  assert (P0 : (0 < length l)%nat) by (destruct l; [congruence|cbn; lia]).
  destruct (bnd_insert (length l) sup cum vals row) as [z|e] eqn:Ez; cbn [bind] in *.
  - pose proof (bnd_insert_length _ _ _ _ _ _ P0 Lr Ez) as Lz.
    rewrite transform_hypercube_list by (auto; congruence). cbn [flat bind ravel]. apply point_ext. exact Er.
  - unfold point. destruct l as [|l0 l']; [congruence|]. cbn [length seq map sequence].
    rewrite (Er 0%nat) by (cbn; lia). reflexivity.
Qed.
Lemma bnd_single l u r v : length l = length u -> (1 < length l)%nat -> insert_rules l u = Ok r ->
  length v = (length l - 1)%nat ->
  let '(sup, cum, vals) := r in
  flat (transform_hypercube_bnd (A1 v) l u) =
  (z <- bnd_insert (length l) sup cum vals (map mod1 v) ;; flat (transform_hypercube (A1 z) l u)).
Proof.
  intros L Hl HR Lv. destruct r as [[sup cum] vals]. unfold transform_hypercube_bnd. rewrite <- L, Nat.eqb_refl. cbn [assert_ bind].
  replace (Nat.eqb (length l) 1) with false by (symmetry; apply Nat.eqb_neq; lia).
  cbn [amap ravel]. rewrite map_length, Lv, Nat.eqb_refl. cbn [assert_ bind]. rewrite HR. cbn [bind].
  destruct (bnd_insert _ _ _ _ _); reflexivity.
Qed.
Lemma b_bnd_batch l u s x : proper_box l u -> (1 < length l)%nat -> (length l = 2%nat -> s <> []) ->
  shape x = s ++ [(length l - 1)%nat] ->
  exists y, b_hypercube_bnd x l u = Ok y /\ nshape y = s ++ [length l] /\
    forall p, inside s p -> point (length l) y p = flat (transform_hypercube_bnd (A1 (sample (length l - 1) x p)) l u).
Proof.
  intros Hb Hl Hs Sx. assert (Ne : l <> []) by (destruct l; [cbn in Hl; lia|discriminate]).
  destruct (insert_rules_total l u Hb Ne) as (r & HR).
  pose proof (bnd_core l u r x s Hb Ne HR Sx) as C.
  assert (D : forall p, let '(sup, cum, vals) := r in flat (transform_hypercube_bnd (A1 (sample (length l - 1) x p)) l u) =
    (z <- bnd_insert (length l) sup cum vals (map mod1 (sample (length l - 1) x p)) ;; flat (transform_hypercube (A1 z) l u))).
  { intros p. apply bnd_single; auto; [apply Hb|apply sample_length]. }
  unfold b_hypercube_bnd. destruct Hb as (L & Hb). rewrite <- L, Nat.eqb_refl. cbn [assert_ bind].
  replace (Nat.eqb (length l) 1) with false by (symmetry; apply Nat.eqb_neq; lia).
  cbn [tmap shape]. rewrite Sx.
  replace (match s ++ [(length l - 1)%nat] with [] => true | _ => false end) with false by (destruct s; reflexivity).
  cbn [shape].
  change (shape (tmap mod1 x)) with (shape x). rewrite Sx.
  replace (Nat.eqb (length (s ++ [(length l - 1)%nat])) 1 && Nat.eqb (length l) 2)%bool with false.
  2:{ symmetry. apply Bool.andb_false_iff. rewrite app_length. cbn [length].
      destruct (Nat.eq_dec (length l) 2) as [E|E]; [left|right; apply Nat.eqb_neq; auto].
      apply Nat.eqb_neq. specialize (Hs E). destruct s; [congruence|cbn; lia]. }
  change (shape (tmap mod1 x)) with (shape x). rewrite Sx.
  rewrite last_is_ok. cbn [bind]. rewrite HR. cbn [bind]. destruct r as [[sup cum] vals].
  destruct C as (y & -> & Sy & Ey). cbn [bind]. exists y. split; [reflexivity|]. split; [exact Sy|].
  intros p Hp. rewrite D. apply Ey. exact Hp.
Qed.
(** two dimensions: a 1-d array is an array of scalar samples *)
Lemma b_bnd_batch_2d l u k x : proper_box l u -> length l = 2%nat -> shape x = [k] ->
  exists y, b_hypercube_bnd x l u = Ok y /\ nshape y = [k; 2%nat] /\
    forall i, (i < k)%nat -> point 2 y [i] = flat (transform_hypercube_bnd (A1 [entry x [i]]) l u).
Proof.
  intros Hb Hl Sx. assert (Ne : l <> []) by (destruct l; [cbn in Hl; lia|discriminate]).
  destruct (insert_rules_total l u Hb Ne) as (r & HR).
  set (x' := mkT [k; 1%nat] (fun p => entry x (removelast p))).
  pose proof (bnd_core l u r x' [k] Hb Ne HR) as C. rewrite Hl in C. specialize (C eq_refl).
  assert (D : forall p, let '(sup, cum, vals) := r in flat (transform_hypercube_bnd (A1 (sample 1 x' p)) l u) =
    (z <- bnd_insert (length l) sup cum vals (map mod1 (sample 1 x' p)) ;; flat (transform_hypercube (A1 z) l u))).
  { intros p. apply bnd_single; auto; [apply Hb|lia|]. rewrite Hl. reflexivity. }
  unfold b_hypercube_bnd. destruct Hb as (L & Hb). rewrite <- L, Nat.eqb_refl. cbn [assert_ bind]. rewrite Hl in *. cbn [Nat.eqb].
  change (shape (tmap mod1 x)) with (shape x). rewrite Sx.
  change (shape (tmap mod1 x)) with (shape x). rewrite Sx. cbn [length Nat.eqb andb app shape].
  change (last_is (2 - 1) [k; 1%nat]) with (last_is 1 ([k] ++ [1%nat])). rewrite last_is_ok. cbn [bind]. rewrite HR. cbn [bind].
  destruct r as [[sup cum] vals].
  change (mkT [k; 1%nat] (fun p => entry (tmap mod1 x) (removelast p))) with (tmap mod1 x').
  destruct C as (y & -> & Sy & Ey). cbn [bind]. exists y. split; [reflexivity|]. split; [exact Sy|].
  intros i Hi. specialize (D [i]). change (sample 1 x' [i]) with [entry x [i]] in D. rewrite D. apply (Ey [i]). repeat constructor. exact Hi.
Qed.
Lemma b_bnd_batch_1d a b s x : shape x = s ++ [1%nat] ->
  exists y, b_hypercube_bnd x [a] [b] = Ok y /\ nshape y = s ++ [1%nat] /\
    forall p, inside s p -> point 1 y p = flat (transform_hypercube_bnd (A1 (sample 1 x p)) [a] [b]).
Proof.
  intros Sx. unfold b_hypercube_bnd. cbn [length Nat.eqb assert_ bind].
  set (x' := tmap (fun e => if Rlt_dec (1 / 2) e then 1 else 0) (tmap mod1 x)).
  destruct (batch_hypercube [a] [b] eq_refl s x') as (y & E & Sy & Ey); [exact Sx|].
  exists y. split; [exact E|]. split; [exact Sy|]. intros p Hp. cbn [length] in Ey. rewrite Ey by auto. reflexivity.
Qed.

(** ** Parallelogram *)
Lemma batch_par a b c p : Parallelogram a b c = Ok p ->
  pointwise 2 (length a) (b_par_transform p) (fun v => par_transform p (A1 v)).
Proof.
  intros HP s x Sx. apply Parallelogram_ok in HP as (Hb & Hc & ->). unfold b_par_transform. rewrite Sx, last_is_ok. cbn [bind pB pa].
  set (B := map2 pair (vsub b a) (vsub c a)).
  assert (LB : length B = length a).
  { unfold B, vsub. rewrite !map2_length_eq; rewrite ?map2_length_eq; congruence. }
  set (v := if Nat.eqb _ _ then _ else _).
  assert (Sv : nshape v = s ++ [length a] /\ forall q k, inside s q -> nentry v (q ++ [k]) =
     Ok (wrap1 (entry x (q ++ [0%nat])) * fst (nth k B (0, 0)) + wrap1 (entry x (q ++ [1%nat])) * snd (nth k B (0, 0)))).
  { unfold v. change (shape (tmap wrap1 x)) with (shape x). rewrite Sx, app_length. cbn [length].
    destruct (Nat.eqb_spec (length s + 1) 1) as [Z|Z]; cbn [nshape nentry].
    - assert (s = []) as -> by (destruct s; [auto|cbn in Z; lia]). rewrite LB. split; [reflexivity|].
      intros q k Hq. inversion Hq; subst. cbn [app hd tmap entry]. f_equal. ring.
    - rewrite removelast_last, LB. split; [reflexivity|].
      intros q k Hq. rewrite removelast_last, last_last. reflexivity. }
  destruct Sv as (Sv & Ev). destruct (nbop_last Rplus v (nvec a) s (length a)) as (y & -> & Sy & Ey); [exact Sv|reflexivity|].
  exists y. split; [reflexivity|]. split; [exact Sy|]. intros q Hq. rewrite sample2. cbn [par_transform pB pa].
  rewrite (point_ext _ _ _ (fun k => wrap1 (entry x (q ++ [0%nat])) * fst (nth k B (0, 0)) + wrap1 (entry x (q ++ [1%nat])) * snd (nth k B (0, 0)) + nth k a 0)).
  - f_equal. apply nth_ext with 0 0.
    + rewrite map_length, seq_length, map2_length_eq; congruence.
    + intros k Hk. rewrite map_length, seq_length in Hk. rewrite (nth_map2 _ _ _ k (0, 0) 0) by congruence.
      rewrite (nth_map_lt _ _ _ 0%nat) by (rewrite seq_length; auto). rewrite seq_nth by auto. cbn [Nat.add]. ring.
  - intros k Hk. rewrite Ey, Ev by auto. reflexivity.
Qed.

(** ** Polylines *)
Lemma argmax_lt l : l <> [] -> (argmax l < length l)%nat.
Proof.
  intros Ne. unfold argmax. destruct (find_true l) as [i|] eqn:E; [|destruct l; [congruence|cbn; lia]].
  clear Ne. revert i E. induction l as [|b l IH]; intros i E; [discriminate|]. cbn in E. destruct b.
  - injection E as <-. cbn. lia.
  - destruct (find_true l); [|discriminate]. injection E as <-. specialize (IH n eq_refl). cbn. lia.
Qed.
Lemma cumsum_length l : length (cumsum l) = length l.
Proof. unfold cumsum. generalize 0. induction l as [|x l IH]; intros a; [reflexivity|]. cbn. rewrite IH. reflexivity. Qed.
Lemma segments_length p rest : length (segments (p :: rest)) = length rest.
Proof. revert p. induction rest as [|q rest IH]; intros p; [reflexivity|]. rewrite segments_cons. cbn [length]. rewrite IH. reflexivity. Qed.
Lemma move_points n v p2 d N : length v = n -> length p2 = n ->
  sequence (map (fun k => w <- fdiv (nth k v 0 * d) N ;; Ok (nth k p2 0 + w)) (seq 0 n)) =
  (w <- sequence (map (fun e => fdiv (e * d) N) v) ;; Ok (map2 Rplus p2 w)).
Proof.
  intros Lv Lp. unfold fdiv. destruct (Req_EM_T N 0) as [Z|Z].
  - destruct v as [|e v]; cbn in Lv; subst n; [destruct p2; [reflexivity|discriminate]|]. reflexivity.
  - rewrite (sequence_map_ext _ (fun k => nth k p2 0 + nth k v 0 * d / N)) by reflexivity.
    rewrite (sequence_map_ext _ (fun e => e * d / N)) by reflexivity. cbn [bind]. f_equal.
    apply nth_ext with 0 0; [rewrite map_length, seq_length, map2_length_eq; rewrite ?map_length; congruence|].
    intros k Hk. rewrite map_length, seq_length in Hk. rewrite (nth_map_lt _ _ _ 0%nat) by (rewrite seq_length; auto).
    rewrite seq_nth by auto. rewrite (nth_map2 Rplus _ _ k 0 0) by (rewrite ?map_length; congruence).
    rewrite (nth_map_lt _ _ _ 0) by congruence. reflexivity.
Qed.
Lemma polyline_rows p0 q rest (s : R) n : Forall (fun z => length z = n) (p0 :: q :: rest) ->
  let seg := segments (p0 :: q :: rest) in
  let idx := argmax (map (Rleb (mod1 s * sumR seg)) (cumsum seg)) in
  length (nth idx (p0 :: q :: rest) []) = n /\ length (nth (S idx) (p0 :: q :: rest) []) = n.
Proof.
  intros F seg idx. assert (H : (idx < length (q :: rest))%nat).
  { rewrite <- (segments_length p0 (q :: rest)), <- cumsum_length.
    rewrite <- (map_length (Rleb (mod1 s * sumR seg))). apply argmax_lt. unfold seg. rewrite segments_cons. discriminate. }
  rewrite Forall_forall in F. split; apply F, nth_In; cbn [length] in *; lia.
Qed.
Lemma all_same_forall p rest n : Forall (fun z => length z = n) (p :: rest) -> all_same_length (p :: rest) = true.
Proof.
  intros F. inversion F as [|? ? H1 H2]; subst. apply all_same_ok. eapply Forall_impl; [|exact H2]. auto.
Qed.
Lemma batch_polyline points n k s : (2 <= length points)%nat -> Forall (fun z => length z = n) points -> shape s = [k] ->
  exists y, b_polyline s points = Ok y /\ nshape y = [k; n] /\
    forall i, (i < k)%nat -> point n y [i] = transform_polyline (entry s [i]) points.
Proof.
  intros H2 F Ss. destruct points as [|p0 [|q rest]]; try (cbn in H2; lia).
  unfold b_polyline. rewrite (all_same_forall _ _ n F). rewrite Ss. cbn [length Nat.leb assert_ bind].
  destruct (cumsum (segments (p0 :: q :: rest))) as [|c0 cs] eqn:Ec.
  { apply (f_equal (@length R)) in Ec. rewrite cumsum_length, segments_length in Ec. discriminate. }
  rewrite <- Ec. eexists. split; [reflexivity|].
  assert (L0 : length p0 = n) by (inversion F; auto).
  split. { cbn [nshape shape nprod fold_right app]. rewrite L0, Nat.mul_1_r. reflexivity. }
  intros i Hi. unfold transform_polyline. rewrite (all_same_forall _ _ n F). rewrite Ec. rewrite <- Ec.
  destruct (polyline_rows p0 q rest (entry s [i]) n F) as (L1 & L2). cbn zeta in L1, L2.
  rewrite <- move_points with (n := n); [|rewrite map2_length_eq; congruence|exact L2].
  unfold point. f_equal. apply map_ext. intros m.
  assert (U : unravel [k] i = [i]) by (cbn [unravel nprod fold_right]; rewrite Nat.div_1_r; reflexivity).
  cbn [nentry hd last app entry]. rewrite !U. reflexivity.
Qed.
Lemma batch_polyline_scalar points n s : (2 <= length points)%nat -> Forall (fun z => length z = n) points -> shape s = [] ->
  exists y, b_polyline s points = Ok y /\ nshape y = [n] /\ point n y [] = transform_polyline (entry s []) points.
Proof.
  intros H2 F Ss. destruct points as [|p0 [|q rest]]; try (cbn in H2; lia).
  unfold b_polyline. rewrite (all_same_forall _ _ n F). rewrite Ss. cbn [length Nat.leb assert_ bind].
  destruct (cumsum (segments (p0 :: q :: rest))) as [|c0 cs] eqn:Ec.
  { apply (f_equal (@length R)) in Ec. rewrite cumsum_length, segments_length in Ec. discriminate. }
  rewrite <- Ec. eexists. split; [reflexivity|].
  assert (L0 : length p0 = n) by (inversion F; auto).
  split. { cbn [nshape shape nprod fold_right app tl]. rewrite L0. reflexivity. }
  unfold transform_polyline. rewrite (all_same_forall _ _ n F). rewrite Ec. rewrite <- Ec.
  destruct (polyline_rows p0 q rest (entry s []) n F) as (L1 & L2). cbn zeta in L1, L2.
  rewrite <- move_points with (n := n); [|rewrite map2_length_eq; congruence|exact L2].
  unfold point. f_equal.
Qed.
Lemma batch_polyline_rank points s p0 rest : points = p0 :: rest -> all_same_length points = true ->
  (2 <= length (shape s))%nat -> b_polyline s points = Err AssertionError.
Proof.
  intros -> A H. unfold b_polyline. rewrite A. destruct (shape s) as [|a [|b t]]; cbn in H; try lia. reflexivity.
Qed.

(** ** includes *)
Lemma batch_spherical_includes r o s x : shape x = s ++ [length o] ->
  exists y, b_spherical_includes r o x = Ok y /\ tshape y = s /\
    forall p, inside s p -> tentry y p = spherical_includes r o (sample (length o) x p).
Proof.
  intros Sx. unfold b_spherical_includes, tbop. rewrite Sx. cbn [tvec shape]. rewrite bshape_last. cbn [bind shape].
  unfold last_dim. rewrite rev_app_distr. cbn [rev app bind]. eexists. split; [reflexivity|]. cbn [tshape tentry].
  rewrite removelast_last. split; [reflexivity|]. intros p Hp. unfold spherical_includes, normR. do 2 f_equal. f_equal.
  set (m := map2 Rminus (sample (length o) x p) o).
  assert (Lm : length m = length o) by (unfold m; rewrite map2_length_eq; rewrite sample_length; auto).
  rewrite (list_map_nth m) at 1. rewrite map_map, Lm. apply map_ext_in. intros j Hj. apply in_seq in Hj. cbn [entry].
  rewrite bidx_last by lia. rewrite bidx_inside by (apply inside_app; auto; constructor; [lia|constructor]). cbn [hd].
  unfold m. rewrite (nth_map2 Rminus _ _ j 0 0) by (rewrite ?sample_length; lia). rewrite sample_nth by lia. reflexivity.
Qed.
Lemma batch_hc_includes h n s x : length (lb h) = n -> length (ub h) = n -> shape x = s ++ [n] ->
  exists y, b_hc_includes h x = Ok y /\ tshape y = s ++ [n] /\
    forall p, inside s p -> hc_includes h (sample n x p) = Ok (map (fun k => tentry y (p ++ [k])) (seq 0 n)).
Proof.
  intros Ll Lu Sx. unfold b_hc_includes. cbn [tvec shape]. rewrite Sx, Ll, Lu, bshape_last, bshape_last_l. cbn [bind tshape].
  rewrite bshape_same. cbn [bind]. eexists. split; [reflexivity|]. split; [reflexivity|]. intros p Hp.
  unfold hc_includes, bcast1. rewrite sample_length, Ll, Lu, Nat.eqb_refl. cbn [bind]. f_equal.
  assert (L1 : length (map2 Rleb (lb h) (sample n x p)) = n) by (rewrite map2_length_eq; rewrite ?sample_length; auto).
  assert (L2 : length (map2 Rleb (sample n x p) (ub h)) = n) by (rewrite map2_length_eq; rewrite ?sample_length; auto).
  apply nth_ext with true true.
  - rewrite map2_length_eq by congruence. rewrite map_length, seq_length. exact L1.
  - intros k Hk. assert (K : (k < n)%nat) by (rewrite map2_length_eq in Hk by congruence; lia).
    rewrite (nth_map2 andb _ _ k true true) by congruence.
    rewrite (nth_map2 Rleb _ _ k 0 0) by (rewrite ?sample_length; congruence).
    rewrite (nth_map2 Rleb _ _ k 0 0) by (rewrite ?sample_length; congruence).
    rewrite (nth_map_lt _ _ _ 0%nat) by (rewrite seq_length; auto). rewrite seq_nth by auto. cbn [Nat.add tentry].
    assert (I : inside (s ++ [n]) (p ++ [k])) by (apply inside_app; auto; constructor; [lia|constructor]).
    rewrite !(bidx_inside _ _ I). rewrite !bidx_last by auto. cbn [entry hd]. rewrite sample_nth by auto. reflexivity.
Qed.

(** ** Triangles *)
Lemma batch_triangle a b c : length a = 2%nat -> length b = 2%nat -> length c = 2%nat ->
  pointwise 2 2 (fun x => b_triangle x a b c) (fun v => flat (transform_triangle (A1 v) a b c)).
Proof.
  intros La Lb Lc s x Sx. unfold b_triangle. rewrite Sx, last_is_ok, La, Lb, Lc. cbn [bind Nat.eqb andb assert_].
  destruct (o2 a La) as (a1 & a2 & ->), (o2 b Lb) as (b1 & b2 & ->), (o2 c Lc) as (c1 & c2 & ->). cbn [map2].
  set (y := nof _).
  destruct (nbop_last Rmult y (nvec [b1 - a1; b2 - a2]) s 2) as (d1 & -> & S1 & E1); [exact Sx|reflexivity|]. cbn [bind].
  destruct (nbop_last Rmult y (nvec [c1 - a1; c2 - a2]) s 2) as (d2 & -> & S2 & E2); [exact Sx|reflexivity|]. cbn [bind].
  destruct (nbop_last_l Rplus (nvec [a1; a2]) d1 s 2) as (d3 & -> & S3 & E3); [reflexivity|exact S1|]. cbn [bind].
  destruct (nbop_same Rplus d3 d2 (s ++ [2%nat])) as (z & -> & Sz & Ez); [exact S3|exact S2|].
  exists z. split; [reflexivity|]. split; [exact Sz|]. intros p Hp. rewrite sample2. unfold point. cbn [seq map].
  rewrite !Ez by (apply inside_app; auto; repeat constructor). rewrite !E3, !E2, !E1 by (auto; lia).
  unfold y. cbn [nof nentry entry]. rewrite !removelast_last.
  cbn [nvec nof tvec nentry entry hd nth bind tmap sequence transform_triangle length Nat.eqb andb assert_ map2].
  destruct (Rlt_dec _ _); reflexivity.
Qed.

(** wrong number of coordinates *)
Lemma last_is_err n m s : m <> n -> last_is n (s ++ [m]) = Err AssertionError.
Proof.
  intros H. unfold last_is, last_dim. rewrite rev_app_distr. cbn. unfold assert_.
  rewrite (proj2 (Nat.eqb_neq m n)) by auto. reflexivity.
Qed.

(** ** Classes *)
Lemma Hypercube_inv l u h : Hypercube l u = Ok h -> length l = length u /\ h = mkHypercube l u.
Proof.
  unfold Hypercube, assert_. destruct (Nat.eqb_spec (length l) (length u)) as [L|]; [|discriminate].
  intros H. injection H as <-. auto.
Qed.
Lemma hypercube_pointwise l u h : Hypercube l u = Ok h ->
  pointwise (length l) (length l) (Hypercube_transform h) (fun v => flat (hc_transform h (A1 v))).
Proof. intros H. apply Hypercube_inv in H as (L & ->). apply batch_hypercube. exact L. Qed.
Lemma hypercube_bnd_pointwise l u h b x : Hypercube l u = Ok h -> proper_box l u -> (2 <= length l)%nat ->
  (length l = 2%nat -> b <> []) -> shape x = b ++ [(length l - 1)%nat] ->
  exists y, Hypercube_transform_bnd h x = Ok y /\ nshape y = b ++ [length l] /\
    forall p, inside b p -> point (length l) y p = flat (hc_transform_bnd h (A1 (sample (length l - 1) x p))).
Proof. intros H Hb H2 Hs Sx. apply Hypercube_inv in H as (L & ->). apply b_bnd_batch; auto. Qed.
Lemma hypercube_bnd_scalars l u h k x : Hypercube l u = Ok h -> proper_box l u -> length l = 2%nat -> shape x = [k] ->
  exists y, Hypercube_transform_bnd h x = Ok y /\ nshape y = [k; 2%nat] /\
    forall i, (i < k)%nat -> point 2 y [i] = flat (hc_transform_bnd h (A1 [entry x [i]])).
Proof. intros H Hb H2 Sx. apply Hypercube_inv in H as (L & ->). apply b_bnd_batch_2d; auto. Qed.
Lemma hypercube_bnd_ends a b h s x : Hypercube [a] [b] = Ok h -> shape x = s ++ [1%nat] ->
  exists y, Hypercube_transform_bnd h x = Ok y /\ nshape y = s ++ [1%nat] /\
    forall p, inside s p -> point 1 y p = flat (hc_transform_bnd h (A1 (sample 1 x p))).
Proof. intros H Sx. apply Hypercube_inv in H as (L & ->). apply b_bnd_batch_1d; auto. Qed.
Lemma Spherical_iff r o s : Spherical r o = Ok s <-> exists r' o', r = A0 r' /\ o = A1 o' /\ s = mkSph r' o'.
Proof.
  split.
  - unfold Spherical. destruct r, o; try discriminate. intros H. injection H as <-. eauto.
  - intros (r' & o' & -> & -> & ->). reflexivity.
Qed.
Lemma Annulus_iff r1 r2 o s : Annulus r1 r2 o = Ok s <->
  exists a b o', r1 = A0 a /\ r2 = A0 b /\ o = A1 o' /\ s = mkAnn a b o'.
Proof.
  split.
  - unfold Annulus. destruct r1, r2, o; try discriminate. intros H. injection H as <-. eauto 8.
  - intros (a & b & o' & -> & -> & -> & ->). reflexivity.
Qed.
Lemma wrong_origin_annulus b x r1 r2 o : shape x = b ++ [2%nat] -> length o <> 2%nat -> b_annulus x r1 r2 o = Err AssertionError.
Proof. intros Sx Ho. unfold b_annulus. rewrite Sx, last_is_ok. cbn [bind]. unfold assert_. rewrite (proj2 (Nat.eqb_neq _ _) Ho). reflexivity. Qed.
Lemma wrong_origin_sphere b x r o : shape x = b ++ [3%nat] -> length o <> 3%nat -> b_sphere x r o = Err AssertionError.
Proof. intros Sx Ho. unfold b_sphere. rewrite Sx, last_is_ok. cbn [bind]. unfold assert_. rewrite (proj2 (Nat.eqb_neq _ _) Ho). reflexivity. Qed.
Lemma wrong_origin_sphere_bnd b x r o : shape x = b ++ [2%nat] -> length o <> 3%nat -> b_sphere_bnd x r o = Err AssertionError.
Proof. intros Sx Ho. unfold b_sphere_bnd. rewrite Sx, last_is_ok. cbn [bind]. unfold assert_. rewrite (proj2 (Nat.eqb_neq _ _) Ho). reflexivity. Qed.
Lemma wrong_origin_circle_bnd x r o : length o <> 2%nat -> b_circle_bnd x r o = Err AssertionError.
Proof. intros Ho. unfold b_circle_bnd, assert_. rewrite (proj2 (Nat.eqb_neq _ _) Ho). reflexivity. Qed.
