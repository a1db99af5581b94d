(** Proofs: argument selection, names in strings, broadcasting of shapes, mismatching objectives. *)
From Coq Require Import String.
From Coquelicot Require Import Coquelicot.
From Verif Require Import Base BaseFacts P_Vec M_Tensor M_Calc M_Model S_Calc S_Model P_AD P_Calc P_Calc2 P_Model P_Model2 M_Domain M_Mumag.
Open Scope R_scope.

Lemma bdim_sym a b : bdim a b = bdim b a.
Proof.
  unfold bdim. destruct (Nat.eqb_spec a b), (Nat.eqb_spec b a), (Nat.eqb_spec a 1), (Nat.eqb_spec b 1); try congruence; try lia; reflexivity.
Qed.
Lemma bdim_max a b d : bdim a b = Ok d -> bdim a d = Ok d /\ bdim d d = Ok d.
Proof.
  unfold bdim. rewrite Nat.eqb_refl. destruct (Nat.eqb_spec a b), (Nat.eqb_spec a 1), (Nat.eqb_spec b 1); intros E; try discriminate; injection E as <-;
    subst; rewrite ?Nat.eqb_refl; split; try reflexivity; destruct (Nat.eqb_spec 1 b); subst; reflexivity.
Qed.
Lemma brev_sym s : forall t, bshape_rev s t = bshape_rev t s.
Proof. induction s as [|a s IH]; intros [|b t]; try reflexivity. cbn. rewrite bdim_sym, IH. reflexivity. Qed.
Lemma brev_max s : forall t r, bshape_rev s t = Ok r -> bshape_rev s r = Ok r.
Proof.
  induction s as [|a s IH]; intros t r E; [reflexivity|]. destruct t as [|b t].
  - cbn in E. injection E as <-. cbn. unfold bdim. rewrite Nat.eqb_refl. cbn [bind].
    assert (G : forall l, bshape_rev l l = Ok l) by (induction l as [|x l IHl]; [reflexivity|]; cbn; unfold bdim; rewrite Nat.eqb_refl; cbn [bind]; rewrite IHl; reflexivity).
    rewrite G. reflexivity.
  - cbn in E. apply bind_ok in E as (d & Ed & E). apply bind_ok in E as (q & Eq & E). injection E as <-.
    cbn. rewrite (proj1 (bdim_max _ _ _ Ed)). cbn [bind]. rewrite (IH _ _ Eq). reflexivity.
Qed.
Lemma bshape_sym s t : bshape s t = bshape t s.
Proof. unfold bshape. rewrite brev_sym. reflexivity. Qed.
Lemma bshape_max s t r : bshape s t = Ok r -> bshape s r = Ok r /\ bshape t r = Ok r.
Proof.
  intros E. pose proof E as E'. rewrite bshape_sym in E'. unfold bshape in *.
  apply bind_ok in E as (q & Eq & E). injection E as <-. apply bind_ok in E' as (q' & Eq' & E'). injection E' as E'.
  apply (f_equal (@rev nat)) in E'. rewrite !rev_involutive in E'. subst q'. rewrite rev_involutive, (brev_max _ _ _ Eq), (brev_max _ _ _ Eq'). split; reflexivity.
Qed.
Lemma brow n m : (n <> 0)%nat -> bshape [n; 1]%nat [m] = Ok [n; m].
Proof.
  intros _. unfold bshape. cbn. unfold bdim. destruct (Nat.eqb_spec 1 m) as [<-|]; reflexivity.
Qed.

Lemma pick_many args l is : Forall2 (fun k i => pyidx (List.length args) i k) l is -> pick args (Many l) = Ok (map (fun i => nth i args (tsc 0)) is).
Proof. exact (pick_ok args (Many l) is). Qed.
Lemma pick_one args k i : pyidx (List.length args) i k -> pick args (One k) = Ok [nth i args (tsc 0)].
Proof. intros H. apply (pick_ok args (One k) [i]). constructor; [exact H|constructor]. Qed.

Lemma names_step f c s : derivative (WStr (String c s)) ANone f =
  (g <- derivative (WSeq [SStr (String c EmptyString)]) ANone f ;; derivative (WStr s) ANone g).
Proof.
  unfold derivative. cbn [chars map List.length combine derive_all]. rewrite !map_length, !Nat.eqb_refl. cbn [assert_ bind].
  destruct (df_of f (SStr (String c EmptyString)) None); reflexivity.
Qed.

Lemma misfit1 F x v alpha vag has_aux o : shape x = shape v -> F x = Ok o ->
  (exists y, o = OVal y /\ (vag = true \/ has_aux = true)) \/ (exists y a, o = OAux y a /\ vag = false /\ has_aux = false) ->
  hvp_forward_over_reverse F x v alpha vag has_aux = Err TypeError /\ hvp_reverse_over_reverse F x v vag has_aux = Err TypeError /\
  value_grad_hvp F x vag has_aux = Err TypeError.
Proof.
  intros Sh E H. assert (G : grad_f F vag has_aux x = Err TypeError).
  { unfold grad_f, jgrad, val_part. rewrite E.
    destruct H as [(y & -> & [-> | ->])|(y & a & -> & -> & ->)]; [reflexivity|destruct vag; reflexivity|reflexivity]. }
  split; [|split].
  - unfold hvp_forward_over_reverse, jvp, grad_only. destruct (same_shapes [x] [v]); [rewrite G|]; reflexivity.
  - unfold hvp_reverse_over_reverse, jgrad, grad_only. rewrite G. reflexivity.
  - unfold value_grad_hvp. rewrite G. reflexivity.
Qed.

Lemma cuboid_volume xs ys zs c : Cuboid xs ys zs = Ok c ->
  cub_support c = (last xs 0 - hd 0 xs) * (last ys 0 - hd 0 ys) * (last zs 0 - hd 0 zs).
Proof.
  intros E. unfold Cuboid in E. apply bind_ok in E as (? & _ & E). apply bind_ok in E as (? & _ & E). apply bind_ok in E as (? & _ & E).
  cbn in E. injection E as <-. unfold cub_support, hc_support. cbn. ring.
Qed.
