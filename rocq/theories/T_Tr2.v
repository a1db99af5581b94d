(** Properties C100, C101: how long the trust region solver runs. *)
From Verif Require Import Base BaseFacts M_Tree M_XR M_Tr S_Tr P_Tr1 P_Tr7.

(** half the square of one number *)
Definition ex_sq : objective unit :=
  mkObj (fun t => match t with [[Fin x]] => (Fin (x * x / 2), tt, [[Fin x]]) | _ => (NaN, tt, t) end) (fun _ d => d).
Definition ex_F (t : tree) : R := match t with [[x]] => x * x / 2 | _ => 0 end.

(** ** C100 *)
Theorem tr_stops A c (f : objective A) sh F G h B L n x p xs : smooth_problem c f sh F G h B -> progress_options c -> 0 < B -> bounded_below F sh L ->
  shape x = sh -> (forall s, p = Some s -> tr_radius s <= max_tr_radius c) ->
  tr_run c f n (fin x, init_state c f (fin x) p) = Ok xs -> tr_budget c B (F x - L) < INR n ->
  tr_converged c (snd xs) \/ tr_radius (snd xs) <= min_tr_radius c.
Proof.
  intros HP HO HB HL Sx Hp HR HN. destruct (stops_lemma c f sh F G h B HP HO HB L HL n x p xs Sx Hp HR HN) as (x' & _ & HI & [HS|HS]); [|auto].
  left. exists (tnorm (G x')). split; auto. apply (describes_error c f sh F G h B HP); apply HI.
Qed.
Print Assumptions tr_stops.

(** ** C101 *)
Theorem tr_converges A c (f : objective A) sh F G h B L M n x p xs : smooth_problem c f sh F G h B -> progress_options c -> 0 < B -> bounded_below F sh L ->
  0 <= M -> descent_bound F G sh M -> rho_decrease c < 1 ->
  min_tr_radius c < init_tr_radius c ->
  min_tr_radius c < decrease_factor c * (tol c * Rmin (/ (B + damping c)) ((1 - rho_decrease c) / (M + B))) ->
  shape x = sh -> (forall s, p = Some s -> tr_radius s <= max_tr_radius c) ->
  tr_run c f n (fin x, init_state c f (fin x) p) = Ok xs -> tr_budget c B (F x - L) < INR n ->
  exists x', fst xs = fin x' /\ shape x' = sh /\ error (snd xs) = Fin (tnorm (G x')) /\ tnorm (G x') < tol c.
Proof.
  exact (fun HP HO HB HL HM HD Hrd Hi Hs Sx Hp HR HN => converges_lemma c f sh F G h B HP HO HB M HM HD Hrd L n x p xs HL Sx Hp Hi Hs HR HN).
Qed.
Print Assumptions tr_converges.

Lemma sq_smooth : smooth_problem default_tr ex_sq [1%nat] ex_F (fun x => x) (fun _ d => d) 1.
Proof.
  intros x Sx. destruct x as [|[|x [|? ?]] [|? ?]]; try discriminate. split.
  - split; [exists tt; reflexivity|]. split; [reflexivity|]. split; [intros d Sd; split; auto|]. split; [intros u v a _ _; auto|intros u v _ _; auto].
  - intros p _. pose proof (tdot_nonneg p). rewrite Rabs_pos_eq; lra.
Qed.
Lemma default_progress : progress_options default_tr.
Proof. unfold progress_options, good_radii, default_tr. simpl. repeat split; try lra; try discriminate. Qed.
Example tr_converges_meets : smooth_problem default_tr ex_sq [1%nat] ex_F (fun x => x) (fun _ d => d) 1 /\ progress_options default_tr /\
  bounded_below ex_F [1%nat] 0 /\ descent_bound ex_F (fun x => x) [1%nat] 1 /\ rho_decrease default_tr < 1 /\ min_tr_radius default_tr < init_tr_radius default_tr /\
  min_tr_radius default_tr < decrease_factor default_tr * (tol default_tr * Rmin (/ (1 + damping default_tr)) ((1 - rho_decrease default_tr) / (1 + 1))) /\
  ~ tr_converged default_tr (init_state default_tr ex_sq (fin [[3]]) None).
Proof.
  split; [apply sq_smooth|]. split; [apply default_progress|]. split.
  { intros x Sx. destruct x as [|[|x [|? ?]] [|? ?]]; try discriminate. simpl. nra. }
  split.
  { intros x p Sx Sp. destruct x as [|[|x [|? ?]] [|? ?]]; try discriminate. destruct p as [|[|p [|? ?]] [|? ?]]; try discriminate.
    unfold tdot, dotR. cbn. lra. }
  split; [simpl; lra|]. split; [simpl; lra|]. split.
  { unfold damping. simpl. unfold Rmin. destruct (Rle_dec _ _); lra. }
  intros (e & E & He). change (error (init_state default_tr ex_sq (fin [[3]]) None)) with (xt_norm (fin [[3]])) in E. rewrite xt_norm_fin in E.
  injection E as <-. unfold tnorm, tdot, dotR in He. cbn in He. replace (3 * 3 + 0) with (3 * 3) in He by ring. rewrite sqrt_square in He; lra.
Qed.
