(** Proofs about examples/mumag3.py, part 1: rotation, constructor, geometry. *)
From Coquelicot Require Import Coquelicot.
From Verif Require Import Base BaseFacts P_Vec M_Quat M_RFun M_Domain M_Tensor M_Calc M_Integrate M_Surface M_Mumag.
From Verif Require Import S_Calc S_Integrate S_Surface S_Mumag.

Tactic Notation "three" ident(x) ident(a) ident(b) ident(c) := destruct x as [|a [|b [|c [|? ?]]]]; try discriminate.

(** ** rotation *)
Definition cayley_value (p x : list R) : list R :=
  let n := dotR p p in
  times (/ (1 + n)) (plus (plus (times (1 - n) x) (times (2 * dotR p x) p)) (times 2 (vec_prod p x))).

Lemma dot3_pos a b c : 0 < 1 + (a * a + (b * b + (c * c + 0))).
Proof. pose proof (Rle_0_sqr a). pose proof (Rle_0_sqr b). pose proof (Rle_0_sqr c). unfold Rsqr in *. lra. Qed.

Lemma cayley_ok p x : length p = 3%nat -> length x = 3%nat -> cayley_rotation p x = Ok (cayley_value p x).
Proof.
  intros Hp Hx. three p r r0 r1. three x x0 x1 x2. unfold cayley_rotation. cbn [length Nat.eqb assert_ bind].
  pose proof (dot3_pos r r0 r1) as Q.
  unfold solve3, det3, dot3, cross3, col, skew, eye. cbn [v1 v2 v3 Nat.eqb nth seq map sumR fold_right].
  unfold fdiv.
  match goal with |- context [Req_EM_T ?d 0] => assert (E : d <> 0); [|destruct (Req_EM_T d 0) as [E'|_]; [contradiction|]] end.
  { match goal with |- ?d <> 0 => replace d with (1 + (r * r + (r0 * r0 + (r1 * r1 + 0)))) by ring end. lra. }
  cbn [bind v1 v2 v3]. f_equal.
  unfold cayley_value, times, plus, vec_prod, dotR, sumR. cbn [map map2 fold_right nth].
  repeat (f_equal; try (field; repeat split; lra)).
Qed.

Ltac cons3 tac := f_equal; [tac|f_equal; [tac|f_equal; tac]].
Ltac lists3 := unfold cayley_value, times, plus, vec_prod, dotR, sumR; cbn [map map2 fold_right nth length].
Lemma cayley_length p x : length p = 3%nat -> length x = 3%nat -> length (cayley_value p x) = 3%nat.
Proof. intros Hp Hx. three p p0 p1 p2. three x x0 x1 x2. reflexivity. Qed.

Lemma cayley_eqn p x : length p = 3%nat -> length x = 3%nat ->
  plus (cayley_value p x) (times (-1) (vec_prod p (cayley_value p x))) = plus x (vec_prod p x).
Proof.
  intros Hp Hx. three p p0 p1 p2. three x x0 x1 x2. pose proof (dot3_pos p0 p1 p2). lists3.
  repeat (f_equal; try (field; lra)).
Qed.
Lemma cayley_unique p x y : length p = 3%nat -> length x = 3%nat -> length y = 3%nat ->
  plus y (times (-1) (vec_prod p y)) = plus x (vec_prod p x) -> y = cayley_value p x.
Proof.
  intros Hp Hx Hy. three p p0 p1 p2. three x x0 x1 x2. three y y0 y1 y2. pose proof (dot3_pos p0 p1 p2) as P. lists3.
  intros H. injection H as H1 H2 H3.
  set (b0 := x0 + (p1 * x2 - p2 * x1)) in *. set (b1 := x1 + (p2 * x0 - p0 * x2)) in *.
  set (b2 := x2 + (p0 * x1 - p1 * x0)) in *.
  assert (E0 : (1 + (p0 * p0 + (p1 * p1 + (p2 * p2 + 0)))) * y0 =
               b0 + (p1 * b2 - p2 * b1) + p0 * (p0 * b0 + p1 * b1 + p2 * b2)).
  { rewrite <- H1, <- H2, <- H3. ring. }
  assert (E1 : (1 + (p0 * p0 + (p1 * p1 + (p2 * p2 + 0)))) * y1 =
               b1 + (p2 * b0 - p0 * b2) + p1 * (p0 * b0 + p1 * b1 + p2 * b2)).
  { rewrite <- H1, <- H2, <- H3. ring. }
  assert (E2 : (1 + (p0 * p0 + (p1 * p1 + (p2 * p2 + 0)))) * y2 =
               b2 + (p0 * b1 - p1 * b0) + p2 * (p0 * b0 + p1 * b1 + p2 * b2)).
  { rewrite <- H1, <- H2, <- H3. ring. }
  cons3 ltac:(apply (Rmult_eq_reg_l (1 + (p0 * p0 + (p1 * p1 + (p2 * p2 + 0))))); [|lra];
    rewrite ?E0, ?E1, ?E2; unfold b0, b1, b2; field; lra).
Qed.
Lemma cayley_dot p x y : length p = 3%nat -> length x = 3%nat -> length y = 3%nat ->
  dotR (cayley_value p x) (cayley_value p y) = dotR x y.
Proof.
  intros Hp Hx Hy. three p p0 p1 p2. three x x0 x1 x2. three y y0 y1 y2. pose proof (dot3_pos p0 p1 p2) as P. lists3.
  field. lra.
Qed.
Lemma cayley_vec_prod p x y : length p = 3%nat -> length x = 3%nat -> length y = 3%nat ->
  cayley_value p (vec_prod x y) = vec_prod (cayley_value p x) (cayley_value p y).
Proof.
  intros Hp Hx Hy. three p p0 p1 p2. three x x0 x1 x2. three y y0 y1 y2. pose proof (dot3_pos p0 p1 p2) as P. lists3.
  cons3 ltac:(field; lra).
Qed.
Lemma cayley_linear p x y a b : length p = 3%nat -> length x = 3%nat -> length y = 3%nat ->
  cayley_value p (plus (times a x) (times b y)) = plus (times a (cayley_value p x)) (times b (cayley_value p y)).
Proof.
  intros Hp Hx Hy. three p p0 p1 p2. three x x0 x1 x2. three y y0 y1 y2. pose proof (dot3_pos p0 p1 p2) as P. lists3.
  cons3 ltac:(field; lra).
Qed.
Lemma cayley_axis p : length p = 3%nat -> cayley_value p p = p.
Proof. intros Hp. three p p0 p1 p2. pose proof (dot3_pos p0 p1 p2) as P. lists3. cons3 ltac:(field; lra). Qed.
Lemma cayley_inverse p x : length p = 3%nat -> length x = 3%nat -> cayley_value (times (-1) p) (cayley_value p x) = x.
Proof.
  intros Hp Hx. three p p0 p1 p2. three x x0 x1 x2. pose proof (dot3_pos p0 p1 p2) as P. lists3.
  cons3 ltac:(field; repeat split; nra).
Qed.
Lemma half_angle t : cos (t / 2) <> 0 ->
  (1 - tan (t / 2) ^ 2) = cos t * (1 + tan (t / 2) ^ 2) /\ 2 * tan (t / 2) = sin t * (1 + tan (t / 2) ^ 2) /\
  2 * tan (t / 2) ^ 2 = (1 - cos t) * (1 + tan (t / 2) ^ 2).
Proof.
  intros H. assert (Ct : cos t = 2 * cos (t / 2) * cos (t / 2) - 1).
  { replace t with (2 * (t / 2)) at 1 by field. apply cos_2a_cos. }
  assert (St : sin t = 2 * sin (t / 2) * cos (t / 2)).
  { replace t with (2 * (t / 2)) at 1 by field. apply sin_2a. }
  rewrite Ct, St. unfold tan. set (u := t / 2) in *. pose proof (sin2_cos2 u) as P. unfold Rsqr in P.
  assert (T : (sin u / cos u) ^ 2 = / (cos u * cos u) - 1).
  { replace ((sin u / cos u) ^ 2) with (sin u * sin u / (cos u * cos u)) by (field; auto).
    replace (sin u * sin u) with (1 - cos u * cos u) by lra. field; auto. }
  rewrite T. repeat split; field; auto.
Qed.
Lemma cayley_angle n x t : length n = 3%nat -> length x = 3%nat -> dotR n n = 1 -> cos (t / 2) <> 0 ->
  cayley_value (times (tan (t / 2)) n) x =
  plus (plus (times (cos t) x) (times (sin t) (vec_prod n x))) (times ((1 - cos t) * dotR n x) n).
Proof.
  intros Hn Hx H1 Hc. destruct (half_angle t Hc) as (A & B & C). set (k := tan (t / 2)) in *.
  three n n0 n1 n2. three x x0 x1 x2. unfold dotR, sumR in H1. cbn [map2 fold_right] in H1. lists3.
  assert (E : k * n0 * (k * n0) + (k * n1 * (k * n1) + (k * n2 * (k * n2) + 0)) = k ^ 2)
    by (replace (k ^ 2) with (k ^ 2 * (n0 * n0 + (n1 * n1 + (n2 * n2 + 0)))) by (rewrite H1; ring); ring).
  rewrite E. assert (P : 1 + k ^ 2 <> 0) by (pose proof (pow2_ge_0 k); lra).
  assert (G : forall X D N V, (1 - k ^ 2) * X + 2 * (k * D) * (k * N) + 2 * (k * V)
                              = (1 + k ^ 2) * (cos t * X + sin t * V + (1 - cos t) * D * N)).
  { intros. replace ((1 - k ^ 2) * X + 2 * (k * D) * (k * N) + 2 * (k * V))
      with ((1 - k ^ 2) * X + (2 * k ^ 2) * D * N + (2 * k) * V) by ring. rewrite A, B, C. ring. }
  set (D := n0 * x0 + (n1 * x1 + (n2 * x2 + 0))).
  replace (k * n0 * x0 + (k * n1 * x1 + (k * n2 * x2 + 0))) with (k * D) by (unfold D; ring).
  replace (k * n1 * x2 - k * n2 * x1) with (k * (n1 * x2 - n2 * x1)) by ring.
  replace (k * n2 * x0 - k * n0 * x2) with (k * (n2 * x0 - n0 * x2)) by ring.
  replace (k * n0 * x1 - k * n1 * x0) with (k * (n0 * x1 - n1 * x0)) by ring.
  rewrite !G. cons3 ltac:(rewrite <- Rmult_assoc, Rinv_l, Rmult_1_l by exact P; reflexivity).
Qed.
