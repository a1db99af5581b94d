(** Property C132: boxes and balls with rounded arithmetic. *)
From Flocq.IEEE754 Require Import Binary Bits.
From Flocq Require Import Core.
From Verif Require Import Base M_RFun S_RFun M_Float S_Float P_Float3 M_FloatAdf S_FloatAdf P_FloatAdf.
Open Scope R_scope.

(** ** C132 *)
Theorem rounded_cuboid_never_wrong : forall prec rnd e c x, (4 <= prec)%Z -> nearest prec rnd ->
  x <> [] -> length e = length x -> Forall (is_float prec) e ->
  exists v, rounded_cuboid rnd (A1 e) c (A1 x) = Ok v /\ is_float prec v /\
    (0 < v -> strictly_inside (lower c e) (upper c e) x) /\
    (v < 0 -> ~ inside_closed (lower c e) (upper c e) x).
Proof. exact (fun prec rnd e c x Hp H => cuboid_rounded_gen prec Hp rnd H e c x). Qed.
Print Assumptions rounded_cuboid_never_wrong.

(** one translation, by any vector *)
Theorem rounded_shifted_cuboid_never_wrong : forall prec rnd e c y x, (4 <= prec)%Z -> nearest prec rnd ->
  x <> [] -> length e = length x -> length y = length x -> Forall (is_float prec) e ->
  exists v, rounded_translate rnd (rounded_cuboid rnd (A1 e) c) (A1 y) (A1 x) = Ok v /\ is_float prec v /\
    (0 < v -> strictly_inside (lower c e) (upper c e) (map2 Rminus x y)) /\
    (v < 0 -> ~ inside_closed (lower c e) (upper c e) (map2 Rminus x y)).
Proof. exact (fun prec rnd e c y x Hp H => shifted_box prec Hp rnd H e c y x). Qed.
Print Assumptions rounded_shifted_cuboid_never_wrong.

(** all nestings of the set operations over translated boxes (edges, centering, shift) *)
Theorem rounded_boxes_never_wrong : forall prec rnd boxes e x, (4 <= prec)%Z -> nearest prec rnd -> x <> [] ->
  (forall i : nat, let '(l, c, y) := boxes i in length l = length x /\ length y = length x /\ Forall (is_float prec) l) ->
  never_lies prec
    (M_Float.compose (r0_rounded rnd)
       (fun i => let '(l, c, y) := boxes i in rounded_translate rnd (rounded_cuboid rnd (A1 l) c) (A1 y)) e)
    (member (fun i p => exists q, p = A1 q /\
       let '(l, c, y) := boxes i in strictly_inside (lower c l) (upper c l) (map2 Rminus q y)) e) (A1 x).
Proof. exact boxes_compose. Qed.
Print Assumptions rounded_boxes_never_wrong.

(** The ball: full statement as for the box (a positive value means inside).  It holds up to
    a relative error of about n + 2 units in the last place, in whatever order the squares are
    added, and not without it. *)
Theorem rounded_sphere_sign_partial : forall prec rnd r x v, (4 <= prec)%Z -> nearest prec rnd ->
  0 < r -> x <> [] -> rounded_sphere rnd r x v ->
  let u := powerRZ 2 (- prec) in
  let n := length x in
  (0 < v -> (1 - u) ^ (n + 2) * dist2 x < r ^ 2) /\
  (v < 0 -> r ^ 2 < (1 + u) ^ (n + 2) * dist2 x) /\
  ((1 + u) ^ (n + 3) * dist2 x < (1 - u) * r ^ 2 -> 0 < v) /\
  ((1 + u) * r ^ 2 < (1 - u) ^ (n + 3) * dist2 x -> v < 0).
Proof. exact sphere_signs'. Qed.
Print Assumptions rounded_sphere_sign_partial.

Theorem rounded_sphere_defined : forall rnd r x, exists v, rounded_sphere rnd r x v.
Proof. exact sphere_exists. Qed.
Print Assumptions rounded_sphere_defined.

Theorem float32_sphere_sign_refuted : exists r : binary32, moderate32 r /\ 0 < B2R 24 128 r /\
  (exists x y z, moderate32 x /\ moderate32 y /\ moderate32 z /\
     B2R 24 128 r ^ 2 < dist2 [B2R 24 128 x; B2R 24 128 y; B2R 24 128 z] /\ 0 < B2R 24 128 (sphere32 r x y z)) /\
  (exists x y z, moderate32 x /\ moderate32 y /\ moderate32 z /\
     dist2 [B2R 24 128 x; B2R 24 128 y; B2R 24 128 z] < B2R 24 128 r ^ 2 /\ B2R 24 128 (sphere32 r x y z) < 0).
Proof. exact ball_lies. Qed.
Print Assumptions float32_sphere_sign_refuted.

(** rounding to 24 bits is such a rounding; a box with edges 1 and 3/4, and a point inside it *)
Example rounded_box_case : nearest 24 (round radix2 (FLX_exp 24) ZnearestE) /\ Forall (is_float 24) [1; 3 / 4] /\
  strictly_inside (lower true [1; 3 / 4]) (upper true [1; 3 / 4]) [1 / 4; - 1 / 4].
Proof. exact rounded_box_example. Qed.
