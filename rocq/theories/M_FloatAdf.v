(** Model of cuboid, translate and sphere of magpi/r_fun.py with rounded arithmetic
    (definitions only): every operation rounds its exact result with rnd, the exponents are
    not bounded, and no operations are fused. *)
From Coq Require Import Permutation.
From Flocq.IEEE754 Require Import BinarySingleNaN Binary Bits.
From Verif Require Import Base M_RFun M_Float.

(** r_fun.py:201-236 cuboid with the default [r_system=r0] *)
Definition rounded_cuboid (rnd : R -> R) (edge_lengths : arr) (centering : bool) : adf :=
  let sub a b := rnd (a - b) in
  let lb := if centering then amap (fun e => rnd (- e / 2)) edge_lengths
            else amap (fun _ => 0) edge_lengths in
  let ub := if centering then amap (fun e => rnd (e / 2)) edge_lengths else edge_lengths in
  M_RFun.compose (conj_ (r0_rounded rnd))
    [fun x => a <- bop sub ub x ;;
              b <- bop sub x lb ;;
              s <- interleave (ravel a) (ravel b) ;; Ok (A1 s)].

(** r_fun.py:325-339 translate *)
Definition rounded_translate (rnd : R -> R) (f : adf) (y : arr) : adf := fun x =>
  d <- bop (fun a b => rnd (a - b)) x y ;; f d.

(** The sum of the entries of an array, added in any order. *)
Inductive rounded_sum (rnd : R -> R) : list R -> R -> Prop :=
| sum_nil : rounded_sum rnd [] 0
| sum_one x : rounded_sum rnd [x] x
| sum_split l l1 l2 a b : Permutation l (l1 ++ l2) -> l1 <> [] -> l2 <> [] ->
    rounded_sum rnd l1 a -> rounded_sum rnd l2 b -> rounded_sum rnd l (rnd (a + b)).
(** r_fun.py:273 sphere: v is a possible value of [(r**2 - norm(x)**2) / (2 * r)]; r is a
    number of the dtype of x *)
Definition rounded_sphere (rnd : R -> R) (r : R) (x : list R) (v : R) : Prop :=
  exists s, rounded_sum rnd (map (fun a => rnd (a * a)) x) s /\
    let n := rnd (sqrt s) in
    v = rnd (rnd (rnd (r * r) - rnd (n * n)) / rnd (2 * r)).

(** The same in float32 for three coordinates, added from the left. *)
Definition div32 : f32 -> f32 -> f32 := b32_div mode_NE.
Definition sphere32 (r x1 x2 x3 : f32) : f32 :=
  let n := sqrt32 (add32 (add32 (mul32 x1 x1) (mul32 x2 x2)) (mul32 x3 x3)) in
  div32 (sub32 (mul32 r r) (mul32 n n)) (mul32 two32 r).
