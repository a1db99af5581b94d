(** Model of forward and reverse mode differentiation of magpi/spline.py:6-41
    (definitions only).  [jax.jvp] replaces every number by a pair (value, tangent); nested
    calls nest the pairs.  [jnp.where] selects the value and the tangent of the branch that
    the values choose, comparisons have no tangent.  [jax.vjp] runs backwards: the branch
    of [jnp.where] that was not chosen gets the cotangent 0, and the cotangent is still
    propagated through it. *)
From Verif Require Import Base M_Spline.

(** Numbers as the traced program sees them. *)
Record num := mkNum {
  car : Type;
  const : R -> car;
  value : car -> R;
  nadd : car -> car -> car;
  nsub : car -> car -> car;
  nmul : car -> car -> car;
  ndiv : car -> car -> car }.

Definition real_num : num := mkNum R (fun a => a) (fun a => a) Rplus Rminus Rmult Rdiv.

(** One level of jax.jvp: the rules of lax.add, lax.sub, lax.mul and lax.div. *)
Definition dual (A : num) : num := mkNum (car A * car A)
  (fun a => (const A a, const A 0))
  (fun a => value A (fst a))
  (fun a b => (nadd A (fst a) (fst b), nadd A (snd a) (snd b)))
  (fun a b => (nsub A (fst a) (fst b), nsub A (snd a) (snd b)))
  (fun a b => (nmul A (fst a) (fst b), nadd A (nmul A (snd a) (fst b)) (nmul A (fst a) (snd b))))
  (fun a b => (ndiv A (fst a) (fst b),
               nsub A (ndiv A (snd a) (fst b)) (ndiv A (nmul A (snd b) (fst a)) (nmul A (fst b) (fst b))))).

(** n nested calls *)
Fixpoint tower (n : nat) : num := match n with O => real_num | S m => dual (tower m) end.

(** t[..., i] as in [node] *)
Definition gnode (A : num) (t : list (car A)) (i : nat) : car A := nth (Nat.min i (length t - 1)) t (const A 0).

(** spline.py:6-20 _base_fun on such numbers *)
Fixpoint base_num (A : num) (x : car A) (k i : nat) (t : list (car A)) : car A :=
  match k with
  | O => if andb (Rleb (value A (gnode A t i)) (value A x)) (Rltb (value A x) (value A (gnode A t (i + 1))))
         then const A 1 else const A 0
  | S k' =>
      let c1 := if Reqb (value A (gnode A t (i + k))) (value A (gnode A t i)) then const A 0
                else nmul A (ndiv A (nsub A x (gnode A t i)) (nsub A (gnode A t (i + k)) (gnode A t i))) (base_num A x k' i t) in
      let c2 := if Reqb (value A (gnode A t (i + k + 1))) (value A (gnode A t (i + 1))) then const A 0
                else nmul A (ndiv A (nsub A (gnode A t (i + k + 1)) x) (nsub A (gnode A t (i + k + 1)) (gnode A t (i + 1))))
                       (base_num A x k' (i + 1) t) in
      nadd A c1 c2
  end.

(** spline.py:40-41 basis on such numbers *)
Definition basis_num (A : num) (x : car A) (grid : list (car A)) (degree : nat) : res (list (car A)) :=
  match grid with
  | [] => Err TypeError
  | _ => Ok (map (fun i => base_num A x degree i grid) (seq 0 (length grid - degree - 1)))
  end.

(** jvp of basis in the direction (dx, dgrid) *)
Definition basis_jvp (x dx : R) (grid dgrid : list R) (degree : nat) : res (list (R * R)) :=
  basis_num (dual real_num) (x, dx) (combine grid dgrid) degree.

(** n nested derivatives with respect to the input x: x is seeded with tangent 1 on every
    level, the grid is constant, and the last tangent is taken. *)
Fixpoint seed (n : nat) (x : R) : car (tower n) :=
  match n as n0 return car (tower n0) with O => x | S m => (seed m x, const (tower m) 1) end.
Fixpoint top (n : nat) : car (tower n) -> R :=
  match n as n0 return car (tower n0) -> R with O => fun a => a | S m => fun a => top m (snd a) end.
Definition basis_deriv (n : nat) (x : R) (grid : list R) (degree : nat) : res (list R) :=
  b <- basis_num (tower n) (seed n x) (map (const (tower n)) grid) degree ;; Ok (map (top n) b).

(** Cotangents of the input and of the grid entries; Err NonFinite is an entry that is
    nan or infinite. *)
Definition cotan := (res R * (nat -> res R))%type.
Definition radd (a b : res R) : res R := a <- a ;; b <- b ;; Ok (a + b).
Definition rneg (a : res R) : res R := a <- a ;; Ok (- a).
Definition ct_add (a b : cotan) : cotan := (radd (fst a) (fst b), fun j => radd (snd a j) (snd b j)).
Definition ct_zero : cotan := (Ok 0, fun _ => Ok 0).
(** the transpose of reading x, and of t[..., i] *)
Definition to_x (c : res R) : cotan := (c, fun _ => Ok 0).
Definition to_node (t : list R) (i : nat) (c : res R) : cotan :=
  (Ok 0, fun j => if Nat.eqb j (Nat.min i (length t - 1)) then c else Ok 0).

(** lax.div a b with cotangent ct: ct / b for a and - ct * a / b^2 for b *)
Definition div_num (ct : res R) (b : R) : res R := c <- ct ;; fdiv c b.
Definition div_den (ct : res R) (a b : R) : res R := c <- ct ;; q <- fdiv (c * a) (b * b) ;; Ok (- q).
(** lax.mul a b with cotangent ct, for the factor b: ct * a, where a can be non-finite *)
Definition mul_ct (ct : res R) (a : res R) : res R := c <- ct ;; a <- a ;; Ok (c * a).

(** spline.py:6-20 _base_fun backwards, cotangent ct of the result *)
Fixpoint base_rev (x : R) (k i : nat) (t : list R) (ct : res R) : cotan :=
  match k with
  | O => ct_zero
  | S k' =>
      let branch (same : bool) (num den : R) (i' : nat) (num_ct den_ct : res R -> cotan) :=
        let ct := if same then Ok 0 else ct in
        let ct_q := mul_ct ct (Ok (base_fun x k' i' t)) in
        ct_add (num_ct (div_num ct_q den))
          (ct_add (den_ct (div_den ct_q num den))
             (base_rev x k' i' t (mul_ct ct (fdiv num den)))) in
      let a := node t i in let b := node t (i + k) in
      let a' := node t (i + 1) in let b' := node t (i + k + 1) in
      ct_add
        (branch (Reqb b a) (x - a) (b - a) i
           (fun c => ct_add (to_x c) (to_node t i (rneg c)))
           (fun c => ct_add (to_node t (i + k) c) (to_node t i (rneg c))))
        (branch (Reqb b' a') (b' - x) (b' - a') (i + 1)%nat
           (fun c => ct_add (to_node t (i + k + 1) c) (to_x (rneg c)))
           (fun c => ct_add (to_node t (i + k + 1) c) (to_node t (i + 1) (rneg c))))
  end.

(** spline.py:40-41 basis backwards, with one cotangent per basis function; the
    contributions of the vmapped calls are added. *)
Definition basis_vjp (x : R) (grid : list R) (degree : nat) (cts : list R) : res cotan :=
  match grid with
  | [] => Err TypeError
  | _ => let n := (length grid - degree - 1)%nat in
         if Nat.eqb (length cts) n
         then Ok (fold_right ct_add ct_zero (map (fun i => base_rev x degree i grid (Ok (nth i cts 0))) (seq 0 n)))
         else Err ValueError
  end.
