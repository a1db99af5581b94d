(** Model of magpi/domain.py (definitions only).  Samples are single points
    (arrays of shape () or (n,)); where the code treats batches differently from a
    pointwise map (the two normal_vec methods) the batch version is modelled too. *)
From Verif Require Import Base.

(** *** Hypercube *)
Record hypercube := mkHypercube { lb : list R; ub : list R }.

(** domain.py:27-34 the dataclass constructor with __post_init__ *)
Definition Hypercube (l u : list R) : res hypercube :=
  _ <- assert_ (Nat.eqb (length l) (length u)) ;; Ok (mkHypercube l u).

(** domain.py:36-38 support *)
Definition hc_support (h : hypercube) : R := prodR (map2 Rminus (ub h) (lb h)).

(** domain.py:40-42 includes: an elementwise (broadcast) boolean array *)
Definition hc_includes (h : hypercube) (sample : list R) : res (list bool) :=
  a <- bcast1 Rleb (lb h) sample ;;
  b <- bcast1 Rleb sample (ub h) ;;
  Ok (map2 andb a b).

(** domain.py:207 [where(x > 1.0, x % 1.0, x)] *)
Definition wrap1 (x : R) : R := if Rlt_dec 1 x then mod1 x else x.

(** domain.py:206-208 transform_hypercube *)
Definition transform_hypercube (x : arr) (l u : list R) : res arr :=
  w <- bop Rminus (A1 u) (A1 l) ;;
  p <- bop Rmult (amap wrap1 x) w ;;
  bop Rplus p (A1 l).

(** domain.py:44-46 *)
Definition hc_transform (h : hypercube) (x : arr) : res arr := transform_hypercube x (lb h) (ub h).

(** numpy helpers: delete entry i, insert before position i, cumulative sums,
    argmax of the boolean array [x < c] (index of the first True, 0 if there is none) *)
Definition del {A} (i : nat) (l : list A) : list A := firstn i l ++ skipn (S i) l.
Definition insert_at {A} (i : nat) (v : A) (l : list A) : list A := firstn i l ++ v :: skipn i l.
Fixpoint cumsum_from (acc : R) (l : list R) : list R :=
  match l with [] => [] | x :: t => (acc + x) :: cumsum_from (acc + x) t end.
Definition cumsum (l : list R) : list R := cumsum_from 0 l.
Fixpoint find_true (l : list bool) : option nat :=
  match l with
  | [] => None
  | true :: _ => Some O
  | false :: t => option_map S (find_true t)
  end.
Definition argmax (l : list bool) : nat := match find_true l with Some i => i | None => O end.

(** domain.py:227-231 insert_rules.support(i): product of the other edge lengths *)
Definition face_supports (l u : list R) : list R :=
  let b := map2 (fun x y => Rabs (x - y)) u l in
  map (fun i => prodR (del i b)) (seq 0 (length b)).
(** domain.py:233-237 insert_rules: normalized supports, their cumulative sums, the
    inserted values *)
Definition insert_rules (l u : list R) : res (list R * list R * list R) :=
  let s := face_supports l u ++ face_supports l u in
  let total := sumR s in
  cum <- sequence (map (fun c => fdiv c total) (cumsum s)) ;;
  sup <- sequence (map (fun c => fdiv c total) s) ;;
  Ok (sup, cum, repeat 0 (length l) ++ repeat 1 (length l)).

(** domain.py:241-249 insert *)
Definition bnd_insert (dim : nat) (sup cum vals : list R) (x : list R) : res (list R) :=
  match x with
  | [] => Err IndexError
  | x0 :: _ =>
      let i := argmax (map (Rltb x0) cum) in
      let l := nth i sup 0 in
      x0' <- (if Nat.eqb i 0 then fdiv x0 l else fdiv (x0 - nth (i - 1) cum 0) l) ;;
      Ok (insert_at (i mod dim) (nth i vals 0) (upd x 0 x0'))
  end.

(** domain.py:211-253 transform_hypercube_bnd, for one sample.  For dim = 1 the
    result is lb or ub; for dim = 2 a scalar sample stands for a one-element one
    (for dim = 2 the code treats a longer 1-d array as a batch of scalar samples). *)
Definition transform_hypercube_bnd (x : arr) (l u : list R) : res arr :=
  _ <- assert_ (Nat.eqb (length l) (length u)) ;;
  let dim := length l in
  let x := amap mod1 x in
  if Nat.eqb dim 1 then
    transform_hypercube (amap (fun e => if Rlt_dec (1 / 2) e then 1 else 0) x) l u
  else
    _ <- assert_ (Nat.eqb (length (ravel x)) (dim - 1)) ;;
    r <- insert_rules l u ;;
    let '(sup, cum, vals) := r in
    y <- bnd_insert dim sup cum vals (ravel x) ;;
    transform_hypercube (A1 y) l u.

(** domain.py:48-50 *)
Definition hc_transform_bnd (h : hypercube) (x : arr) : res arr :=
  transform_hypercube_bnd x (lb h) (ub h).

(** jnp.isclose(a, b, rtol, atol) for finite numbers *)
Definition isclose (rtol atol a b : R) : bool := Rleb (Rabs (a - b)) (atol + rtol * Rabs b).

(** domain.py:62-69: 1.0 at the first coordinate that is close to the bound, 0.0 elsewhere *)
Definition b2R (b : bool) : R := if b then 1 else 0.
Definition first_only (l : list R) : list R :=
  map2 (fun c v => if Rlt_dec 1 c then 0 else v) (cumsum l) l.
(** domain.py:70 n = on_ub - on_lb of one sample *)
Definition hc_normal (h : hypercube) (rtol atol : R) (x : list R) : list R :=
  let on_lb := first_only (map b2R (map2 (isclose rtol atol) x (lb h))) in
  let on_ub := first_only (map b2R (map2 (isclose rtol atol) x (ub h))) in
  map2 Rminus on_ub on_lb.
(** domain.py:55-59 in_domain of one sample *)
Definition hc_in_domain (h : hypercube) (rtol atol : R) (x : list R) : bool :=
  forallb (fun b => b) (map2 (fun a l => Rltb (l - (atol + rtol * Rabs l)) a) x (lb h)) &&
  forallb (fun b => b) (map2 (fun a u => Rltb a (u + (atol + rtol * Rabs u))) x (ub h)).
(** domain.py:52-74 normal_vec for a batch of samples (each of the dimension of the
    box): [any] over the batch, then [all] over the batch *)
Definition hc_normal_vec_batch (h : hypercube) (rtol atol : R) (xs : list (list R)) : option (list (list R)) :=
  if existsb (hc_in_domain h rtol atol) xs then
    let ns := map (hc_normal h rtol atol) xs in
    if forallb (fun n => Reqb (normR n) 1) ns then Some ns else None
  else None.
(** domain.py:52-74 for a single sample *)
Definition hc_normal_vec (h : hypercube) (rtol atol : R) (x : list R) : option (list R) :=
  if hc_in_domain h rtol atol x then
    let n := hc_normal h rtol atol x in
    if Reqb (normR n) 1 then Some n else None
  else None.

(** *** Parallelogram *)
(** 3x3 systems by Cramer's rule; stands for jaxopt.linear_solve.solve_lu, which
    returns the solution of a regular linear system. *)
Definition det3 (m1 m2 m3 : vec3) : R := dot3 m1 (cross3 m2 m3).
Definition col (f : vec3 -> R) (r1 r2 r3 : vec3) : vec3 := mk3 (f r1) (f r2) (f r3).
Definition solve3 (r1 r2 r3 : vec3) (y : vec3) : res vec3 :=
  let c1 := col v1 r1 r2 r3 in let c2 := col v2 r1 r2 r3 in let c3 := col v3 r1 r2 r3 in
  let d := det3 c1 c2 c3 in
  x1 <- fdiv (det3 y c2 c3) d ;;
  x2 <- fdiv (det3 c1 y c3) d ;;
  x3 <- fdiv (det3 c1 c2 y) d ;;
  Ok (mk3 x1 x2 x3).

(** domain.py:109-112, 115-119 linear_map and affine_plane.  X has rows a, b, c; the
    solution is computed column by column; returns (B, offset) with one row of B per
    coordinate. *)
Definition affine_plane (a b c : list R) : res (list (R * R) * list R) :=
  rows <- sequence (map2 (fun ab z => solve3 (mk3 0 0 1) (mk3 1 0 1) (mk3 0 1 1) (mk3 (fst ab) (snd ab) z))
                         (map2 pair a b) c) ;;
  Ok (map (fun s => (v1 s, v2 s)) rows, map v3 rows).

Record parallelogram := mkPar { pa : list R; pb : list R; pc : list R; pB : list (R * R) }.
(** domain.py:77-88 *)
Definition Parallelogram (a b c : list R) : res parallelogram :=
  _ <- assert_ (Nat.eqb (length a) (length b) && Nat.eqb (length b) (length c)) ;;
  r <- affine_plane a b c ;;
  Ok (mkPar a b c (fst r)).

(** domain.py:90-93 support: the determinant of the 2x2 Gram matrix of b-a, c-a *)
Definition par_support (p : parallelogram) : res R :=
  let d1 := map2 Rminus (pb p) (pa p) in
  let d2 := map2 Rminus (pc p) (pa p) in
  fsqrt (dotR d1 d1 * dotR d2 d2 - dotR d1 d2 * dotR d2 d1).

(** domain.py:95-102 transform (one sample: B @ samples + a) *)
Definition par_transform (p : parallelogram) (x : arr) : res (list R) :=
  match x with
  | A1 [s; t] =>
      Ok (map2 (fun row a => fst row * wrap1 s + snd row * wrap1 t + a) (pB p) (pa p))
  | A0 _ => Err IndexError
  | _ => Err AssertionError
  end.

(** *** polylines *)
Fixpoint segments (line : list (list R)) : list R :=
  match line with
  | p :: ((q :: _) as t) => normR (map2 Rminus q p) :: segments t
  | _ => []
  end.
Definition all_same_length (line : list (list R)) : bool :=
  match line with
  | [] => true
  | p :: t => forallb (fun q => Nat.eqb (length q) (length p)) t
  end.
(** domain.py:318-334 transform_polyline for a scalar s: [stack] of nothing or of
    different shapes and argmax of an empty array are ValueErrors *)
Definition transform_polyline (s : R) (points : list (list R)) : res (list R) :=
  match points with
  | [] => Err ValueError
  | _ =>
    if all_same_length points then
      let seg := segments points in
      let len := sumR seg in
      let cum := cumsum seg in
      let s' := mod1 s * len in
      match cum with
      | [] => Err ValueError
      | _ =>
        let idx := argmax (map (Rleb s') cum) in
        let p1 := nth idx points [] in
        let p2 := nth (S idx) points [] in
        let d := nth idx cum 0 - s' in
        let v := map2 Rminus p1 p2 in
        w <- sequence (map (fun e => fdiv (e * d) (normR v)) v) ;;
        Ok (map2 Rplus p2 w)
      end
    else Err ValueError
  end.
(** domain.py:104-106 *)
Definition par_transform_bnd (p : parallelogram) (s : R) : res (list R) :=
  let add := map2 Rplus in
  transform_polyline s [pa p; add (pa p) (pb p); add (add (pa p) (pb p)) (pc p); pc p; pa p].

(** *** Spherical domains *)
(** domain.py:260-269 transform_annulus, one sample *)
Definition transform_annulus (x : arr) (r1 r2 : R) (o : list R) : res (list R) :=
  match x, o with
  | A1 [x0; x1], [o1; o2] =>
      let theta := 2 * PI * mod1 x0 in
      r <- fsqrt (mod1 x1 * (r2 ^ 2 - r1 ^ 2) + r1 ^ 2) ;;
      Ok [r * cos theta + o1; r * sin theta + o2]
  | A0 _, _ => Err IndexError
  | _, _ => Err AssertionError
  end.
(** domain.py:256-257 *)
Definition transform_circle (x : arr) (r : R) (o : list R) : res (list R) := transform_annulus x 0 r o.
(** domain.py:272-283 transform_sphere *)
Definition transform_sphere (x : arr) (r : R) (o : list R) : res (list R) :=
  match x, o with
  | A1 [x0; x1; x2], [o1; o2; o3] =>
      let u := 2 * mod1 x0 - 1 in
      let phi := 2 * PI * mod1 x1 in
      rad <- fpow (mod1 x2) (1 / 3) ;;
      q <- fsqrt (1 - u ^ 2) ;;
      Ok [rad * cos phi * q * r + o1; rad * sin phi * q * r + o2; rad * u * r + o3]
  | A0 _, _ => Err IndexError
  | _, _ => Err AssertionError
  end.
(** domain.py:286-294 transform_sphere_bnd *)
Definition transform_sphere_bnd (x : arr) (r : R) (o : list R) : res (list R) :=
  match x, o with
  | A1 [x0; x1], [o1; o2; o3] =>
      let x3 := 2 * mod1 x0 - 1 in
      let phi := 2 * PI * mod1 x1 in
      q <- fpow (1 - x3 ^ 2) (1 / 2) ;;
      Ok [cos phi * q * r + o1; sin phi * q * r + o2; x3 * r + o3]
  | A0 _, _ => Err IndexError
  | _, _ => Err AssertionError
  end.
(** domain.py:297-304 transform_circle_bnd for a sample with one element *)
Definition transform_circle_bnd (s : R) (r : R) (o : list R) : res (list R) :=
  match o with
  | [o1; o2] => let phi := 4 * PI * mod1 s in Ok [cos phi * r + o1; sin phi * r + o2]
  | _ => Err AssertionError
  end.

(** domain.py:126-128 _Spherical.includes (Sphere and Disk) *)
Definition spherical_includes (r : R) (o sample : list R) : bool :=
  Rltb (normR (map2 Rminus sample o)) r.
(** domain.py:130-138 _Spherical.normal_vec, one sample: a number divided by 0 is non-finite *)
Definition spherical_normal_vec (r : R) (o : list R) (rtol atol : R) (x : list R) : res (option (list R)) :=
  let s := map2 Rminus x o in
  if isclose rtol atol (normR s) r then
    n <- sequence (map (fun e => fdiv e (normR s)) s) ;; Ok (Some n)
  else Ok None.
(** domain.py:130-138 for a batch of shape (k,d): (k,d) / (k,) broadcasts along the
    last axis, so it is a TypeError unless k = 1 or k = d, and for k = d it divides
    column j by the norm of sample j *)
Definition spherical_normal_vec_batch (r : R) (o : list R) (rtol atol : R) (xs : list (list R))
  : res (option (list (list R))) :=
  let ss := map (fun x => map2 Rminus x o) xs in
  let norms := map normR ss in
  if forallb (fun n => isclose rtol atol n r) norms then
    rows <- sequence (map (fun s => rs <- bcast1 fdiv s norms ;; sequence rs) ss) ;;
    Ok (Some rows)
  else Ok None.

(** domain.py:151-152, 173-174, 197-198 support *)
Definition sphere_support (r : R) : R := 4 / 3 * r ^ 3 * PI.
Definition disk_support (r : R) : R := r ^ 2 * PI.
Definition annulus_support (r1 r2 : R) : R := (r2 ^ 2 - r1 ^ 2) * PI.

(** domain.py:307-315 transform_triangle, one sample.  After [None]-indexing x has
    shape (2,1): x[...,0] is the whole sample and the out-of-range x[...,1] is clamped
    to the same, so the products with d1 and d2 are elementwise. *)
Definition transform_triangle (x : arr) (a b c : list R) : res arr :=
  match x with
  | A1 [x0; x1] =>
      _ <- assert_ (Nat.eqb (length a) (length b) && Nat.eqb (length b) (length c)) ;;
      let y0 := mod1 x0 in let y1 := mod1 x1 in
      let y := if Rlt_dec 1 (Rabs y0 + Rabs y1) then [1 - y0; 1 - y1] else [y0; y1] in
      p <- bop Rmult (A1 y) (A1 (map2 Rminus b a)) ;;
      q <- bop Rmult (A1 y) (A1 (map2 Rminus c a)) ;;
      s <- bop Rplus (A1 a) p ;;
      bop Rplus s q
  | A0 _ => Err IndexError
  | _ => Err AssertionError
  end.
