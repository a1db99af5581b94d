(** Model of magpi/domain.py for arrays of samples of any shape, and of the classes
    Sphere, Disk and Annulus (definitions only).  The samples are finite; the entries
    of the results are [Err NonFinite] where the code computes nan or inf. *)
From Verif Require Import Base M_Tensor M_Calc M_Domain.

Record ntensor := mkN { nshape : list nat; nentry : list nat -> res R }.
Definition nof (x : tensor) : ntensor := mkN (shape x) (fun p => Ok (entry x p)).
(** elementwise functions *)
Definition nmap (f : R -> res R) (a : ntensor) : ntensor :=
  mkN (nshape a) (fun p => v <- nentry a p ;; f v).
Definition tot (f : R -> R) (v : R) : res R := Ok (f v).
(** elementwise operations with broadcasting *)
Definition nbop (f : R -> R -> R) (a b : ntensor) : res ntensor :=
  s <- bshape (nshape a) (nshape b) ;;
  Ok (mkN s (fun p => x <- nentry a (bidx (nshape a) p) ;; y <- nentry b (bidx (nshape b) p) ;; Ok (f x y))).
Definition nvec (l : list R) : ntensor := nof (tvec l).
Definition nsc (r : R) : ntensor := nof (tsc r).
(** [x[..., k]] *)
Definition nlast (x : ntensor) (k : nat) : ntensor :=
  mkN (removelast (nshape x)) (fun p => nentry x (p ++ [k])).
(** [stack((a, b, ...), -1)] *)
Definition nstack (l : list ntensor) : res ntensor :=
  match l with
  | [] => Err ValueError
  | a :: _ =>
      if forallb (fun b => list_eqb (nshape b) (nshape a)) l then
        Ok (mkN (nshape a ++ [length l]) (fun p => nentry (nth (last p 0%nat) l a) (removelast p)))
      else Err ValueError
  end.
(** [assert x.shape[-1] == n] *)
Definition last_is (n : nat) (s : list nat) : res unit := m <- last_dim s ;; assert_ (Nat.eqb m n).

(** domain.py:206-208 transform_hypercube *)
Definition b_hypercube (x : tensor) (l u : list R) : res ntensor :=
  w <- nbop Rminus (nvec u) (nvec l) ;;
  p <- nbop Rmult (nof (tmap wrap1 x)) w ;;
  nbop Rplus p (nvec l).

(** [jnp.apply_along_axis(f, -1, x)] for a function of 1-d arrays with results of
    length d *)
Definition along_last (d : nat) (f : list R -> res (list R)) (x : tensor) : ntensor :=
  let n := last (shape x) 0%nat in
  mkN (removelast (shape x) ++ [d])
      (fun p => y <- f (map (fun j => entry x (removelast p ++ [j])) (seq 0 n)) ;; Ok (nth (last p 0%nat) y 0)).

(** [transform_hypercube] of the array of inserted coordinates *)
Definition n_hypercube (x : ntensor) (l u : list R) : res ntensor :=
  w <- nbop Rminus (nvec u) (nvec l) ;;
  p <- nbop Rmult (nmap (tot wrap1) x) w ;;
  nbop Rplus p (nvec l).

(** domain.py:211-253 transform_hypercube_bnd; a scalar sample for dim = 2 is the
    single sample of M_Domain.transform_hypercube_bnd *)
Definition b_hypercube_bnd (x : tensor) (l u : list R) : res ntensor :=
  _ <- assert_ (Nat.eqb (length l) (length u)) ;;
  let dim := length l in
  let x := tmap mod1 x in
  if Nat.eqb dim 1 then
    b_hypercube (tmap (fun e => if Rlt_dec (1 / 2) e then 1 else 0) x) l u
  else
    let scalar := match shape x with [] => true | _ => false end in
    let x := if scalar then travel x else x in
    let x := if (Nat.eqb (length (shape x)) 1 && Nat.eqb dim 2)%bool
             then mkT (shape x ++ [1%nat]) (fun p => entry x (removelast p)) else x in
    _ <- last_is (dim - 1) (shape x) ;;
    r <- insert_rules l u ;;
    let '(sup, cum, vals) := r in
    y <- n_hypercube (along_last dim (bnd_insert dim sup cum vals) x) l u ;;
    Ok (if scalar then mkN (tl (nshape y)) (fun p => nentry y (0%nat :: p)) else y).

(** domain.py:44-50 Hypercube.transform and transform_bnd *)
Definition Hypercube_transform (h : hypercube) (x : tensor) : res ntensor := b_hypercube x (lb h) (ub h).
Definition Hypercube_transform_bnd (h : hypercube) (x : tensor) : res ntensor := b_hypercube_bnd x (lb h) (ub h).

(** domain.py:260-269 transform_annulus *)
Definition b_annulus (x : tensor) (r1 r2 : R) (o : list R) : res ntensor :=
  _ <- last_is 2 (shape x) ;;
  _ <- assert_ (Nat.eqb (length o) 2) ;;
  let x := nof (tmap mod1 x) in
  let theta := nmap (tot (Rmult (2 * PI))) (nlast x 0) in
  let r := nmap (fun v => fsqrt (v * (r2 ^ 2 - r1 ^ 2) + r1 ^ 2)) (nlast x 1) in
  x1 <- nbop Rmult r (nmap (tot cos) theta) ;;
  x2 <- nbop Rmult r (nmap (tot sin) theta) ;;
  y <- nstack [x1; x2] ;;
  nbop Rplus y (nvec o).
(** domain.py:256-257 transform_circle *)
Definition b_circle (x : tensor) (r : R) (o : list R) : res ntensor := b_annulus x 0 r o.

(** domain.py:272-283 transform_sphere *)
Definition b_sphere (x : tensor) (r : R) (o : list R) : res ntensor :=
  _ <- last_is 3 (shape x) ;;
  _ <- assert_ (Nat.eqb (length o) 3) ;;
  let x := nof (tmap mod1 x) in
  let u := nmap (tot (fun v => 2 * v - 1)) (nlast x 0) in
  let phi := nmap (tot (Rmult (2 * PI))) (nlast x 1) in
  let rad := nmap (fun v => fpow v (1 / 3)) (nlast x 2) in
  let q := nmap (fun v => fsqrt (1 - v ^ 2)) u in
  a1 <- nbop Rmult rad (nmap (tot cos) phi) ;;
  x1 <- nbop Rmult a1 q ;;
  a2 <- nbop Rmult rad (nmap (tot sin) phi) ;;
  x2 <- nbop Rmult a2 q ;;
  x3 <- nbop Rmult rad u ;;
  y <- nstack [x1; x2; x3] ;;
  z <- nbop Rmult y (nsc r) ;;
  nbop Rplus z (nvec o).

(** domain.py:286-294 transform_sphere_bnd *)
Definition b_sphere_bnd (x : tensor) (r : R) (o : list R) : res ntensor :=
  _ <- last_is 2 (shape x) ;;
  _ <- assert_ (Nat.eqb (length o) 3) ;;
  let x := nof (tmap mod1 x) in
  let x3 := nmap (tot (fun v => 2 * v - 1)) (nlast x 0) in
  let phi := nmap (tot (Rmult (2 * PI))) (nlast x 1) in
  let q := nmap (fun v => fpow (1 - v ^ 2) (1 / 2)) x3 in
  x1 <- nbop Rmult (nmap (tot cos) phi) q ;;
  x2 <- nbop Rmult (nmap (tot sin) phi) q ;;
  y <- nstack [x1; x2; x3] ;;
  z <- nbop Rmult y (nsc r) ;;
  nbop Rplus z (nvec o).

(** [s.squeeze()]: all axes of size 1 are removed *)
Fixpoint unsqueeze (s p : list nat) : list nat :=
  match s with
  | [] => []
  | n :: s' => if Nat.eqb n 1 then 0%nat :: unsqueeze s' p else hd 0%nat p :: unsqueeze s' (tl p)
  end.
Definition squeeze (x : tensor) : tensor :=
  mkT (filter (fun n => negb (Nat.eqb n 1)) (shape x)) (fun p => entry x (unsqueeze (shape x) p)).
(** domain.py:297-304 transform_circle_bnd *)
Definition b_circle_bnd (x : tensor) (r : R) (o : list R) : res ntensor :=
  _ <- assert_ (Nat.eqb (length o) 2) ;;
  let s := tmap mod1 x in
  let phi := tmap (Rmult (4 * PI)) (squeeze s) in
  y <- nstack [nof (tmap cos phi); nof (tmap sin phi)] ;;
  z <- nbop Rmult y (nsc r) ;;
  nbop Rplus z (nvec o).

(** domain.py:95-102 Parallelogram.transform: [B @ samples + a] for one sample,
    [samples @ B.T + a] for an array of samples *)
Definition b_par_transform (p : parallelogram) (x : tensor) : res ntensor :=
  _ <- last_is 2 (shape x) ;;
  let x := tmap wrap1 x in
  let row k := nth k (pB p) (0, 0) in
  let v := if Nat.eqb (length (shape x)) 1
           then mkN [length (pB p)]
                  (fun q => Ok (fst (row (hd 0%nat q)) * entry x [0%nat] + snd (row (hd 0%nat q)) * entry x [1%nat]))
           else mkN (removelast (shape x) ++ [length (pB p)])
                  (fun q => let i := removelast q in let k := last q 0%nat in
                     Ok (entry x (i ++ [0%nat]) * fst (row k) + entry x (i ++ [1%nat]) * snd (row k))) in
  nbop Rplus v (nvec (pa p)).

(** domain.py:318-334 transform_polyline: the samples must have shape () or (k,) *)
Definition b_polyline (s : tensor) (points : list (list R)) : res ntensor :=
  match points with
  | [] => Err ValueError
  | p0 :: _ =>
    if all_same_length points then
      _ <- assert_ (Nat.leb (length (shape s)) 1) ;;
      let seg := segments points in
      let len := sumR seg in
      let cum := cumsum seg in
      let s' := mkT [nprod (shape s)] (fun p => mod1 (entry s (unravel (shape s) (hd 0%nat p))) * len) in
      match cum with
      | [] => Err ValueError
      | _ =>
        let idx i := argmax (map (Rleb (entry s' [i])) cum) in
        let p1 i := nth (idx i) points [] in
        let p2 i := nth (S (idx i)) points [] in
        let d i := nth (idx i) cum 0 - entry s' [i] in
        let v i := map2 Rminus (p1 i) (p2 i) in
        let p := mkN (shape s' ++ [length p0])
              (fun q => let i := hd 0%nat q in let k := last q 0%nat in
                 w <- fdiv (nth k (v i) 0 * d i) (normR (v i)) ;; Ok (nth k (p2 i) 0 + w)) in
        Ok (match shape s with
            | [] => mkN (tl (nshape p)) (fun q => nentry p (0%nat :: q))
            | _ => p
            end)
      end
    else Err ValueError
  end.
(** domain.py:104-106 *)
Definition b_par_transform_bnd (p : parallelogram) (s : tensor) : res ntensor :=
  let add := map2 Rplus in
  b_polyline s [pa p; add (pa p) (pb p); add (add (pa p) (pb p)) (pc p); pc p; pa p].

(** boolean arrays *)
Record btensor := mkB { tshape : list nat; tentry : list nat -> bool }.
(** domain.py:40-42 Hypercube.includes: elementwise *)
Definition b_hc_includes (h : hypercube) (x : tensor) : res btensor :=
  let cmp (f : R -> R -> bool) (a b : tensor) :=
    s <- bshape (shape a) (shape b) ;;
    Ok (mkB s (fun p => f (entry a (bidx (shape a) p)) (entry b (bidx (shape b) p)))) in
  a <- cmp Rleb (tvec (lb h)) x ;;
  b <- cmp Rleb x (tvec (ub h)) ;;
  s <- bshape (tshape a) (tshape b) ;;
  Ok (mkB s (fun p => andb (tentry a (bidx (tshape a) p)) (tentry b (bidx (tshape b) p)))).
(** domain.py:126-128 _Spherical.includes: the norm is taken over the last axis *)
Definition b_spherical_includes (r : R) (o : list R) (x : tensor) : res btensor :=
  d <- tbop Rminus x (tvec o) ;;
  n <- last_dim (shape d) ;;
  Ok (mkB (removelast (shape d))
          (fun p => Rltb (sqrt (sumR (map (fun j => entry d (p ++ [j]) * entry d (p ++ [j])) (seq 0 n)))) r)).

(** domain.py:307-315 transform_triangle: after [None]-indexing x[..., 0] is the whole
    sample and the out-of-range x[..., 1] is clamped to the same *)
Definition b_triangle (x : tensor) (a b c : list R) : res ntensor :=
  _ <- last_is 2 (shape x) ;;
  _ <- assert_ (Nat.eqb (length a) (length b) && Nat.eqb (length b) (length c))%bool ;;
  let x := tmap mod1 x in
  let n1 p := Rabs (entry x (p ++ [0%nat])) + Rabs (entry x (p ++ [1%nat])) in
  let y := nof (mkT (shape x) (fun p => if Rlt_dec 1 (n1 (removelast p)) then 1 - entry x p else entry x p)) in
  d1 <- nbop Rmult y (nvec (map2 Rminus b a)) ;;
  d2 <- nbop Rmult y (nvec (map2 Rminus c a)) ;;
  s <- nbop Rplus (nvec a) d1 ;;
  nbop Rplus s d2.

(** *** The classes Sphere, Disk, Annulus *)
Record spherical := mkSph { s_radius : R; s_origin : list R }.
(** domain.py:147-149, 169-171 __post_init__ of Sphere and Disk *)
Definition Spherical (radius origin : arr) : res spherical :=
  match radius, origin with
  | A0 r, A1 o => Ok (mkSph r o)
  | _, _ => Err AssertionError
  end.
(** domain.py:151-160 the methods of Sphere *)
Definition Sphere_support (s : spherical) : R := sphere_support (s_radius s).
Definition Sphere_transform (s : spherical) (x : tensor) : res ntensor := b_sphere x (s_radius s) (s_origin s).
Definition Sphere_transform_bnd (s : spherical) (x : tensor) : res ntensor := b_sphere_bnd x (s_radius s) (s_origin s).
(** domain.py:173-182 the methods of Disk *)
Definition Disk_support (s : spherical) : R := disk_support (s_radius s).
Definition Disk_transform (s : spherical) (x : tensor) : res ntensor := b_circle x (s_radius s) (s_origin s).
Definition Disk_transform_bnd (s : spherical) (x : tensor) : res ntensor := b_circle_bnd x (s_radius s) (s_origin s).
(** domain.py:126-128 *)
Definition Spherical_includes (s : spherical) (x : tensor) : res btensor :=
  b_spherical_includes (s_radius s) (s_origin s) x.
Record annulus := mkAnn { a_r1 : R; a_r2 : R; a_origin : list R }.
(** domain.py:192-195 __post_init__ of Annulus *)
Definition Annulus (r1 r2 origin : arr) : res annulus :=
  match r1, r2, origin with
  | A0 r1, A0 r2, A1 o => Ok (mkAnn r1 r2 o)
  | _, _, _ => Err AssertionError
  end.
(** domain.py:197-203 *)
Definition Annulus_support (s : annulus) : R := annulus_support (a_r1 s) (a_r2 s).
Definition Annulus_transform (s : annulus) (x : tensor) : res ntensor := b_annulus x (a_r1 s) (a_r2 s) (a_origin s).
