(** Model of /repo/examples/mumag3.py (definitions only).  Grids are lists of reals,
    so [len(arr.shape) == 1] holds by typing.  Arrays with derivatives are tensors. *)
From Coquelicot Require Import Coquelicot.
From Verif Require Import Base M_Quat M_RFun M_Domain M_Tensor M_Calc M_Integrate M_Surface.

(** ** the domain *)
(** mumag3.py:20-28 *)
Record face := mkFace {
  axis1 : nat; axis2 : nat; const_axis : nat;
  axis1_vals : list R; axis2_vals : list R; const_val : R; mids : tensor }.
(** mumag3.py:34-43; [xs], [ys], [zs] are [gx], [gy], [gz] *)
Record brick := mkBrick { gx : list R; gy : list R; gz : list R; dom : hypercube; faces : list face }.

(** [arr.sort()] *)
Fixpoint insert_sorted (a : R) (l : list R) : list R :=
  match l with
  | [] => [a]
  | b :: t => if Rleb a b then a :: l else b :: insert_sorted a t
  end.
Fixpoint jsort (l : list R) : list R :=
  match l with [] => [] | a :: t => insert_sorted a (jsort t) end.
(** [jnp.all(a == b)] of arrays of one length *)
Definition all_eq (a b : list R) : bool :=
  forallb (fun e => e) (map2 (fun x y => if Req_EM_T x y then true else false) a b).
(** mumag3.py:46-49 *)
Definition validate (arr : list R) : res unit :=
  _ <- assert_ (Nat.ltb 1 (length arr)) ;;
  assert_ (all_eq (jsort arr) arr).

(** [jnp.insert(M, i, v, axis=-1)] *)
Definition tinsert (M : tensor) (i : nat) (v : R) : tensor :=
  mkT (removelast (shape M) ++ [S (last (shape M) 0%nat)])
      (fun p => let q := removelast p in let k := last p 0%nat in
                if Nat.ltb k i then entry M (q ++ [k]) else if Nat.eqb k i then v else entry M (q ++ [(k - 1)%nat])).
(** mumag3.py:121-125 *)
Definition face_midpoints (a b : list R) (c : nat) (v : R) : tensor :=
  let m1 := adjacent (fun x y => (y + x) / 2) a in
  let m2 := adjacent (fun x y => (y + x) / 2) b in
  let M := mkT [length m1; length m2; 2%nat]
               (fun p => match p with
                         | [i; j; k] => if Nat.eqb k 0 then nth i m1 0 else nth j m2 0
                         | _ => 0
                         end) in
  tinsert M c v.
(** mumag3.py:107-109 *)
Definition make_face (a1 a2 c : nat) (v1 v2 : list R) (v : R) : face :=
  mkFace a1 a2 c v1 v2 v (face_midpoints v1 v2 c v).
(** mumag3.py:106-118; [a[0]] and [a[-1]] of non-empty grids *)
Definition make_faces (xs ys zs : list R) : list face :=
  [make_face 0 1 2 xs ys (hd 0 zs); make_face 0 1 2 xs ys (last zs 0);
   make_face 0 2 1 xs zs (hd 0 ys); make_face 0 2 1 xs zs (last ys 0);
   make_face 1 2 0 ys zs (hd 0 xs); make_face 1 2 0 ys zs (last xs 0)].
(** mumag3.py:45-59, the constructor [Cuboid(xs, ys, zs)] *)
Definition Cuboid (xs ys zs : list R) : res brick :=
  _ <- validate xs ;; _ <- validate ys ;; _ <- validate zs ;;
  d <- Hypercube [hd 0 xs; hd 0 ys; hd 0 zs] [last xs 0; last ys 0; last zs 0] ;;
  Ok (mkBrick xs ys zs d (make_faces xs ys zs)).

(** mumag3.py:61-71 *)
Definition cub_support (c : brick) : R := hc_support (dom c).
Definition cub_includes (c : brick) (x : list R) : res (list bool) := hc_includes (dom c) x.
Definition cub_transform (c : brick) (x : arr) : res arr := hc_transform (dom c) x.
Definition cub_transform_bnd (c : brick) (x : arr) : res arr := hc_transform_bnd (dom c) x.
(** mumag3.py:73-84, one sample *)
Definition cub_normalize (c : brick) (sample : arr) : res arr :=
  d <- bop Rminus sample (A1 (lb (dom c))) ;;
  q <- bopf fdiv (amap (fun e => 2 * e) d) (A1 (map2 Rminus (ub (dom c)) (lb (dom c)))) ;;
  Ok (amap (fun e => e - 1) q).
(** mumag3.py:86-90; the default R-system of [cuboid] is [r0] *)
Definition cub_adf (c : brick) : adf := fun x =>
  s <- r0 ;;
  translate (cuboid (A1 (map2 Rminus (ub (dom c)) (lb (dom c)))) false s) (A1 (lb (dom c))) x.
(** the same on a tensor; arrays of rank 2 or more are not modelled *)
Definition cub_adfT (c : brick) (x : tensor) : res tensor :=
  match shape x with
  | [_] => r <- cub_adf c (A1 (tlist x)) ;; Ok (tsc r)
  | _ => Err TypeError
  end.
(** mumag3.py:92-93 *)
Definition normal_vec1 (c : brick) (x : tensor) : res tensor :=
  J <- jacfwd (cub_adfT c) x ;; Ok (tmap Ropp J).
(** mumag3.py:95-99: one point or a batch of points; [stop_gradient] does not change values *)
Definition cub_normal_vec (c : brick) (x : tensor) : res tensor :=
  match shape x with
  | [_] => normal_vec1 c x
  | n :: _ => vmapT (fun i => normal_vec1 c (trow x i)) (seq 0 n)
  | [] => Err ValueError
  end.
(** mumag3.py:102-103, :288-289 for one vector *)
Definition unit_vec (x : list R) : res (list R) := sequence (map (fun e => fdiv e (normR x)) x).

(** ** charges *)
(** [a[..., i]] *)
Definition tlast (a : tensor) (i : nat) : tensor := mkT (removelast (shape a)) (fun p => entry a (p ++ [i])).
(** mumag3.py:202-209 *)
Definition taylor_coefs (fc : face) (f : tensor -> res tensor) (x : tensor) : res tensor :=
  let grad_f := jacfwd f in
  let hessian_f := jacfwd grad_f in
  g <- grad_f x ;;
  H <- hessian_f x ;;
  y <- f x ;;
  let i := axis1 fc in
  let j := axis2 fc in
  vmapT (fun a => Ok a)
    [y; tlast g i; tlast g j; tmap (fun e => 1 / 2 * e) (tlast (tlast H i) i);
     tlast (tlast H j) i; tmap (fun e => 1 / 2 * e) (tlast (tlast H j) j)].
(** mumag3.py:198-211 *)
Definition charge_taylor_coefs2 (fc : face) (f : tensor -> res tensor) : res tensor :=
  match shape (mids fc) with
  | [a; b; _] => vmapT (fun i => vmapT (fun j => taylor_coefs fc f (trow (trow (mids fc) i) j)) (seq 0 b)) (seq 0 a)
  | _ => Err TypeError
  end.
(** mumag3.py:176-177 *)
Definition charges (c : brick) (f : tensor -> res tensor) : res (list tensor) :=
  sequence (map (fun fc => charge_taylor_coefs2 fc f) (faces c)).

(** ** target tensors *)
(** [a.at[i].set(v)] *)
Definition tset (a : tensor) (i : nat) (v : R) : tensor :=
  mkT (shape a) (fun p => if list_eqb p [i] then v else entry a p).
(** mumag3.py:219-222 and :246-249 *)
Definition embed (fc : face) (z : tensor) (a b : R) : tensor :=
  tset (tset (tset z (axis1 fc) a) (axis2 fc) b) (const_axis fc) (const_val fc).
(** mumag3.py:214-229 *)
Definition face_integrand (x center : tensor) (fc : face) (y : tensor) : res tensor :=
  _ <- assert_ (list_eqb (shape y) [2%nat]) ;;
  _ <- assert_ (list_eqb (shape x) [3%nat]) ;;
  _ <- assert_ (list_eqb (shape center) [3%nat]) ;;
  let _y := embed fc (tzeros x) (entry y [0%nat]) (entry y [1%nat]) in
  let a1 := entry _y [axis1 fc] - entry center [axis1 fc] in
  let a2 := entry _y [axis2 fc] - entry center [axis2 fc] in
  d <- tbop Rminus x _y ;;
  let n := tnorm d in
  if Req_EM_T n 0 then Err NonFinite
  else Ok (tmap (fun e => e / n) (tvec [1; a1; a2; a1 ^ 2; a1 * a2; a2 ^ 2])).

(** [subintervals]: an int, or a tuple as in the default arguments *)
Inductive subint := SubInt (n : Z) | SubTuple (l : list Z).
(** [linspace(a, b, subintervals + 1)]: a tuple plus an int is a TypeError, a negative
    number of samples a ValueError.  No subintervals at all (a grid of one point) is not
    modelled further. *)
Definition sub_grid (a b : R) (s : subint) : res (list R) :=
  match s with
  | SubInt n => if Z.ltb (n + 1) 0 then Err ValueError else Ok (linspace a b (Z.to_nat (n + 1)))
  | SubTuple _ => Err TypeError
  end.
(** mumag3.py:243-257 *)
Definition integrate_cell (fc : face) (x : tensor) (sub : subint) (method : quadrule) (d1 d2 : R * R) (c1 c2 : R)
  : res tensor :=
  g1 <- sub_grid (fst d1) (snd d1) sub ;;
  g2 <- sub_grid (fst d2) (snd d2) sub ;;
  let center := embed fc (mkT [3%nat] (fun _ => 0)) c1 c2 in
  tintegrate (face_integrand x center fc) g1 g2 method.
(** mumag3.py:232-261 *)
Definition integrate_face (fc : face) (x : tensor) (sub : subint) (method : quadrule) : res tensor :=
  let dom1 := cells (axis1_vals fc) in
  let dom2 := cells (axis2_vals fc) in
  let mid (d : R * R) := (fst d + snd d) / 2 in
  vmapT (fun d1 => vmapT (fun d2 => integrate_cell fc x sub method d1 d2 (mid d1) (mid d2)) dom2) dom1.
(** mumag3.py:264-274 *)
Definition surface_tensors (x : tensor) (c : brick) (sub : subint) (method : quadrule) : res (list tensor) :=
  sequence (map (fun fc => integrate_face fc x sub method) (faces c)).
(** mumag3.py:277-285: [jacfwd] of a tuple of arrays is the tuple of their derivatives *)
Definition surface_tensors_grad (x : tensor) (c : brick) (sub : subint) (method : quadrule) : res (list tensor) :=
  sequence (map (fun fc => jacfwd (fun z => integrate_face fc z sub method) x) (faces c)).

(** ** potentials *)
(** [jnp.tensordot(a, b, 3)]: the last three axes of [a] with the first three of [b] *)
Definition tcontract3 (a b : tensor) : res tensor :=
  let k := (length (shape a) - 3)%nat in
  match skipn k (shape a), shape b with
  | [n1; n2; n3], m1 :: m2 :: m3 :: r =>
      if list_eqb [n1; n2; n3] [m1; m2; m3]
      then Ok (mkT (firstn k (shape a) ++ r) (fun p =>
             sumR (map (fun i1 => sumR (map (fun i2 => sumR (map (fun i3 =>
               entry a (firstn k p ++ [i1; i2; i3]) * entry b (i1 :: i2 :: i3 :: skipn k p))
               (seq 0 n3))) (seq 0 n2))) (seq 0 n1))))
      else Err TypeError
  | _, _ => Err TypeError
  end.
(** mumag3.py:193-195; [tree_map] over tuples of different lengths is a ValueError *)
Definition solve_surface_integral (cs ts : list tensor) : res tensor :=
  if Nat.eqb (length cs) (length ts) then
    r <- sequence (map2 tcontract3 cs ts) ;;
    S <- vmapT (fun a => Ok a) r ;;
    Ok (mkT (tl (shape S)) (fun p => sumR (map (fun k => entry S (k :: p)) (seq 0 (length r)))))
  else Err ValueError.
(** mumag3.py:180-190 *)
Definition integrate_surface3 (x : tensor) (c : brick) (cs : list tensor) (sub : subint) (method : quadrule)
  : res tensor :=
  t <- surface_tensors x c sub method ;; solve_surface_integral cs t.
(** the default value of [subintervals] in mumag3.py:132, :154, :186 *)
Definition default_subintervals : subint := SubTuple [1; 1; 1]%Z.
(** mumag3.py:128-147: the outer result is the evaluated charges, the inner function
    takes the target point *)
Definition surface_integral3 (c : brick) (f : tensor -> res tensor) (sub : subint) (method : quadrule)
  : res (tensor -> res tensor) :=
  cs <- charges c f ;;
  Ok (fun x => integrate_surface3 x c cs sub method).
(** mumag3.py:150-173 *)
Definition single_layer_potential3 (c : brick) (f : tensor -> res tensor) (sub : subint) (method : quadrule)
  : res (tensor -> res tensor) :=
  cs <- charges c f ;;
  Ok (fun x => v <- integrate_surface3 x c cs sub method ;; Ok (tmap (fun e => 1 / (4 * PI) * e) v)).

(** ** stray field *)
(** mumag3.py:301 *)
Definition h_elm (c : brick) (W b : tensor) (x : tensor) : res tensor :=
  match shape x with
  | [_] =>
      z <- cub_normalize c (A1 (tlist x)) ;;
      a <- tmatvec W (tvec (ravel z)) ;;
      s <- tbop Rplus a b ;;
      Ok (tmap tanh s)
  | _ => Err TypeError
  end.
(** mumag3.py:302 *)
Definition u_elm (c : brick) (W b : tensor) (x : tensor) : res tensor :=
  h <- h_elm c W b x ;; a <- cub_adfT c x ;; tbop Rmult h a.
(** mumag3.py:314-315; the weights come from a least squares fit (303-308, 311-313,
    see M_Stray.v) and are a parameter here *)
Definition phi1 (c : brick) (W b params : tensor) (x : tensor) : res tensor :=
  u <- u_elm c W b x ;; tmatvec u params.
Definition phi1_without_adf (c : brick) (W b params : tensor) (x : tensor) : res tensor :=
  h <- h_elm c W b x ;; tmatvec h params.
(** mumag3.py:317-319; [jnp.dot] of two vectors *)
Definition stray_charge (c : brick) (W b params : tensor) (m : tensor -> res tensor) (y : tensor) : res tensor :=
  v <- m y ;; n <- cub_normal_vec c y ;; d <- tmatvec v n ;; p <- phi1_without_adf c W b params y ;;
  tbop Rplus d p.
(** mumag3.py:321-325 and :326-332 for given [phi1] and charge [g].  In the code the
    derivatives of [g] treat the normal vector as constant ([stop_gradient]); here [g]
    is any function. *)
Definition hs_precomputed (p1 g : tensor -> res tensor) (c : brick) (x : tensor) (dt : list tensor) : res tensor :=
  cs <- charges c g ;;
  J <- jacfwd p1 x ;;
  v <- solve_surface_integral cs dt ;;
  tbop Rminus (tmap Ropp J) (tmap (fun e => 1 / (4 * PI) * e) v).
Definition hs_direct (p1 g : tensor -> res tensor) (c : brick) (sub : subint) (method : quadrule) (x : tensor)
  : res tensor :=
  p2 <- single_layer_potential3 c g sub method ;;
  J <- jacfwd (fun z => a <- p1 z ;; b <- p2 z ;; tbop Rplus a b) x ;;
  Ok (tmap Ropp J).

(** ** Cayley rotation *)
(** mumag3.py:337-343 for [x] of length 3 *)
Definition skew (x : nat -> R) : nat -> nat -> R :=
  let s (i j : nat) := match i, j with
                       | 1%nat, 0%nat => x 2%nat
                       | 2%nat, 0%nat => - x 1%nat
                       | 2%nat, 1%nat => x 0%nat
                       | _, _ => 0
                       end in
  fun i j => s i j - s j i.
Definition eye (i j : nat) : R := if Nat.eqb i j then 1 else 0.
(** mumag3.py:346-352; [x] has length 3.  [solve_lu] materialises the 3x3 matrix and
    solves exactly (a singular matrix gives non-finite entries). *)
Definition cayley_rotation (p x : list R) : res (list R) :=
  _ <- assert_ (Nat.eqb (length p) 3) ;;
  if Nat.eqb (length x) 3 then
    let Q := skew (fun i => nth i p 0) in
    let bi i := sumR (map (fun j => (eye i j + Q i j) * nth j x 0) (seq 0 3)) in
    let A i := mk3 (eye i 0 - Q i 0%nat) (eye i 1 - Q i 1%nat) (eye i 2 - Q i 2%nat) in
    s <- solve3 (A 0%nat) (A 1%nat) (A 2%nat) (mk3 (bi 0%nat) (bi 1%nat) (bi 2%nat)) ;;
    Ok [v1 s; v2 s; v3 s]
  else Err TypeError.
