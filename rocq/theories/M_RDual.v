(** Forward-mode derivatives (jax.jvp) of the functions of magpi/r_fun.py (definitions
    only).  A number is a pair (value, tangent); the rules are those of the lax primitives.
    Every definition below repeats a definition of M_RFun for points given as lists of
    such pairs.  Err NonFinite means that the value or the tangent is nan or infinite: the
    derivative of sqrt at 0 is infinite, multiplied with a tangent it is inf or nan. *)
From Verif Require Import Base M_Quat M_RFun M_Solid.

Definition du := (R * R)%type.
Definition dconst (c : R) : du := (c, 0).
Definition dadd (a b : du) : du := (fst a + fst b, snd a + snd b).
Definition dsub (a b : du) : du := (fst a - fst b, snd a - snd b).
Definition dneg (a : du) : du := (- fst a, - snd a).
Definition dmul (a b : du) : du := (fst a * fst b, snd a * fst b + fst a * snd b).
Definition dscal (c : R) (a : du) : du := (c * fst a, c * snd a).
(** [a ** 2] (lax.integer_pow) *)
Definition dsq (a : du) : du := (fst a ^ 2, 2 * fst a * snd a).
(** division by a constant and by a traced number *)
Definition ddivc (a : du) (c : R) : res du := v <- fdiv (fst a) c ;; d <- fdiv (snd a) c ;; Ok (v, d).
Definition ddiv (a b : du) : res du :=
  v <- fdiv (fst a) (fst b) ;; Ok (v, snd a / fst b - snd b * fst a / (fst b * fst b)).
Definition dsqrt (a : du) : res du :=
  v <- fsqrt (fst a) ;; k <- fdiv (1 / 2) v ;; Ok (v, snd a * k).
(** jnp.abs: the tangent is multiplied with sign, which is 0 at 0 *)
Definition dabs (a : du) : du :=
  (Rabs (fst a), (if Rlt_dec 0 (fst a) then 1 else if Rlt_dec (fst a) 0 then -1 else 0) * snd a).
(** [a ** p] for a python int p and for a float e *)
Definition dzpow (a : du) (p : Z) : res du :=
  v <- zpow (fst a) p ;;
  if Z.eqb p 0 then Ok (v, 0) else q <- zpow (fst a) (p - 1) ;; Ok (v, snd a * (IZR p * q)).
Definition dpow (a : du) (e : R) : res du :=
  v <- fpow (fst a) e ;; q <- fpow (fst a) (if Req_EM_T e 0 then 1 else e - 1) ;; Ok (v, snd a * (e * q)).

(** r_fun.py:27-37 an R-system on pairs *)
Record drsys := mkDsys { dconj : du -> du -> res du; ddisj : du -> du -> res du }.

(** r_fun.py:102-110 RAlpha *)
Definition dralpha_root (alpha : R) (a b : du) : res du :=
  dsqrt (dsub (dadd (dsq a) (dsq b)) (dmul (dscal (2 * alpha) a) b)).
Definition dRAlpha (alpha : R) : drsys :=
  mkDsys (fun a b => c <- fdiv 1 (1 + alpha) ;; s <- dralpha_root alpha a b ;; Ok (dscal c (dsub (dadd a b) s)))
         (fun a b => c <- fdiv 1 (1 + alpha) ;; s <- dralpha_root alpha a b ;; Ok (dscal c (dadd (dadd a b) s))).
(** r_fun.py:129-145 RAlphaM *)
Definition dRAlphaM (m alpha : R) : drsys :=
  let op (plus : du -> du -> du) (a b : du) : res du :=
    let r := dadd (dsq a) (dsq b) in
    c <- fdiv 1 (1 + alpha) ;;
    s <- dsqrt (dsub r (dmul (dscal (2 * alpha) a) b)) ;;
    q <- dpow r (m / 2) ;;
    Ok (dmul (dscal c (plus (dadd a b) s)) q) in
  mkDsys (op dsub) (op dadd).
(** r_fun.py:162-166 RP *)
Definition drp_root (p : Z) (a b : du) : res du :=
  e <- pydiv 1 (IZR p) ;; u <- dzpow a p ;; v <- dzpow b p ;; dpow (dadd u v) e.
Definition dRP (p : Z) : drsys :=
  mkDsys (fun a b => s <- drp_root p a b ;; Ok (dsub (dadd a b) s))
         (fun a b => s <- drp_root p a b ;; Ok (dadd (dadd a b) s)).
(** r_fun.py:186-192 RhoBlending *)
Definition drho_root (rho : R) (a b : du) : res du :=
  let s := dsub (dadd (dsq a) (dsq b)) (dconst (rho ^ 2)) in
  c <- pydiv 1 (8 * rho) ;;
  dsqrt (dadd (dadd (dsq a) (dsq b)) (dmul (dscal c s) (dsub s (dabs s)))).
Definition dRho (rho : R) : drsys :=
  mkDsys (fun a b => q <- drho_root rho a b ;; Ok (dsub (dadd a b) q))
         (fun a b => q <- drho_root rho a b ;; Ok (dadd (dadd a b) q)).

(** ** ADFs on points of pairs *)
Definition jadf := list du -> res du.

(** elementwise operation of a traced 1-d array with a constant of shape () or (m,) *)
Definition jbop {C} (f : du -> R -> C) (x : list du) (b : arr) : res (list C) :=
  match b with
  | A0 y => Ok (map (fun a => f a y) x)
  | A1 m =>
      if Nat.eqb (length x) (length m) then Ok (map2 f x m)
      else match x, m with
           | [a], _ => Ok (map (f a) m)
           | _, [y] => Ok (map (fun a => f a y) x)
           | _, _ => Err TypeError
           end
  end.

(** r_fun.py:39-86 *)
Definition jpointwise (op : du -> du -> res du) (f g : jadf) : jadf := fun x => a <- f x ;; b <- g x ;; op a b.
Definition jnegate (f : jadf) : jadf := fun x => a <- f x ;; Ok (dneg a).

(** r_fun.py:314-322 compose, for operands that return scalars *)
Definition jcompose (func : du -> du -> res du) (fs : list jadf) : jadf := fun x =>
  vs <- sequence (map (fun f : jadf => f x) fs) ;;
  match vs with
  | [] => Err ValueError
  | _ => reduce func vs
  end.

Fixpoint dinterleave (a b : list du) : res (list du) :=
  match a, b with
  | [], [] => Ok []
  | x :: a', y :: b' => t <- dinterleave a' b' ;; Ok (x :: y :: t)
  | _, _ => Err ValueError
  end.

(** r_fun.py:201-236 cuboid *)
Definition jcuboid (edge_lengths : arr) (centering : bool) (s : drsys) : jadf := fun x =>
  let lb := if centering then amap (fun e => - e / 2) edge_lengths
            else amap (fun _ => 0) edge_lengths in
  let ub := if centering then amap (fun e => e / 2) edge_lengths else edge_lengths in
  a <- jbop (fun x u => dsub (dconst u) x) x ub ;;
  b <- jbop (fun x l => dsub x (dconst l)) x lb ;;
  s' <- dinterleave a b ;;
  reduce (dconj s) s'.

(** jnp.linalg.norm: sqrt(sum(x * x)) *)
Definition dsum (l : list du) : du := fold_right dadd (dconst 0) l.
Definition dnorm (x : list du) : res du := dsqrt (dsum (map (fun a => dmul a a) x)).
(** r_fun.py:273 sphere *)
Definition jsphere (r : R) : jadf := fun x => n <- dnorm x ;; ddivc (dsub (dconst (r ^ 2)) (dsq n)) (2 * r).
(** r_fun.py:291-292 cylinder *)
Definition jcylinder (r : R) : jadf := fun x => jsphere r (firstn 2 x).

(** r_fun.py:325-339 translate *)
Definition jtranslate (f : jadf) (y : arr) : jadf := fun x => d <- jbop (fun a y => dsub a (dconst y)) x y ;; f d.
(** r_fun.py:342-361 scale *)
Definition jscale (f : jadf) (scaling_factor : arr) : res jadf :=
  match ravel scaling_factor with
  | [s] => Ok (fun x => u <- sequence (map (fun a => ddivc a s) x) ;; v <- f u ;; Ok (dscal s v))
  | _ => Err AssertionError
  end.
(** r_fun.py:364-381 scale_without_normalization *)
Definition jstretch (f : jadf) (scaling_factor : arr) : jadf := fun x =>
  u <- jbop ddivc x (A1 (ravel scaling_factor)) ;; u <- sequence u ;; f u.

(** r_fun.py:384-411 rotate2d *)
Definition jrotate2d (f : jadf) (angle : R) (o : arr) : jadf :=
  let f' := jtranslate f (amap Ropp o) in
  jtranslate (fun x =>
    match x with
    | [x1; x2] =>
        f' [dadd (dscal (cos angle) x1) (dscal (sin angle) x2); dadd (dscal (- sin angle) x1) (dscal (cos angle) x2)]
    | _ => Err AssertionError
    end) o.
(** r_fun.py:414-463 rotate3d; the rotation is linear in the point, so the tangents are
    rotated with the same quaternion *)
Definition jrotate3d (f : jadf) (angle : arr) (rot_axis : option arr) (o : arr) : res jadf :=
  let f' := jtranslate f (amap Ropp o) in
  let angle' := amap Ropp angle in
  q <- match angle' with
       | A0 t => match rot_axis with
                 | None => Err ValueError
                 | Some ax => ax3 <- as_vec3 ax ;; Ok (from_axis_angle t ax3)
                 end
       | A1 [t1; t2; t3] => match rot_axis with
                            | Some _ => Err ValueError
                            | None => Ok (from_euler_angles (mk3 t1 t2 t3))
                            end
       | A1 _ => Err ValueError
       end ;;
  Ok (jtranslate (fun x =>
    match x with
    | [x1; x2; x3] =>
        y <- quaternion_rotation (mk3 (fst x1) (fst x2) (fst x3)) q ;;
        dy <- quaternion_rotation (mk3 (snd x1) (snd x2) (snd x3)) q ;;
        f' (combine (list3 y) (list3 dy))
    | _ => Err AssertionError
    end) o).
(** r_fun.py:486 and 511 *)
Definition jalong (c : R) (x : list du) (n : arr) : res (list du) :=
  match n with
  | A0 _ => Err TypeError
  | A1 m =>
      d <- (if Nat.eqb (length x) (length m) then Ok (dsum (map2 (fun a e => dscal e a) x m)) else Err TypeError) ;;
      k <- ddivc (dscal c d) (anorm n ^ 2) ;;
      jbop (fun a e => dsub a (dscal e k)) x n
  end.
(** r_fun.py:466-489 reflect and 492-514 project *)
Definition jreflect (f : jadf) (normal_vec o : arr) : jadf :=
  let f' := jtranslate f (amap Ropp o) in
  jtranslate (fun x => y <- jalong 2 x normal_vec ;; f' y) o.
Definition jproject (f : jadf) (normal_vec o : arr) : jadf :=
  let f' := jtranslate f (amap Ropp o) in
  jtranslate (fun x => y <- jalong 1 x normal_vec ;; f' y) o.
(** r_fun.py:517-540 revolution *)
Definition jrevolution (f : jadf) (axis : Z) : jadf := fun x =>
  match x with
  | [x0; x1; x2] =>
      if Z.eqb axis 0 then r <- dsqrt (dadd (dsq x1) (dsq x2)) ;; f [x0; r]
      else if Z.eqb axis 1 then r <- dsqrt (dadd (dsq x0) (dsq x2)) ;; f [r; x1]
      else Err ValueError
  | _ => Err AssertionError
  end.

(** r_fun.py:295-311 ellipsoid with r_fun.py:543-563 normalize_1st_order: the JVPs with the
    unit vectors (M_RFun.scaled_sphere_jvp) are differentiated again *)
Definition jscaled_sphere_jvp (axes : arr) (u : list du) (n : du) (i : nat) : res du :=
  du_i <- bopf fdiv (A1 (basis (length u) i)) (A1 (ravel axes)) ;;
  let dn2 := dsum (map2 (fun a e => dscal 2 (dscal e a)) u (ravel du_i)) in
  k <- ddiv (dconst (1 / 2)) n ;;
  ddivc (dneg (dmul (dscal 2 n) (dmul dn2 k))) (2 * 1).
Definition jellipsoid (axes : arr) : jadf := fun x =>
  u <- jbop ddivc x (A1 (ravel axes)) ;; u <- sequence u ;;
  n <- dnorm u ;;
  y <- ddivc (dsub (dconst (1 ^ 2)) (dsq n)) (2 * 1) ;;
  dy <- sequence (map (jscaled_sphere_jvp axes u n) (seq 0 (length x))) ;;
  ndy <- dnorm dy ;;
  s <- dsqrt (dadd (dsq y) (dsq ndy)) ;;
  ddiv y s.

(** ** Programs (M_Solid).  [dsys] and [user] are the derivatives of the R-systems and of
    the functions written by the user. *)
Definition jbuild_prim (dsys : rsys -> drsys) (user : adf -> jadf) (p : prim) : jadf :=
  match p with
  | Cuboid e c s => jcuboid (A1 e) c (dsys s)
  | Cube e c s => jcuboid (A0 e) c (dsys s)
  | Sphere r => jsphere r
  | Cylinder r => jcylinder r
  | Ellipsoid a => jellipsoid (A1 a)
  | User f => user f
  end.
Definition jbuild_move (m : move) (f : jadf) : res jadf :=
  match m with
  | Translate y => Ok (jtranslate f (A1 y))
  | Scale k => jscale f (A0 k)
  | Stretch a => Ok (jstretch f (A1 a))
  | Rotate2 t o1 o2 => Ok (jrotate2d f t (A1 [o1; o2]))
  | Rotate3 t n o => jrotate3d f (A0 t) (Some (A1 (list3 n))) (A1 (list3 o))
  | Euler a b c o => jrotate3d f (A1 [a; b; c]) None (A1 (list3 o))
  | Reflect n o => Ok (jreflect f (A1 n) (A1 o))
  | Project n o => Ok (jproject f (A1 n) (A1 o))
  | Revolve y => Ok (jrevolution f (if y then 1%Z else 0%Z))
  end.
Definition jbuild_op2 (o : op2) (s : drsys) (f g : jadf) : jadf :=
  match o with
  | Union => jpointwise (ddisj s) f g
  | Intersection => jpointwise (dconj s) f g
  | Equivalence => jpointwise (fun a b => c1 <- ddisj s a (dneg b) ;; c2 <- ddisj s (dneg a) b ;; dconj s c1 c2) f g
  | Implication => jpointwise (fun a b => ddisj s (dneg a) b) f g
  | Difference => jpointwise (fun a b => dconj s a (dneg b)) f g
  | Xor => jpointwise (fun a b => c1 <- dconj s a (dneg b) ;; c2 <- dconj s (dneg a) b ;; ddisj s c1 c2) f g
  end.
Fixpoint jbuild (dsys : rsys -> drsys) (user : adf -> jadf) (t : solid) : res jadf :=
  match t with
  | Prim p => Ok (jbuild_prim dsys user p)
  | Move m a => f <- jbuild dsys user a ;; jbuild_move m f
  | Negate a => f <- jbuild dsys user a ;; Ok (jnegate f)
  | Op2 o s a b => f <- jbuild dsys user a ;; g <- jbuild dsys user b ;; Ok (jbuild_op2 o (dsys s) f g)
  | All s l => fs <- sequence (map (jbuild dsys user) l) ;; Ok (jcompose (dconj (dsys s)) fs)
  | Any s l => fs <- sequence (map (jbuild dsys user) l) ;; Ok (jcompose (ddisj (dsys s)) fs)
  end.

(** jax.jvp and jax.jacfwd of an ADF at a 1-d point *)
Definition jvp (f : jadf) (x dx : list R) : res du := f (combine x dx).
Definition gradient (f : jadf) (x : list R) : res (list R) :=
  sequence (map (fun i => d <- jvp f x (basis (length x) i) ;; Ok (snd d)) (seq 0 (length x))).
