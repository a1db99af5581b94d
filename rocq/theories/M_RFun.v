(** Model of magpi/r_fun.py (definitions only). *)
From Verif Require Import Base M_Quat.

(** r_fun.py:24 ADF: a callable from points to a scalar. *)
Definition adf := arr -> res R.

(** r_fun.py:27-37 class RFun: an object with the two methods conjunction and
    disjunction (floats in, float out). *)
Record rsys := mkRsys { conj_ : R -> R -> res R; disj_ : R -> R -> res R }.

(** r_fun.py:33-37 the abstract base class *)
Definition RFun_base : rsys :=
  mkRsys (fun _ _ => Err NotADirectoryError) (fun _ _ => Err NotADirectoryError).

(** r_fun.py:39-43, 45-49: evaluate both ADFs at x, then combine *)
Definition pointwise (op : R -> R -> res R) (adf1 adf2 : adf) : adf :=
  fun x => a <- adf1 x ;; b <- adf2 x ;; op a b.
Definition conj_adf (s : rsys) (adf1 adf2 : adf) : adf := pointwise (fun a b => conj_ s a b) adf1 adf2.
Definition disj_adf (s : rsys) (adf1 adf2 : adf) : adf := pointwise (fun a b => disj_ s a b) adf1 adf2.

(** r_fun.py:51-52 *)
Definition negate (f : adf) : adf := fun x => a <- f x ;; Ok (- a).
(** r_fun.py:54-55 *)
Definition union (s : rsys) (f g : adf) : adf := disj_adf s f g.
(** r_fun.py:57-58 *)
Definition intersection (s : rsys) (f g : adf) : adf := conj_adf s f g.
(** r_fun.py:60-66 *)
Definition equivalence (s : rsys) (f g : adf) : adf :=
  pointwise (fun a b => c1 <- disj_ s a (- b) ;; c2 <- disj_ s (- a) b ;; conj_ s c1 c2) f g.
(** r_fun.py:68-72 *)
Definition implication (s : rsys) (f g : adf) : adf := pointwise (fun a b => disj_ s (- a) b) f g.
(** r_fun.py:74-78 *)
Definition difference (s : rsys) (f g : adf) : adf := pointwise (fun a b => conj_ s a (- b)) f g.
(** r_fun.py:80-86 *)
Definition xor (s : rsys) (f g : adf) : adf :=
  pointwise (fun a b => c1 <- conj_ s a (- b) ;; c2 <- conj_ s (- a) b ;; disj_ s c1 c2) f g.

(** r_fun.py:102-105 and 107-110 *)
Definition ralpha_conj (alpha a b : R) : res R :=
  c <- fdiv 1 (1 + alpha) ;;
  s <- fsqrt (a ^ 2 + b ^ 2 - 2 * alpha * a * b) ;;
  Ok (c * (a + b - s)).
Definition ralpha_disj (alpha a b : R) : res R :=
  c <- fdiv 1 (1 + alpha) ;;
  s <- fsqrt (a ^ 2 + b ^ 2 - 2 * alpha * a * b) ;;
  Ok (c * (a + b + s)).

(** r_fun.py:98-100 RAlpha.__init__ *)
Definition RAlpha (alpha : R) : res rsys :=
  _ <- assert_ (Rltb (-1) alpha && Rleb alpha 1) ;;
  Ok (mkRsys (ralpha_conj alpha) (ralpha_disj alpha)).

(** r_fun.py:129-136 and 138-145 *)
Definition ralpham_conj (m alpha a b : R) : res R :=
  let r := a ^ 2 + b ^ 2 in
  c <- fdiv 1 (1 + alpha) ;;
  s <- fsqrt (r - 2 * alpha * a * b) ;;
  q <- fpow r (m / 2) ;;
  Ok (c * (a + b - s) * q).
Definition ralpham_disj (m alpha a b : R) : res R :=
  let r := a ^ 2 + b ^ 2 in
  c <- fdiv 1 (1 + alpha) ;;
  s <- fsqrt (r - 2 * alpha * a * b) ;;
  q <- fpow r (m / 2) ;;
  Ok (c * (a + b + s) * q).

(** r_fun.py:124-127 RAlphaM.__init__ *)
Definition RAlphaM (m alpha : R) : res rsys :=
  _ <- assert_ (Rltb (-1) alpha && Rleb alpha 1) ;;
  Ok (mkRsys (ralpham_conj m alpha) (ralpham_disj m alpha)).

(** r_fun.py:163, 166 the term [(a**p + b**p) ** (1 / p)]; p = 0 raises in [1 / p];
    for p < 0 a zero operand makes the sum +inf, and inf ** (1/p) = 0. *)
Definition rp_root (p : Z) (a b : R) : res R :=
  e <- pydiv 1 (IZR p) ;;
  if Z_lt_dec p 0 then
    (if Req_EM_T a 0 then Ok 0 else if Req_EM_T b 0 then Ok 0
     else fpow (powerRZ a p + powerRZ b p) e)
  else fpow (powerRZ a p + powerRZ b p) e.
(** r_fun.py:162-163, 165-166 *)
Definition rp_conj (p : Z) (a b : R) : res R := s <- rp_root p a b ;; Ok (a + b - s).
Definition rp_disj (p : Z) (a b : R) : res R := s <- rp_root p a b ;; Ok (a + b + s).

(** r_fun.py:158-160 RP.__init__ *)
Definition RP (p : Z) : res rsys :=
  _ <- assert_ (Z.eqb (p mod 2) 0) ;;
  Ok (mkRsys (rp_conj p) (rp_disj p)).

(** r_fun.py:186-192 *)
Definition rho_root (rho a b : R) : res R :=
  let s := a ^ 2 + b ^ 2 - rho ^ 2 in
  c <- pydiv 1 (8 * rho) ;;
  fsqrt (a ^ 2 + b ^ 2 + c * s * (s - Rabs s)).
Definition rho_conj (rho a b : R) : res R := q <- rho_root rho a b ;; Ok (a + b - q).
Definition rho_disj (rho a b : R) : res R := q <- rho_root rho a b ;; Ok (a + b + q).
(** r_fun.py:183-184 RhoBlending.__init__ *)
Definition RhoBlending (rho : R) : res rsys := Ok (mkRsys (rho_conj rho) (rho_disj rho)).

(** r_fun.py:195-198 *)
Definition r1 : res rsys := RAlpha 1.
Definition r0 : res rsys := RAlpha 0.
Definition rp2 : res rsys := RP 2.
Definition rp4 : res rsys := RP 4.

(** r_fun.py:314-322 compose.  Operands may be vector valued ([.ravel()]);
    [concatenate] of no arrays is a ValueError, [reduce] of no elements a TypeError. *)
Definition compose (func : R -> R -> res R) (adfs : list (arr -> res arr)) : adf := fun x =>
  ds <- sequence (map (fun df => d <- df x ;; Ok (ravel d)) adfs) ;;
  match ds with
  | [] => Err ValueError
  | _ => reduce func (concat ds)
  end.
(** A scalar valued ADF as an operand of [compose]. *)
Definition scalar_adf (f : adf) : arr -> res arr := fun x => r <- f x ;; Ok (A0 r).

(** jnp.stack([a, b], axis=-1).ravel() of two 1-d arrays: ValueError if the shapes differ *)
Fixpoint interleave (a b : list R) : res (list R) :=
  match a, b with
  | [], [] => Ok []
  | x :: a', y :: b' => t <- interleave a' b' ;; Ok (x :: y :: t)
  | _, _ => Err ValueError
  end.

(** r_fun.py:201-236 cuboid *)
Definition cuboid (edge_lengths : arr) (centering : bool) (r_system : rsys) : adf :=
  let lb := if centering then amap (fun e => - e / 2) edge_lengths
            else amap (fun _ => 0) edge_lengths in
  let ub := if centering then amap (fun e => e / 2) edge_lengths else edge_lengths in
  compose (conj_ r_system)
    [fun x => a <- bop Rminus ub x ;;
              b <- bop Rminus x lb ;;
              s <- interleave (ravel a) (ravel b) ;; Ok (A1 s)].

(** r_fun.py:239-256 cube *)
Definition cube (edge_length : R) (centering : bool) (r_system : rsys) : adf :=
  cuboid (A0 edge_length) centering r_system.

(** r_fun.py:259-273 sphere *)
Definition sphere (r : R) : adf := fun x => fdiv (r ^ 2 - anorm x ^ 2) (2 * r).

(** r_fun.py:276-292 cylinder; [x[:2]] of a 0-d array is an IndexError *)
Definition cylinder (r : R) : adf := fun x =>
  match x with
  | A0 _ => Err IndexError
  | A1 l => sphere r (A1 (firstn 2 l))
  end.

(** r_fun.py:325-339 translate *)
Definition translate (f : adf) (y : arr) : adf := fun x => d <- bop Rminus x y ;; f d.

(** r_fun.py:342-361 scale *)
Definition scale (f : adf) (scaling_factor : arr) : res adf :=
  match ravel scaling_factor with
  | [s] => Ok (fun x => u <- bopf fdiv x (A0 s) ;; v <- f u ;; Ok (v * s))
  | _ => Err AssertionError
  end.

(** r_fun.py:364-381 scale_without_normalization *)
Definition scale_without_normalization (f : adf) (scaling_factor : arr) : adf := fun x =>
  u <- bopf fdiv x (A1 (ravel scaling_factor)) ;; f u.

(** r_fun.py:384-411 rotate2d, for a scalar angle *)
Definition rotate2d (f : adf) (angle : R) (o : arr) : adf :=
  let f' := translate f (amap Ropp o) in
  let rot_op := fun x =>
    match x with
    | A1 [x1; x2] =>
        f' (A1 [cos angle * x1 + sin angle * x2; - sin angle * x1 + cos angle * x2])
    | _ => Err AssertionError
    end in
  translate rot_op o.

(** r_fun.py:414-463 rotate3d; the axis goes through Quaternion.__init__, which
    asserts shape (3,) *)
Definition rotate3d (f : adf) (angle : arr) (rot_axis : option arr) (o : arr) : res adf :=
  let f' := translate f (amap Ropp o) in
  let angle' := amap Ropp angle in
  q <- match angle' with
       | A0 t => match rot_axis with
                 | None => Err ValueError
                 | Some ax => ax3 <- as_vec3 ax ;; Ok (from_axis_angle t ax3)
                 end
       | A1 [t1; t2; t3] => match rot_axis with
                            | Some _ => Err ValueError
                            | None => Ok (from_euler_angles (mk3 t1 t2 t3))
                            end
       | A1 _ => Err ValueError
       end ;;
  let rot_op := fun x =>
    match x with
    | A1 [x1; x2; x3] => y <- quaternion_rotation (mk3 x1 x2 x3) q ;; f' (A1 (list3 y))
    | _ => Err AssertionError
    end in
  Ok (translate rot_op o).

(** r_fun.py:486 and 511: [x - c * (x @ n) / norm(n)**2 * n] *)
Definition along_normal (c : R) (x n : arr) : res arr :=
  d <- amatmul x n ;;
  k <- fdiv (c * d) (anorm n ^ 2) ;;
  bop Rminus x (amap (fun e => k * e) n).

(** r_fun.py:466-489 reflect *)
Definition reflect (f : adf) (normal_vec o : arr) : adf :=
  let f' := translate f (amap Ropp o) in
  translate (fun x => y <- along_normal 2 x normal_vec ;; f' y) o.

(** r_fun.py:492-514 project *)
Definition project (f : adf) (normal_vec o : arr) : adf :=
  let f' := translate f (amap Ropp o) in
  translate (fun x => y <- along_normal 1 x normal_vec ;; f' y) o.

(** r_fun.py:517-540 revolution *)
Definition revolution (f : adf) (axis : Z) : adf := fun x =>
  match x with
  | A1 [x0; x1; x2] =>
      if Z.eqb axis 0 then r <- fsqrt (x1 ^ 2 + x2 ^ 2) ;; f (A1 [x0; r])
      else if Z.eqb axis 1 then r <- fsqrt (x0 ^ 2 + x2 ^ 2) ;; f (A1 [r; x1])
      else Err ValueError
  | _ => Err AssertionError
  end.

(** r_fun.py:543-563 normalize_1st_order; [df] is jacfwd(adf) *)
Definition normalize_1st_order (f : adf) (df : arr -> res arr) : adf := fun x =>
  y <- f x ;;
  dy <- df x ;;
  s <- fsqrt (y ^ 2 + anorm dy ^ 2) ;;
  fdiv y s.

(** ** Forward-mode derivative of the scaled sphere, as jax computes it.
    jnp.linalg.norm is sqrt(sum(x * x)); the JVP rule of sqrt multiplies the tangent
    with 0.5 / sqrt(.), which is not finite at 0 (0 * inf = nan), and nothing later
    turns that into a finite number. *)
Definition norm_jvp (u du : arr) : res R :=
  let n2 := sumR (map (fun x => x * x) (ravel u)) in
  let dn2 := sumR (map2 (fun x dx => 2 * (x * dx)) (ravel u) (ravel du)) in
  k <- fdiv (1 / 2) (sqrt n2) ;; Ok (dn2 * k).
(** r_fun.py:273 *)
Definition sphere_jvp (r : R) (u du : arr) : res R :=
  dn <- norm_jvp u du ;;
  fdiv (- (2 * anorm u * dn)) (2 * r).
(** r_fun.py:381 *)
Definition scaled_sphere_jvp (axes : arr) (x dx : arr) : res R :=
  u <- bopf fdiv x (A1 (ravel axes)) ;;
  du <- bopf fdiv dx (A1 (ravel axes)) ;;
  sphere_jvp 1 u du.

(** jacfwd: one JVP per basis vector *)
Definition basis (n i : nat) : list R := upd (repeat 0 n) i 1.
Definition jacfwd (jvp : arr -> arr -> res R) (x : arr) : res arr :=
  match x with
  | A0 _ => d <- jvp x (A0 1) ;; Ok (A0 d)
  | A1 l => ds <- sequence (map (fun i => jvp x (A1 (basis (length l) i))) (seq 0 (length l))) ;;
            Ok (A1 ds)
  end.

(** r_fun.py:295-311 ellipsoid *)
Definition ellipsoid (axes_lengths : arr) : adf :=
  normalize_1st_order (scale_without_normalization (sphere 1) axes_lengths)
    (jacfwd (scaled_sphere_jvp axes_lengths)).
