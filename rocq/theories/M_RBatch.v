(** The functions of magpi/r_fun.py called with a 2-d array of points (definitions only).
    The code has no branch for this case: the same lines run with numpy broadcasting, so
    every definition below repeats a definition of M_RFun for arguments of shape (N, n).
    The returned value is a scalar in all of them. *)
From Verif Require Import Base M_Quat M_RFun M_Solid.

(** a 2-d array: the number of columns and the rows *)
Record batch := mkB { cols : nat; rows : list (list R) }.
Definition badf := batch -> res R.
(** [X.ravel()] *)
Definition bflat (X : batch) : list R := concat (rows X).

(** elementwise operations with an operand of shape () or (m,): the shapes are checked
    first, also if there are no rows *)
Definition rbop (f : R -> R -> R) (X : batch) (b : arr) : res batch :=
  c <- bop f (A1 (repeat 0 (cols X))) b ;;
  rs <- sequence (map (fun r => d <- bop f (A1 r) b ;; Ok (ravel d)) (rows X)) ;;
  Ok (mkB (length (ravel c)) rs).
Definition rbopf (f : R -> R -> res R) (X : batch) (b : arr) : res batch :=
  c <- bop Rplus (A1 (repeat 0 (cols X))) b ;;
  rs <- sequence (map (fun r => d <- bopf f (A1 r) b ;; Ok (ravel d)) (rows X)) ;;
  Ok (mkB (length (ravel c)) rs).

(** r_fun.py:39-86 the set operations: evaluate the ADFs, then combine the two scalars *)
Definition bpointwise (op : R -> R -> res R) (f g : badf) : badf :=
  fun X => a <- f X ;; b <- g X ;; op a b.
Definition bnegate (f : badf) : badf := fun X => a <- f X ;; Ok (- a).

(** r_fun.py:314-322 compose, for operands that return scalars *)
Definition bcompose (func : R -> R -> res R) (fs : list badf) : badf := fun X =>
  vs <- sequence (map (fun f => f X) fs) ;;
  match vs with
  | [] => Err ValueError
  | _ => reduce func vs
  end.

(** r_fun.py:201-236 cuboid; [(ub - x).ravel()] and [(x - lb).ravel()] *)
Definition bcuboid (edge_lengths : arr) (centering : bool) (r_system : rsys) : badf := fun X =>
  let lb := if centering then amap (fun e => - e / 2) edge_lengths
            else amap (fun _ => 0) edge_lengths in
  let ub := if centering then amap (fun e => e / 2) edge_lengths else edge_lengths in
  a <- rbop (fun x u => u - x) X ub ;;
  b <- rbop Rminus X lb ;;
  s <- interleave (bflat a) (bflat b) ;;
  reduce (conj_ r_system) s.

(** r_fun.py:273 sphere; [norm] of a 2-d array is the norm of all its entries *)
Definition bsphere (r : R) : badf := fun X => fdiv (r ^ 2 - normR (bflat X) ^ 2) (2 * r).

(** r_fun.py:291-292 cylinder; [x[:2]] of a 2-d array are its first two rows *)
Definition bcylinder (r : R) : badf := fun X => bsphere r (mkB (cols X) (firstn 2 (rows X))).

(** r_fun.py:325-339 translate *)
Definition btranslate (f : badf) (y : arr) : badf := fun X => D <- rbop Rminus X y ;; f D.

(** r_fun.py:342-361 scale *)
Definition bscale (f : badf) (scaling_factor : arr) : res badf :=
  match ravel scaling_factor with
  | [s] => Ok (fun X => U <- rbopf fdiv X (A0 s) ;; v <- f U ;; Ok (v * s))
  | _ => Err AssertionError
  end.

(** r_fun.py:364-381 scale_without_normalization *)
Definition bstretch (f : badf) (scaling_factor : arr) : badf := fun X =>
  U <- rbopf fdiv X (A1 (ravel scaling_factor)) ;; f U.

(** r_fun.py:384-411 rotate2d: [x.shape == (2,)] is false after the shift *)
Definition brotate2d (f : badf) (angle : R) (o : arr) : badf :=
  btranslate (fun _ => Err AssertionError) o.

(** r_fun.py:414-463 rotate3d: the checks at construction are those of M_RFun.rotate3d (no
    ADF is called there); [x.shape == (3,)] is false after the shift *)
Definition brotate3d (f : badf) (angle : arr) (rot_axis : option arr) (o : arr) : res badf :=
  _ <- rotate3d (fun _ => Err TypeError) angle rot_axis o ;;
  Ok (btranslate (fun _ => Err AssertionError) o).

(** r_fun.py:486 and 511: [x @ n] has shape (N,), it is multiplied with n of shape (n,),
    and the product is subtracted from x of shape (N, n) *)
Definition balong_normal (c : R) (X : batch) (n : arr) : res batch :=
  match n with
  | A0 _ => Err TypeError
  | A1 m =>
      d <- (if Nat.eqb (cols X) (length m) then Ok (map (fun r => dotR r m) (rows X)) else Err TypeError) ;;
      k <- sequence (map (fun e => fdiv (c * e) (anorm n ^ 2)) d) ;;
      kn <- bop Rmult (A1 k) n ;;
      rbop Rminus X kn
  end.

(** r_fun.py:466-489 reflect and 492-514 project *)
Definition breflect (f : badf) (normal_vec o : arr) : badf :=
  let f' := btranslate f (amap Ropp o) in
  btranslate (fun X => Y <- balong_normal 2 X normal_vec ;; f' Y) o.
Definition bproject (f : badf) (normal_vec o : arr) : badf :=
  let f' := btranslate f (amap Ropp o) in
  btranslate (fun X => Y <- balong_normal 1 X normal_vec ;; f' Y) o.

(** r_fun.py:517-540 revolution: [x.shape == (3,)] is false *)
Definition brevolution (f : badf) (axis : Z) : badf := fun _ => Err AssertionError.

(** r_fun.py:295-311 ellipsoid with r_fun.py:543-563; jacfwd has one column per entry of X *)
Definition bunit (X : batch) (i j : nat) : batch :=
  mkB (cols X) (map (fun k => if Nat.eqb k i then basis (cols X) j else repeat 0 (cols X)) (seq 0 (length (rows X)))).
Definition bscaled_sphere_jvp (axes : arr) (X dX : batch) : res R :=
  U <- rbopf fdiv X (A1 (ravel axes)) ;;
  dU <- rbopf fdiv dX (A1 (ravel axes)) ;;
  sphere_jvp 1 (A1 (bflat U)) (A1 (bflat dU)).
Definition bellipsoid (axes : arr) : badf := fun X =>
  y <- bstretch (bsphere 1) axes X ;;
  dy <- sequence (flat_map (fun i => map (fun j => bscaled_sphere_jvp axes X (bunit X i j)) (seq 0 (cols X)))
                           (seq 0 (length (rows X)))) ;;
  s <- fsqrt (y ^ 2 + normR dy ^ 2) ;;
  fdiv y s.

(** ** Programs (M_Solid); [user f] is what a function written by the user returns for a
    2-d array *)
Definition bbuild_prim (user : adf -> badf) (p : prim) : badf :=
  match p with
  | Cuboid e c s => bcuboid (A1 e) c s
  | Cube e c s => bcuboid (A0 e) c s
  | Sphere r => bsphere r
  | Cylinder r => bcylinder r
  | Ellipsoid a => bellipsoid (A1 a)
  | User f => user f
  end.
Definition bbuild_move (m : move) (f : badf) : res badf :=
  match m with
  | Translate y => Ok (btranslate f (A1 y))
  | Scale k => bscale f (A0 k)
  | Stretch a => Ok (bstretch f (A1 a))
  | Rotate2 t o1 o2 => Ok (brotate2d f t (A1 [o1; o2]))
  | Rotate3 t n o => brotate3d f (A0 t) (Some (A1 (list3 n))) (A1 (list3 o))
  | Euler a b c o => brotate3d f (A1 [a; b; c]) None (A1 (list3 o))
  | Reflect n o => Ok (breflect f (A1 n) (A1 o))
  | Project n o => Ok (bproject f (A1 n) (A1 o))
  | Revolve y => Ok (brevolution f (if y then 1%Z else 0%Z))
  end.
Definition bbuild_op2 (o : op2) (s : rsys) (f g : badf) : badf :=
  match o with
  | Union => bpointwise (disj_ s) f g
  | Intersection => bpointwise (conj_ s) f g
  | Equivalence => bpointwise (fun a b => c1 <- disj_ s a (- b) ;; c2 <- disj_ s (- a) b ;; conj_ s c1 c2) f g
  | Implication => bpointwise (fun a b => disj_ s (- a) b) f g
  | Difference => bpointwise (fun a b => conj_ s a (- b)) f g
  | Xor => bpointwise (fun a b => c1 <- conj_ s a (- b) ;; c2 <- conj_ s (- a) b ;; disj_ s c1 c2) f g
  end.
Fixpoint bbuild (user : adf -> badf) (t : solid) : res badf :=
  match t with
  | Prim p => Ok (bbuild_prim user p)
  | Move m a => f <- bbuild user a ;; bbuild_move m f
  | Negate a => f <- bbuild user a ;; Ok (bnegate f)
  | Op2 o s a b => f <- bbuild user a ;; g <- bbuild user b ;; Ok (bbuild_op2 o s f g)
  | All s l => fs <- sequence (map (bbuild user) l) ;; Ok (bcompose (conj_ s) fs)
  | Any s l => fs <- sequence (map (bbuild user) l) ;; Ok (bcompose (disj_ s) fs)
  end.
