(** Model of magpi/integrate.py (definitions only).  A quadrature rule maps a grid to
    (weights, nodes).  Integrands return arrays of shape () or (m,); pytrees of such
    arrays are integrated leaf by leaf (tree.map, integrate.py:140).  Additional
    arguments [*args, **kwargs] are added in M_IntArgs. *)
From Verif Require Import Base.

Definition quadrule := list R -> res (list R * list R).

(** [f(domain[:-1], domain[1:])] for an elementwise f *)
Definition adjacent {C} (f : R -> R -> C) (d : list R) : list C := map2 f d (tl d).

(** integrate.py:20-23 midpoint *)
Definition midpoint : quadrule := fun d =>
  Ok (adjacent (fun a b => b - a) d, adjacent (fun a b => (b + a) / 2) d).

(** integrate.py:26-32 trap; a = d padded behind, b = d padded in front *)
Definition trap : quadrule := fun domain =>
  let d := adjacent (fun a b => b - a) domain in
  let a := match domain with [] => [] | _ => d ++ [0] end in
  let b := match domain with [] => [] | _ => 0 :: d end in
  Ok (map2 (fun x y => (x + y) / 2) a b, domain).

(** [w.at[start::step].set(vals)]: strided write *)
Definition strided_set (start step : nat) (vals l : list R) : list R :=
  map (fun p =>
         if (Nat.leb start p && Nat.eqb ((p - start) mod step) 0
             && Nat.ltb ((p - start) / step) (length vals))%bool
         then nth ((p - start) / step) vals 0 else nth p l 0)
      (seq 0 (length l)).

(** [jnp.insert(l, idx, vals)] for increasing indices: vals[j] goes before l[idx[j]] *)
Fixpoint np_insert (p : nat) (l : list R) (iv : list (nat * R)) : list R :=
  let here := map snd (filter (fun q => Nat.eqb (fst q) p) iv) in
  match l with
  | [] => here
  | a :: t => here ++ a :: np_insert (S p) t iv
  end.

(** integrate.py:35-50 simpson.  The slice [2:-1:2] has as many entries as the values
    written to it.  With fewer than two grid points [_w[0, 0]] has no entry to read. *)
Definition simpson : quadrule := fun domain =>
  let _w := adjacent (fun a b => ((b - a) / 6 * 1, (b - a) / 6 * 4, (b - a) / 6 * 1)) domain in
  match _w with
  | [] => Err IndexError
  | w0 :: _ =>
    let n := (length domain + length domain - 1)%nat in
    let w := repeat 0 n in
    let w := upd w 0 (fst (fst w0)) in
    let w := upd w (n - 1) (snd (last _w w0)) in
    let w := strided_set 1 2 (map (fun t => snd (fst t)) _w) w in
    let w := strided_set 2 2 (map2 (fun t t' => snd t + fst (fst t')) _w (tl _w)) w in
    let m := adjacent (fun a b => (a + b) / 2) domain in
    let i := seq 1 (length domain - 1) in
    Ok (w, np_insert 0 domain (combine i m))
  end.

(** integrate.py:53-63 gauss; the reference rule (numpy's leggauss) is the argument *)
Definition gauss (nodes weights : list R) : quadrule := fun domain =>
  let w := adjacent (fun a b => map (fun v => (b - a) / 2 * v) weights) domain in
  let n := adjacent (fun a b => map (fun x => (a + b) / 2 + x * (b - a) / 2) nodes) domain in
  Ok (concat w, concat n).

(** Points of a product grid in C order, the first list varying slowest. *)
Fixpoint cartesian (ls : list (list R)) : list (list R) :=
  match ls with
  | [] => [[]]
  | l :: rest => flat_map (fun a => map (cons a) (cartesian rest)) l
  end.
Definition swap01 {A} (l : list A) : list A :=
  match l with a :: b :: t => b :: a :: t | _ => l end.
(** [stack(jnp.meshgrid( *ls), axis=-1)] flattened in C order: with the default
    indexing='xy' the second list varies slowest, then the first, the third, ... *)
Definition meshgrid (ls : list (list R)) : list (list R) :=
  map swap01 (cartesian (swap01 ls)).

(** [tensordot(W, F, k)] where W has the k grid axes, F the same axes followed by the
    shape of the integrand's result ([jnp.apply_along_axis] evaluates all points with
    one traced function, so all results have the same shape). *)
Fixpoint weighted_sum (W : list R) (F : list arr) : res arr :=
  match W, F with
  | [w], [z] => Ok (amap (Rmult w) z)
  | w :: W', z :: F' => s <- weighted_sum W' F' ;;
      match z, s with
      | A0 x, A0 y => Ok (A0 (w * x + y))
      | A1 l, A1 m => if Nat.eqb (length l) (length m)
                      then Ok (A1 (map2 (fun x y => w * x + y) l m)) else Err TypeError
      | _, _ => Err TypeError
      end
  | _, _ => Err TypeError
  end.

(** integrate.py:66-140 integrate; the domain is the list of grids (an array of shape (n,) counts as
    one grid, one of shape (k,n) as its k rows).  In one dimension apply_along_axis calls the integrand
    once with the array of all nodes; in several dimensions it is called on every point.
    An empty domain list fails in [W, X = zip(...)]. *)
Definition integrate (f : list R -> res arr) (domain : list (list R)) (method : quadrule) : res arr :=
  WX <- sequence (map method domain) ;;
  match WX with
  | [] => Err ValueError
  | [(W, X)] =>
      z <- f X ;;
      match z with
      | A0 _ => Err TypeError
      | A1 z => if Nat.eqb (length W) (length z) then Ok (A0 (dotR W z)) else Err TypeError
      end
  | _ =>
      let W := map prodR (meshgrid (map fst WX)) in
      let X := meshgrid (map snd WX) in
      F <- sequence (map f X) ;; weighted_sum W F
  end.

(** [jnp.linspace(start, stop, n)] *)
Definition linspace (start stop : R) (n : nat) : list R :=
  match n with
  | O => []
  | S O => [start]
  | S k => map (fun i => start + INR i * ((stop - start) / INR k)) (seq 0 n)
  end.

(** [n: int | tuple[int, ...]] (integrate.py:147,206,183-186,239-242) *)
Inductive counts := NInt (n : nat) | NTup (l : list nat).
Definition expand_counts (k : nat) (n : counts) : res (list nat) :=
  match n with
  | NInt n => Ok (repeat n k)
  | NTup l => if Nat.eqb (length l) k then Ok l else Err AssertionError
  end.

(** [tree.map(lambda f: f * c, z)] *)
Definition scale_arr (c : R) (z : arr) : arr := amap (fun v => v * c) z.

(** integrate.py:143-199 integrate_disk *)
Definition disk_integrand (f : list R -> res arr) (o : list R) (u : list R) : res arr :=
  match u with
  | [r; phi] =>
      p <- bcast1 Rplus [r * cos phi; r * sin phi] o ;;
      z <- f p ;; Ok (scale_arr r z)
  | _ => Err ValueError
  end.
Definition integrate_disk (f : list R -> res arr) (r : R) (o : list R) (n : counts)
    (r_inner phi1 phi2 : R) (method : quadrule) : res arr :=
  ns <- expand_counts 2 n ;;
  integrate (disk_integrand f o)
    [linspace r_inner r (nth 0 ns 0%nat); linspace phi1 phi2 (nth 1 ns 0%nat)] method.

(** integrate.py:202-257 integrate_sphere *)
Definition sphere_integrand (f : list R -> res arr) (o : list R) (t : list R) : res arr :=
  match t with
  | [r; phi; theta] =>
      p <- bcast1 Rplus [r * sin phi * cos theta; r * sin phi * sin theta; r * cos phi] o ;;
      z <- f p ;; Ok (amap (fun v => v * r ^ 2 * sin phi) z)
  | _ => Err ValueError
  end.
Definition integrate_sphere (f : list R -> res arr) (r : R) (o : list R) (n : counts)
    (r_inner phi1 phi2 theta1 theta2 : R) (method : quadrule) : res arr :=
  ns <- expand_counts 3 n ;;
  integrate (sphere_integrand f o)
    [linspace r_inner r (nth 0 ns 0%nat); linspace phi1 phi2 (nth 1 ns 0%nat);
     linspace theta1 theta2 (nth 2 ns 0%nat)] method.
