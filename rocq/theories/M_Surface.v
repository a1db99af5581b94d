(** Model of /repo/magpi/surface_integral.py (definitions only).  Arrays are tensors;
    grids are lists of reals, so the rank assertions on u and v hold by typing.
    Integrands return one array (pytrees are mapped leaf by leaf). *)
From Coquelicot Require Import Coquelicot.
From Verif Require Import Base M_Tensor M_Calc M_Integrate.

(** ** array operations *)
(** [jax.vmap] over a leading axis: results are stacked; all have the same shape.
    Empty axes are not modelled (the grids have two or more points). *)
Definition vmapT {A} (f : A -> res tensor) (xs : list A) : res tensor :=
  ys <- sequence (map f xs) ;;
  match ys with
  | [] => Err ValueError
  | y0 :: _ =>
      if forallb (fun y => list_eqb (shape y) (shape y0)) ys
      then Ok (mkT (length ys :: shape y0) (fun p => entry (nth (hd 0%nat p) ys y0) (tl p)))
      else Err TypeError
  end.
(** [a[i]] *)
Definition trow (a : tensor) (i : nat) : tensor := mkT (tl (shape a)) (fun p => entry a (i :: p)).
(** [jnp.linalg.norm(a)] flattens *)
Definition tnorm (a : tensor) : R := normR (tlist (travel a)).
(** [jnp.cross(a, b)] of two 3-vectors (2-vectors are not modelled) *)
Definition cross_at (a b : nat -> R) (i : nat) : R :=
  match i with
  | O => a 1%nat * b 2%nat - a 2%nat * b 1%nat
  | S O => a 2%nat * b 0%nat - a 0%nat * b 2%nat
  | _ => a 0%nat * b 1%nat - a 1%nat * b 0%nat
  end.
Definition tcross (a b : tensor) : res tensor :=
  if andb (list_eqb (shape a) [3%nat]) (list_eqb (shape b) [3%nat])
  then Ok (mkT [3%nat] (fun p => cross_at (fun k => entry a [k]) (fun k => entry b [k]) (hd 0%nat p)))
  else Err TypeError.
(** [jnp.cross] of two arrays of M rows of 3-vectors (other shapes are not modelled) *)
Definition tcross_rows (a b : tensor) : res tensor :=
  match shape a, shape b with
  | [m; k], [m'; k'] =>
      if andb (Nat.eqb m m') (andb (Nat.eqb k 3) (Nat.eqb k' 3))
      then Ok (mkT [m; 3%nat] (fun p => cross_at (fun k => entry a [hd 0%nat p; k]) (fun k => entry b [hd 0%nat p; k])
                                                 (hd 0%nat (tl p))))
      else Err TypeError
  | _, _ => Err TypeError
  end.
(** [jnp.tensordot(a, b, 0)]: outer product *)
Definition touter (a b : tensor) : tensor :=
  mkT (shape a ++ shape b)
      (fun p => entry a (firstn (length (shape a)) p) * entry b (skipn (length (shape a)) p)).
(** [jnp.tensordot(a, b, ((0,), (0,)))]: contraction of the leading axes *)
Definition tcontract0 (a b : tensor) : res tensor :=
  match shape a, shape b with
  | m :: s, n :: t =>
      if Nat.eqb m n
      then Ok (mkT (s ++ t) (fun p =>
             sumR (map (fun k => entry a (k :: firstn (length s) p) * entry b (k :: skipn (length s) p)) (seq 0 m))))
      else Err TypeError
  | _, _ => Err TypeError
  end.
(** row-major position of an index; [a.reshape(s)] *)
Fixpoint ravel_idx (s p : list nat) : nat :=
  match s, p with
  | _ :: s', i :: p' => (i * nprod s' + ravel_idx s' p')%nat
  | _, _ => 0%nat
  end.
Definition treshape (s : list nat) (a : tensor) : tensor :=
  mkT s (fun p => entry a (unravel (shape a) (ravel_idx s p))).
(** [jnp.concatenate(l, axis=-1)] of arrays that agree in the other axes *)
Fixpoint block (l : list tensor) (q : list nat) (m : nat) : R :=
  match l with
  | [] => 0
  | a :: l' => let n := last (shape a) 0%nat in
               if Nat.ltb m n then entry a (q ++ [m]) else block l' q (m - n)
  end.
Definition tconcat (l : list tensor) : res tensor :=
  match l with
  | [] => Err ValueError
  | a :: _ =>
      if forallb (fun b => list_eqb (removelast (shape b)) (removelast (shape a))) l
      then Ok (mkT (removelast (shape a) ++ [fold_right Nat.add 0%nat (map (fun b => last (shape b) 0%nat) l)])
                   (fun p => block l (removelast p) (last p 0%nat)))
      else Err TypeError
  end.
(** [a.swapaxes(-1, 0)] *)
Definition swap_ends {A} (l : list A) : list A :=
  match l with
  | a :: b :: t => last t b :: removelast (b :: t) ++ [a]
  | _ => l
  end.
Definition tswap (a : tensor) : tensor := mkT (swap_ends (shape a)) (fun p => entry a (swap_ends p)).

(** ** integration *)
(** integrate.py:66-140 for two grids and an integrand on points of shape (2,) with an
    array result of any shape; the same formula as [integrate] in M_Integrate *)
Definition tintegrate (f : tensor -> res tensor) (u v : list R) (method : quadrule) : res tensor :=
  ru <- method u ;; rv <- method v ;;
  let W := map prodR (meshgrid [fst ru; fst rv]) in
  let X := meshgrid [snd ru; snd rv] in
  F <- vmapT (fun p => f (tvec p)) X ;;
  if Nat.eqb (length W) (length X)
  then Ok (mkT (tl (shape F)) (fun p => sumR (map (fun k => nth k W 0 * entry F (k :: p)) (seq 0 (length W)))))
  else Err TypeError.

(** surface_integral.py:9-17 *)
Definition surface_integrand (f : list tensor -> res tensor) (P : tensor -> res tensor) (args : list tensor)
  (x : tensor) : res tensor :=
  J <- jacfwd P x ;;
  _ <- assert_ (list_eqb (shape J) [3; 2]%nat) ;;
  let ru := mkT [3%nat] (fun p => entry J [hd 0%nat p; 0%nat]) in
  let rv := mkT [3%nat] (fun p => entry J [hd 0%nat p; 1%nat]) in
  c <- tcross ru rv ;;
  let z := tnorm c in
  r <- P x ;;
  y <- f (r :: args) ;;
  Ok (tmap (fun e => e * z) y).
(** surface_integral.py:8-19; keyword arguments are part of [f] *)
Definition integrate_surface (f : list tensor -> res tensor) (P : tensor -> res tensor) (u v : list R)
  (args : list tensor) (method : quadrule) : res tensor :=
  tintegrate (surface_integrand f P args) u v method.

(** surface_integral.py:30-31, :45-46: rows of the stacked grid *)
Definition cells (u : list R) : list (R * R) := adjacent (fun a b => (a, b)) u.

(** surface_integral.py:35-38 for one cell *)
Definition center (P : tensor -> res tensor) (u v : R * R) : res tensor :=
  let u_bar := (snd u + fst u) / 2 in
  let v_bar := (snd v + fst v) / 2 in
  P (tvec [u_bar; v_bar]).

(** surface_integral.py:41-47 *)
Definition midpoints (P : tensor -> res tensor) (u v : list R) : res tensor :=
  vmapT (fun a => vmapT (fun b => center P a b) (cells v)) (cells u).

(** surface_integral.py:22-32 *)
Definition integrate_surface_elements (f : list tensor -> res tensor) (P : tensor -> res tensor) (u v : list R)
  (args : list tensor) (method : quadrule) : res tensor :=
  _ <- assert_ (Nat.leb 2 (length u)) ;;
  _ <- assert_ (Nat.leb 2 (length v)) ;;
  vmapT (fun a => vmapT (fun b =>
           c <- center P a b ;;
           integrate_surface f P [fst a; snd a] [fst b; snd b] (c :: args) method)
         (cells v)) (cells u).

(** ** source tensor *)
(** surface_integral.py:63-65: d, d (x) d, ... *)
Fixpoint moments (order : nat) (t d : tensor) : list tensor :=
  match order with
  | O => []
  | S o => travel t :: moments o (touter t d) d
  end.
(** surface_integral.py:53-68 *)
Definition source_integrand (order : nat) (a : list tensor) : res tensor :=
  match a with
  | [y; c; x] =>
      _ <- assert_ (list_eqb (shape y) [3%nat]) ;;
      _ <- assert_ (list_eqb (shape x) [3%nat]) ;;
      _ <- assert_ (list_eqb (shape c) [3%nat]) ;;
      xy <- tbop Rminus x y ;;
      let n := tnorm xy in
      d <- tbop Rminus y c ;;
      T <- tconcat (tvec [1] :: moments order d d) ;;
      if Req_EM_T n 0 then Err NonFinite else Ok (tmap (fun e => e / n) T)
  | _ => Err TypeError
  end.
(** surface_integral.py:50-71 *)
Definition source_tensor_ (x : tensor) (P : tensor -> res tensor) (u v : list R) (method : quadrule) (order : Z)
  : res tensor :=
  _ <- assert_ (Z.leb 0 order) ;;
  Z <- integrate_surface_elements (source_integrand (Z.to_nat order)) P u v [x] method ;;
  Ok (travel Z).
(** surface_integral.py:74-79 *)
Inductive source_result := SVal (s : tensor) | SValJac (s ds : tensor).
Definition source_tensor (x : tensor) P u v method order (compute_jacfwd : bool) : res source_result :=
  if compute_jacfwd then
    sj <- value_and_jacfwd (fun a => match a with [x] => source_tensor_ x P u v method order | _ => Err TypeError end)
                           0 [x] ;;
    Ok (SValJac (fst sj) (snd sj))
  else s <- source_tensor_ x P u v method order ;; Ok (SVal s).

(** ** charge tensor *)
(** surface_integral.py:92-96: the i-th round appends the derivatives of order i+1 *)
Fixpoint charge_terms (rounds i : nat) (df : tensor -> res tensor) (s0 : list nat) (c : tensor) : res (list tensor) :=
  match rounds with
  | O => Ok []
  | S r =>
      let df := jacfwd df in
      v <- df c ;;
      let v := tmap (fun e => e / INR (fact (i + 1))) v in
      let v := treshape (s0 ++ [(nprod (shape v) / nprod s0)%nat]) v in
      rest <- charge_terms r (i + 1) df s0 c ;;
      Ok (v :: rest)
  end.
(** surface_integral.py:87-99 *)
Definition charge_at (f : tensor -> res tensor) (order : nat) (c : tensor) : res tensor :=
  v0 <- f c ;;
  let F0 := mkT (shape v0 ++ [1%nat]) (fun p => entry v0 (removelast p)) in
  F <- charge_terms order 0 f (shape v0) c ;;
  coefs <- tconcat (F0 :: F) ;;
  Ok (tswap coefs).
(** surface_integral.py:82-104; parametrizations whose values are not vectors are not modelled *)
Definition charge_tensor (f : list tensor -> res tensor) (P : tensor -> res tensor) (u v : list R)
  (args : list tensor) (order : Z) : res tensor :=
  _ <- assert_ (Z.leb 0 order) ;;
  c <- midpoints P u v ;;
  match shape c with
  | [a; b; _] =>
      F <- vmapT (fun i => vmapT (fun j =>
             charge_at (fun x => f (x :: args)) (Z.to_nat order) (trow (trow c i) j)) (seq 0 b)) (seq 0 a) ;;
      let rest := skipn 3 (shape F) in
      Ok (treshape ((nprod (shape F) / nprod rest)%nat :: rest) F)
  | _ => Err TypeError
  end.

(** surface_integral.py:107-108 *)
Definition single_layer_potential (source charge : tensor) : res tensor :=
  t <- tcontract0 charge source ;; Ok (tmap (fun e => 1 / (4 * PI) * e) t).

(** surface_integral.py:111-113 *)
Definition curl_single_layer_potential (dsource charge : tensor) : res tensor :=
  c <- tcross_rows charge dsource ;;
  let curl_s := tmap Ropp c in
  Ok (mkT (tl (shape curl_s)) (fun p =>
        1 / (4 * PI) * sumR (map (fun k => entry curl_s (k :: p)) (seq 0 (hd 0%nat (shape curl_s)))))).

(** ** charges of the scalar and the vector potential *)
(** surface_integral.py:119-120, :126-127, :136-137, :143-144 *)
Definition unit_normal (adf : tensor -> res tensor) (x : tensor) : res tensor :=
  J <- jacfwd adf x ;;
  let n := tmap Ropp J in
  if Req_EM_T (tnorm n) 0 then Err NonFinite else Ok (tmap (fun e => e / tnorm n) n).
(** surface_integral.py:116-130 *)
Definition scalar_potential_charge (adf : tensor -> res tensor) (mag phi1 : list tensor -> res tensor)
  (normalized : bool) (x : tensor) (params_mag params_phi1 : list tensor) : res tensor :=
  n <- unit_normal adf x ;;
  m <- mag (x :: params_mag) ;;
  a <- tmatvec m n ;;
  if normalized then
    b <- phi1 (x :: params_phi1) ;;
    tbop Rplus a b
  else
    J <- jacfwd (fun x => phi1 (x :: params_phi1)) x ;;
    b <- tmatvec J n ;;
    tbop Rminus a b.
(** surface_integral.py:133-147 *)
Definition vector_potential_charge (adf : tensor -> res tensor) (mag A1 : list tensor -> res tensor)
  (normalized : bool) (x : tensor) (params_mag params_A1 : list tensor) : res tensor :=
  n <- unit_normal adf x ;;
  m <- mag (x :: params_mag) ;;
  a <- tcross m n ;;
  if normalized then
    b <- A1 (x :: params_A1) ;;
    tbop Rplus a b
  else
    J <- jacfwd (fun x => A1 (x :: params_A1)) x ;;
    b <- tmatvec J n ;;
    tbop Rminus a b.
