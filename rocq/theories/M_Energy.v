(** Model of the energies and losses of examples/hysteresis.ipynb and examples/mumag3.ipynb
    (definitions only).  Lines are those of the notebook files.  The network is
    an arbitrary function of the parameters (a vector) and the point. *)
From Coquelicot Require Import Coquelicot.
From Verif Require Import Base M_XR M_Tr M_Quat M_RFun M_Domain M_Tensor M_Calc M_Integrate M_Surface M_Mumag M_HvpTree M_TrFun.

(** [jnp.mean] of a vector *)
Definition mean (l : list R) : res R := fdiv (sumR l) (INR (length l)).
(** [mean(vmap(f)(x))] of a function with scalar results *)
Definition mean_of {A} (f : A -> res R) (X : list A) : res R := v <- sequence (map f X) ;; mean v.
(** all indices of an array of shape [s] *)
Fixpoint tidx (s : list nat) : list (list nat) :=
  match s with [] => [[]] | n :: s' => flat_map (fun i => map (cons i) (tidx s')) (seq 0 n) end.
(** [jnp.sum] *)
Definition tsum (a : tensor) : R := sumR (map (entry a) (tidx (shape a))).
(** [a @ b] and [dot(a, b)] of two vectors *)
Definition tdot1 (a b : tensor) : res R :=
  match shape a, shape b with
  | [n], [m] => if Nat.eqb n m then Ok (sumR (map (fun i => entry a [i] * entry b [i]) (seq 0 n))) else Err TypeError
  | _, _ => Err TypeError
  end.

(** ** initial magnetizations *)
(** hysteresis.ipynb:41, [zeros_like(x).at[..., 0].set(1.)] *)
Definition m_x (x : list R) : res (list R) := match x with [] => Err IndexError | _ :: t => Ok (1 :: map (fun _ => 0) t) end.
(** mumag3.ipynb:44-55 and 57-62, for one point of three coordinates *)
Definition m_vortex (p : list R) : res (list R) :=
  match p with
  | [x; y; z] =>
      let rc := 14 / 100 in
      let r := sqrt (z ^ 2 + x ^ 2) in
      let k := r ^ 2 / rc ^ 2 in
      let my := exp (-2 * k) in
      q1 <- fdiv (- z) r ;;
      s <- fsqrt (1 - exp (-4 * k)) ;;
      q3 <- fdiv x r ;;
      unit_vec [q1 * s; my; q3 * s]
  | _ => Err TypeError
  end.
Definition m_flower (p : list R) : res (list R) :=
  match p with
  | [x; y; z] => unit_vec [x * z; y * z; 1]
  | _ => Err TypeError
  end.

(** hysteresis.ipynb:96-100 and mumag3.ipynb:136-140: [mag]; [net] has its parameters *)
Definition mag (c : brick) (m0 net : list R -> res (list R)) (x : tensor) : res tensor :=
  match shape x with
  | [_] =>
      z <- cub_normalize c (A1 (tlist x)) ;;
      p <- net (ravel z) ;;
      m <- m0 (ravel z) ;;
      y <- cayley_rotation p m ;;
      Ok (tvec y)
  | _ => Err TypeError
  end.

(** ** energies, hysteresis.ipynb:102-125 and mumag3.ipynb:142-161 *)
Definition field := tensor -> res tensor.
Definition e_exchange (m : field) (x : tensor) : res R :=
  dm <- jacfwd m x ;; p <- tbop Rmult dm dm ;; Ok (tsum p).
Definition exchange_energy (A : R) (m : field) (X : list tensor) : res R :=
  v <- mean_of (e_exchange m) X ;; Ok (A * v).
Definition ani_energy (Ka : R) (axis : tensor) (m : field) (X : list tensor) : res R :=
  v <- mean_of (fun x => y <- m x ;; d <- tdot1 y axis ;; Ok (1 - d ^ 2)) X ;; Ok (Ka * v).
Definition ext_energy (m : field) (X : list tensor) (hext : tensor) : res R :=
  v <- mean_of (fun x => y <- m x ;; tdot1 y hext) X ;; Ok (- v).
(** the points come with their precomputed tensors; the factor [k] is 1/2 in
    hysteresis.ipynb and 1 in mumag3.ipynb *)
Definition mag_energy (k : R) (hs : tensor -> list tensor -> res tensor) (m : field) (X : list (tensor * list tensor)) : res R :=
  v <- mean_of (fun p => y <- m (fst p) ;; h <- hs (fst p) (snd p) ;; tdot1 y h) X ;; Ok (- k * v).

(** ** losses *)
Record outcome := mkOut { l_value : R; e_tot : R; e_mag : R; e_ex : R; e_ani : R; e_ext : R }.
(** hysteresis.ipynb:129-145: [loss].  [m'] is the magnetization with the parameters under
    [stop_gradient]: it has the same value as [m], but derivatives are those of [m] only *)
Definition hyst_loss (solver : field -> tensor -> list tensor -> res tensor) (A Ka : R) (axis hext_axis : tensor)
  (X : list (tensor * list tensor)) (m m' : field) (hext : R) : res outcome :=
  ex <- exchange_energy A m (map fst X) ;;
  an <- ani_energy Ka axis m (map fst X) ;;
  mg <- mag_energy (1 / 2) (solver m') m X ;;
  xt <- ext_energy m (map fst X) (tmap (fun e => hext * e) hext_axis) ;;
  Ok (mkOut (ex + an + xt + 2 * mg) (ex + an + mg + xt) mg ex an xt).
(** mumag3.ipynb:167-181: [_loss] for one [lam]; no external field *)
Definition mumag_loss1 (solver : field -> tensor -> list tensor -> res tensor) (X : list (tensor * list tensor))
  (m m' : field) (lam : R) : res outcome :=
  A <- fdiv 1 (lam ^ 2) ;;
  ex <- exchange_energy A m (map fst X) ;;
  an <- ani_energy (1 / 10) (tvec [0; 0; 1]) m (map fst X) ;;
  mg <- mag_energy 1 (solver m') m X ;;
  Ok (mkOut (ex + an + 2 * mg) (ex + an + mg) mg ex an 0).
(** mumag3.ipynb:164-182: [loss]; the magnetizations depend on [lam] *)
Definition mumag_loss (solver : field -> tensor -> list tensor -> res tensor) (X : list (tensor * list tensor))
  (m m' : R -> field) (lams : list R) : res outcome :=
  o <- sequence (map (fun lam => mumag_loss1 solver X (m lam) (m' lam) lam) lams) ;;
  l <- mean (map l_value o) ;; t <- mean (map e_tot o) ;; g <- mean (map e_mag o) ;;
  x <- mean (map e_ex o) ;; a <- mean (map e_ani o) ;;
  Ok (mkOut l t g x a 0).

(** ** minimisation with TR *)
(** the entry [g] of the result of a loss *)
Definition out_of (g : outcome -> R) (r : res outcome) : R := match r with Ok o => g o | Err _ => 0 end.
(** hysteresis.ipynb:153-161: the objective of [TR(loss, has_aux=True)] for parameters
    in one vector.  [F theta theta'] is the loss with [theta'] under [stop_gradient], at every
    order of differentiation.  Where it fails the results are nan. *)
Definition stop_grad (F : list R -> list R -> res outcome) (fixed theta : list R) : list R :=
  map (fun i => Derive (fun s => out_of l_value (F (upd theta i s) fixed)) (nth i theta 0)) (seq 0 (length theta)).
Definition stop_objective (F : list R -> list R -> res outcome) : M_Tr.objective (option outcome) :=
  M_Tr.mkObj
    (fun p => match number_tree p with
       | Some [theta] => match F theta theta with
                         | Ok o => (Fin (l_value o), Some o, [map Fin (stop_grad F theta theta)])
                         | Err _ => (NaN, None, nans p)
                         end
       | _ => (NaN, None, nans p)
       end)
    (fun p d => match number_tree p, number_tree d with
       | Some [theta], Some [w] =>
           [map (fun i => Fin (Derive (fun s => nth i (stop_grad F theta (map2 (fun a b => a + s * b) theta w)) 0) 0)) (seq 0 (length theta))]
       | _, _ => nans d
       end).
(** hysteresis.ipynb:153-161: the options of the first minimisation *)
Definition hyst_tr : M_Tr.tr_cfg :=
  M_Tr.mkTr 1 2 (1 / 10000) (3 / 4) 2 (1 / 4) (1 / 4) (1 / 5) (1 / 2) None (1 / 10000) None false (1 / 10000).
