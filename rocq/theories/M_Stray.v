(** Model of the fit in create_stray_field_solver, /repo/examples/mumag3.py:292-334
    (definitions only).  The points [X_dom] are the list [X] of their rows. *)
From Coquelicot Require Import Coquelicot.
From Verif Require Import Base M_Quat M_RFun M_Domain M_Tensor M_Calc M_Integrate M_Surface M_Mumag.

(** [a.T] of a matrix; other ranks are not used *)
Definition ttrans (a : tensor) : tensor :=
  mkT (rev (shape a)) (fun p => entry a (rev p)).
(** [a @ b] of two matrices *)
Definition tmatmul (a b : tensor) : res tensor :=
  match shape a, shape b with
  | [m; n], [n'; k] =>
      if Nat.eqb n n'
      then Ok (mkT [m; k] (fun p => sumR (map (fun l => entry a [nth 0 p 0%nat; l] * entry b [l; nth 1 p 0%nat]) (seq 0 n))))
      else Err TypeError
  | _, _ => Err TypeError
  end.
(** [1 / s] for a vector; a zero gives an infinite entry *)
Definition trecip (s : tensor) : res tensor :=
  if forallb (fun e => if Req_EM_T e 0 then false else true) (tlist s)
  then Ok (tmap (fun e => 1 / e) s) else Err NonFinite.

(** mumag3.py:303 *)
Definition fit_matrix (c : brick) (W b : tensor) (X : list tensor) : res tensor :=
  vmapT (fun x => y <- laplace (u_elm c W b) x ;; Ok (tmap Ropp y)) X.
(** mumag3.py:305-308; [svd] is [jax.scipy.linalg.svd] with [full_matrices=False] *)
Definition pinv (svd : tensor -> tensor * tensor * tensor) (Q : tensor) : res tensor :=
  let '(U, s, VT) := svd Q in
  i <- trecip s ;;
  a <- tbop Rmult (ttrans VT) i ;;
  tmatmul a (ttrans U).
(** mumag3.py:311-313 for the pseudo inverse [P] *)
Definition fit_weights (P : tensor) (X : list tensor) (m : list tensor -> res tensor) (args : list tensor) : res tensor :=
  b1 <- vmapT (fun x => y <- divergence m 0 (x :: args) ;; Ok (tmap Ropp y)) X ;;
  tmatvec P b1.
(** mumag3.py:303-313 *)
Definition stray_weights (svd : tensor -> tensor * tensor * tensor) (c : brick) (W b : tensor) (X : list tensor)
  (m : list tensor -> res tensor) (args : list tensor) : res tensor :=
  Q <- fit_matrix c W b X ;; P <- pinv svd Q ;; fit_weights P X m args.
(** mumag3.py:292-334 with [use_precomputed_grad_tensors=True]: the field at [x] *)
Definition stray_field_pre (svd : tensor -> tensor * tensor * tensor) (c : brick) (W b : tensor) (X : list tensor)
  (m : list tensor -> res tensor) (args : list tensor) (x : tensor) (dt : list tensor) : res tensor :=
  p <- stray_weights svd c W b X m args ;;
  hs_precomputed (phi1 c W b p) (stray_charge c W b p (fun y => m (y :: args))) c x dt.
(** mumag3.py:292-334 with [use_precomputed_grad_tensors=False].  In the code both
    variants evaluate the charges; here [hs_direct] evaluates them once. *)
Definition stray_field (svd : tensor -> tensor * tensor * tensor) (c : brick) (W b : tensor) (X : list tensor)
  (sub : subint) (method : quadrule) (m : list tensor -> res tensor) (args : list tensor) (x : tensor) : res tensor :=
  p <- stray_weights svd c W b X m args ;;
  hs_direct (phi1 c W b p) (stray_charge c W b p (fun y => m (y :: args))) c sub method x.
