(** Model of the programs in examples/pacman.ipynb and examples/elm_poisson.ipynb
    (definitions only).  Cells are cited by their order in the notebook. *)
From Coquelicot Require Import Coquelicot.
From Verif Require Import Base M_Quat M_RFun M_Domain M_Tensor M_Calc M_Integrate M_Surface M_Mumag M_Stray M_Solid.

(** pacman.ipynb, second code cell: [unit_vec = lambda x: x / norm(x)] *)
Definition nb_unit_vec (x : list R) : res (list R) := sequence (map (fun a => fdiv a (normR x)) x).
(** pacman.ipynb, second code cell: [lambda x: jnp.dot(x, unit_vec(n))]; for a scalar x
    the result is not a scalar, so it is no ADF *)
Definition half_space (n : list R) : adf := fun x =>
  match x with
  | A1 l => u <- nb_unit_vec n ;; if Nat.eqb (length l) (length u) then Ok (dotR l u) else Err TypeError
  | A0 _ => Err TypeError
  end.
Definition mouth (s : rsys) : solid :=
  Op2 Intersection s (Prim (User (half_space [1; 0; - (9 / 5)]))) (Prim (User (half_space [1; 0; 9 / 5]))).
Definition ball (r : R) (c : list R) : solid := Move (Translate c) (Prim (Sphere r)).
Definition pacman (s : rsys) : solid :=
  let left_eye := ball (1 / 4) [2 / 5; - (1 / 2); 3 / 5] in
  let right_eye := ball (1 / 4) [2 / 5; 1 / 2; 3 / 5] in
  let p := Op2 Difference s (Prim (Sphere 1)) (mouth s) in
  let p := Op2 Union s p left_eye in
  let p := Op2 Union s p right_eye in
  let p := Op2 Union s p (ball (3 / 20) [1; 0; 0]) in
  Op2 Union s p (ball (3 / 20) [2; 0; 0]).

(** The ansatz g(x) + adf(x) * N(x) for a function with boundary values g (elm_poisson.ipynb
    uses it with g = 0). *)
Definition hard_constraint (g f net : adf) : adf := fun x =>
  b <- g x ;; v <- f x ;; w <- net x ;; Ok (b + v * w).

(** elm_poisson.ipynb, third code cell: the hidden layer
    [adf(x) * exp(-gamma * norm(x - W_elm, axis=-1) ** 2)], one entry per row of W_elm.
    Rows of length 1 would be broadcast by the code and are not modelled. *)
Definition u_elm (f : adf) (gamma : R) (W : list (list R)) (x : list R) : res (list R) :=
  v <- f (A1 x) ;;
  if forallb (fun w => Nat.eqb (length w) (length x)) W
  then Ok (map (fun w => v * exp (- gamma * normR (map2 Rminus x w) ^ 2)) W)
  else Err TypeError.
(** [u_elm(x) @ beta] *)
Definition elm_model (f : adf) (gamma : R) (W : list (list R)) (beta x : list R) : res R :=
  u <- u_elm f gamma W x ;;
  if Nat.eqb (length u) (length beta) then Ok (dotR u beta) else Err TypeError.
(** the hidden layer as a function of a 1-d array.  Its derivatives are those of the real
    function.  The code differentiates [norm(.) ** 2] and gets nan where x is a row of
    W_elm: the theorem about the fit excludes these points. *)
Definition elm_layer (f : adf) (gamma : R) (W : list (list R)) (x : tensor) : res tensor :=
  match shape x with
  | [_] => u <- u_elm f gamma W (tlist x) ;; Ok (tvec u)
  | _ => Err TypeError
  end.
(** [S / (S ** 2 + l2_reg)] *)
Definition ridge_filter (l2 : R) (s : tensor) : res tensor :=
  d <- sequence (map (fun e => fdiv e (e ^ 2 + l2)) (tlist s)) ;; Ok (tvec d).
(** [VT.T * (S / (S ** 2 + l2_reg)) @ U.T]; [svd] is [jax.scipy.linalg.svd] with
    [full_matrices=False] *)
Definition ridge_inverse (svd : tensor -> tensor * tensor * tensor) (l2 : R) (Q : tensor) : res tensor :=
  let '(U, s, VT) := svd Q in
  d <- ridge_filter l2 s ;;
  a <- tbop Rmult (ttrans VT) d ;;
  tmatmul a (ttrans U).
(** the weights beta; the points [x_dom] are the list [X] of their rows *)
Definition poisson_fit (svd : tensor -> tensor * tensor * tensor) (f : adf) (gamma : R) (W : list (list R)) (l2 : R)
  (sol : tensor -> res tensor) (X : list tensor) : res tensor :=
  Q <- vmapT (laplace (elm_layer f gamma W)) X ;;
  P <- ridge_inverse svd l2 Q ;;
  b <- vmapT (laplace sol) X ;;
  tmatvec P b.
