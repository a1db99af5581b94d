(** Model of /repo/magpi/model.py.  Arrays are tensors with broadcasting; the
    random initial parameters of a network are an arbitrary function of the layer
    sizes; flax's parameter dictionary is the list of the layers' parameters. *)
From Coq Require Import String.
From Coquelicot Require Import Coquelicot.
From Verif Require Import Base M_Tensor M_Calc.
Open Scope R_scope.

Definition amodel := list tensor -> kwargs -> res tensor.

(** [int | Sequence[int]] and its normalisation, model.py:101-102, :156-160, :218-222 *)
Inductive argspec := One (i : Z) | Many (l : list Z).
Definition argn (a : argspec) : list Z := match a with One i => [i] | Many l => l end.
(** [(args[i] for i in argnums)], consumed by the call *)
Definition pick (args : list tensor) (a : argspec) : res (list tensor) :=
  sequence (map (pyget args) (argn a)).

(** the two call forms: decorator or direct *)
Inductive imposed := Decorator (d : amodel -> amodel) | Direct (m : amodel).
Definition impose_ (impose : amodel -> amodel) (model : option amodel) : imposed :=
  match model with None => Decorator impose | Some m => Direct (impose m) end.

(** [lambda *a, **k: asarray(0.0)], model.py:152, :214 *)
Definition zero_data (_ : list tensor) : res tensor := Ok (tsc 0).
Definition or_zero (g : option (list tensor -> res tensor)) : list tensor -> res tensor :=
  match g with None => zero_data | Some g => g end.

(** model.py:105-112 the model imposed by impose_ic; m0's arguments are fetched last *)
Definition ic_model (m0 : list tensor -> res tensor) (t0 rate : R) (argnums_m0 : argspec) (argnum_t : Z)
  (model : amodel) : amodel := fun args kw =>
  t <- pyget args argnum_t ;;
  let decay := tmap (fun r => exp (- rate * (r - t0))) t in
  value <- model args kw ;;
  xs <- pick args argnums_m0 ;;
  v0 <- m0 xs ;;
  a <- tbop Rmult v0 decay ;;
  b <- tbop Rmult (tmap (fun r => 1 - r) decay) value ;;
  tbop Rplus a b.
(** model.py:69-119 *)
Definition impose_ic m0 (model : option amodel) t0 rate argnums_m0 argnum_t : imposed :=
  impose_ (ic_model m0 t0 rate argnums_m0 argnum_t) model.

(** model.py:163-171 *)
Definition dirichlet_model (adf : list tensor -> res tensor) (g : option (list tensor -> res tensor))
  (argnums_adf argnums_g : argspec) (model : amodel) : amodel := fun args kw =>
  xs <- pick args argnums_adf ;;
  l <- adf xs ;;
  value <- model args kw ;;
  xg <- pick args argnums_g ;;
  value_g <- or_zero g xg ;;
  a <- tbop Rmult l value ;;
  tbop Rplus a value_g.
(** model.py:122-178 *)
Definition impose_dirichlet_bc adf (model : option amodel) g argnums_adf argnums_g : imposed :=
  impose_ (dirichlet_model adf g argnums_adf argnums_g) model.

(** Python slices [l[:a]] and [l[a:]] *)
Definition clip (n : nat) (a : Z) : nat :=
  Z.to_nat (if Z.ltb a 0 then Z.max 0 (a + Z.of_nat n) else Z.min a (Z.of_nat n)).
Definition slice_to {A} (l : list A) (a : Z) : list A := firstn (clip (length l) a) l.
Definition slice_from {A} (l : list A) (a : Z) : list A := skipn (clip (length l) a) l.

(** model.py:225-236 *)
Definition neumann_model (adf : list tensor -> res tensor) (h : option (list tensor -> res tensor))
  (argnums_adf : argspec) (argnum_model : Z) (argnums_h : argspec) (model : amodel) : amodel := fun args kw =>
  x <- pyget args argnum_model ;;
  let f x := model (slice_to args argnum_model ++ x :: slice_from args (argnum_model + 1)) kw in
  xs <- pick args argnums_adf ;;
  ln <- value_and_jacfwd adf 0 xs ;;
  let '(l, n) := ln in
  vd <- jvp (fun xs => match xs with [x] => f x | _ => Err TypeError end) [x] [n] ;;
  let '(value, normal_derivative) := vd in
  xh <- pick args argnums_h ;;
  value_h <- or_zero h xh ;;
  a <- tbop Rmult l normal_derivative ;;
  b <- tbop Rminus value a ;;
  c <- tbop Rmult l value_h ;;
  tbop Rminus b c.
(** model.py:181-243 *)
Definition impose_neumann_bc adf (model : option amodel) h argnums_adf argnum_model argnums_h : imposed :=
  impose_ (neumann_model adf h argnums_adf argnum_model argnums_h) model.

(** ** Multi layer perceptron *)
(** kernel (rows = inputs) and bias of one flax Dense layer *)
Definition dense_params := (list (list R) * list R)%type.

(** flax.linen.Dense: [x @ kernel + bias]; ValueError stands for flax's
    ScopeParamShapeError *)
Definition dense (features : nat) (kb : dense_params) (x : tensor) : res tensor :=
  let (K, b) := kb in
  match rev (shape x) with
  | [] => Err IndexError
  | n :: s =>
      if andb (Nat.eqb (length K) n)
              (andb (forallb (fun r => Nat.eqb (length r) features) K) (Nat.eqb (length b) features))
      then Ok (mkT (rev s ++ [features])
                 (fun q => sumR (map (fun i => entry x (removelast q ++ [i]) * nth (last q 0%nat) (nth i K []) 0)
                                     (seq 0 n))
                           + nth (last q 0%nat) b 0))
      else Err ValueError
  end.

(** model.py:18-33 MLP.__call__; [layers[-1]] of an empty list raises IndexError *)
Fixpoint mlp_call (layers : list nat) (activation : option (R -> R)) (params : list dense_params) (x : tensor)
  : res tensor :=
  let act := match activation with None => tanh | Some f => f end in
  match layers, params with
  | [], _ => Err IndexError
  | _, [] => Err ValueError
  | [o], p :: _ =>
      y <- dense o p x ;;
      Ok (if Nat.eqb o 1 then mkT (removelast (shape y)) (fun q => entry y (q ++ [0%nat])) else y)
  | l :: layers', p :: params' =>
      y <- dense l p x ;;
      mlp_call layers' activation params' (tmap act y)
  end.

(** flax's [init]: parameters for every layer, the input size of a layer being the
    output size of the previous one *)
Fixpoint init_params (init : nat -> nat -> nat -> dense_params) (i n : nat) (layers : list nat)
  : list dense_params :=
  match layers with
  | [] => []
  | m :: layers' => init i n m :: init_params init (S i) m layers'
  end.

(** model.py:36-66 mlp: the module and its parameters *)
Definition mlp (init : nat -> nat -> nat -> dense_params) (layers : list nat)
  : res (list nat * list dense_params) :=
  match layers with
  | [] => Err IndexError                     (* layers[0] *)
  | [_] => Err IndexError                    (* self.layers[-1] inside init *)
  | n :: layers' => Ok (layers', init_params init 0 n layers')
  end.
