(** Model of the rest of magpi/calc.py: flax modules as operands, Jacobians with
    auxiliary data and several argument numbers, reverse mode (definitions only). *)
From Coq Require Import String.
From Coquelicot Require Import Coquelicot.
From Verif Require Import Base M_Tensor M_Calc.
Import ListNotations.
Open Scope R_scope.

(** ** flax modules *)
(** A flax module: the names of the parameters of its __call__ (without self) and
    [f.apply(p, x, *args, **kwargs)].  The variables p are one array here. *)
Record module := mkM { mparams : list string; mapply : tensor -> list tensor -> kwargs -> res tensor }.
(** calc.py:29 [apply = lambda x, p, *args, **kwargs: f.apply(p, x, *args, **kwargs)] *)
Definition module_fun (m : module) : pyfun :=
  mkF ["x"; "p"; "args"; "kwargs"]%string
      (fun args kw => match args with
                      | x :: p :: rest => mapply m p (x :: rest) kw
                      | _ => Err TypeError
                      end).
(** calc.py:25-34 apply_to_module: the operand of a decorated operator *)
Inductive operand := OpFun (f : pyfun) | OpMod (m : module).
Definition apply_to_module (o : operand) : pyfun :=
  match o with OpFun f => f | OpMod m => module_fun m end.
(** inspect.signature of the operand *)
Definition signature (o : operand) : list string :=
  match o with OpFun f => params f | OpMod m => mparams m end.

(** calc.py:40-71 with its decorator *)
Definition op_value_and_derivative (o : operand) (w : sel) (argnum : option Z) :=
  value_and_derivative (apply_to_module o) w argnum.
(** calc.py:74, 115-130 [derivative(f, argnums)]: the decorator replaces a module *)
Definition op_derivative_fun (o : operand) (a : argnums_arg) : res pyfun :=
  derivative_fun (apply_to_module o) a.
(** calc.py:141-146 _df: the signature is that of the operand itself, while
    value_and_derivative sees the function of its decorator *)
Definition op_df (o : operand) (w : sel) (argnum : option Z) : res pyfun :=
  df <- op_value_and_derivative o w argnum ;;
  Ok (mkF (signature o) (fun args kw => yd <- df args kw ;; Ok (snd yd))).
(** calc.py:148-153 the loop; a module is returned unchanged if there is no selector *)
Fixpoint op_derive_all (o : operand) (l : list (sel * option Z)) : res operand :=
  match l with
  | [] => Ok o
  | (w, a) :: l' => g <- op_df o w a ;; op_derive_all (OpFun g) l'
  end.
(** calc.py:132-155 [derivative(wrt, argnums)(f)] *)
Definition op_derivative (w : wrt_arg) (a : argnums_arg) (o : operand) : res operand :=
  let ws := match w with WInt i => [SInt i] | WStr s => chars s | WSeq l => l end in
  let args := match a with
              | ANone => map (fun _ => None) ws
              | AInt i => map (fun _ => Some i) ws
              | ASeq l => l
              end in
  _ <- assert_ (Nat.eqb (List.length args) (List.length ws)) ;;
  op_derive_all o (combine ws args).

(** calc.py:349-364 laplace(f)(x, *args) with its decorator *)
Definition op_laplace (o : operand) (args : list tensor) (kw : kwargs) : res tensor :=
  match args with
  | x :: rest => laplace (fun x => call (apply_to_module o) (x :: rest) kw) x
  | [] => Err TypeError
  end.
(** calc.py:367-405 *)
Definition op_value_and_divergence (o : operand) (argnum : Z) (args : list tensor) (kw : kwargs) :=
  value_and_divergence (fun l => call (apply_to_module o) l kw) argnum args.
Definition op_divergence (o : operand) (argnum : Z) (args : list tensor) (kw : kwargs) : res tensor :=
  divergence (fun l => call (apply_to_module o) l kw) argnum args.
(** calc.py:408-425 *)
Definition op_curl (o : operand) (args : list tensor) : res tensor :=
  match args with
  | x :: rest => curl (fun x => call (apply_to_module o) (x :: rest) []) x
  | [] => Err TypeError
  end.

(** ** Jacobians *)
(** jax.vjp of a function of one array, applied to the cotangent u: the gradient of
    the inner product of u with the value *)
Definition vjp (f : tensor -> res tensor) (x : tensor) (s : list nat) (u : tensor) : tensor :=
  mkT (shape x)
      (fun q => Derive (fun t =>
         sumR (map (fun k => let p := unravel s k in
                             entry u p * entry_of (f (taxpy t x (tunit (shape x) q))) p)
                   (seq 0 (nprod s)))) 0).
(** jax.jacrev: one vjp per unit array of the output *)
Definition jacrev (f : tensor -> res tensor) (x : tensor) : res tensor :=
  y <- f x ;;
  let k := List.length (shape y) in
  Ok (mkT (shape y ++ shape x)
          (fun pq => entry (vjp f x (shape y) (tunit (shape y) (firstn k pq))) (skipn k pq))).

(** jacfwd / jacrev with respect to one of several arguments; argument numbers out of
    range are a ValueError *)
Definition jac_arg (jac : (tensor -> res tensor) -> tensor -> res tensor)
  (f : list tensor -> res tensor) (args : list tensor) (argnum : Z) : res tensor :=
  match pyget args argnum with
  | Err _ => Err ValueError
  | Ok x => jac (fun x => f (pyset args argnum x)) x
  end.
(** [argnums]; numbers that name an argument twice are not modelled *)
Inductive jac_nums := JOne (i : Z) | JMany (l : list Z).
(** one Jacobian, or a tuple *)
Inductive jacs := Jac (J : tensor) | Jacs (l : list tensor).
Definition jac_all jac (f : list tensor -> res tensor) (a : jac_nums) (args : list tensor) : res jacs :=
  match a with
  | JOne i => J <- jac_arg jac f args i ;; Ok (Jac J)
  | JMany l => Js <- sequence (map (jac_arg jac f args) l) ;; Ok (Jacs Js)
  end.
(** calc.py:158-178 value_and_jacfwd and calc.py:181-202 value_and_jacrev
    (has_aux=False; pytree outputs are in M_CalcTree and M_CalcTree2) *)
Definition value_and_jac jac (f : list tensor -> res tensor) (a : jac_nums) (args : list tensor)
  : res (tensor * jacs) :=
  J <- jac_all jac f a args ;; y <- f args ;; Ok (y, J).
(** the same with has_aux=True: f returns a pair, the result is ((y, aux), J) *)
Definition value_and_jac_aux {A} jac (f : list tensor -> res (tensor * A)) (a : jac_nums) (args : list tensor)
  : res ((tensor * A) * jacs) :=
  J <- jac_all jac (fun l => r <- f l ;; Ok (fst r)) a args ;;
  ya <- f args ;; Ok (ya, J).
Definition value_and_jacfwd_ := value_and_jac jacfwd.
Definition value_and_jacrev := value_and_jac jacrev.
Definition value_and_jacfwd_aux {A} := @value_and_jac_aux A jacfwd.
Definition value_and_jacrev_aux {A} := @value_and_jac_aux A jacrev.
