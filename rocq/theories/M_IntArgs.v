(** Model of the argument passing of magpi/integrate.py (definitions only): calls of integrate,
    integrate_disk and integrate_sphere with additional positional and keyword arguments, and
    the python rules that bind them.  The parameters without a default (f, domain, r, o, n) are
    given by position; a keyword argument of the same name is a second value for them. *)
From Coq Require Import String.
From Verif Require Import Base M_Integrate.
Open Scope string_scope.

(** arguments are arrays or quadrature rules *)
Inductive pyval := Val (a : arr) | Rule (q : quadrule).
Definition kwargs := list (string * pyval).
Definition lookup (name : string) (kw : kwargs) : option pyval :=
  match find (fun p => String.eqb (fst p) name) kw with Some p => Some (snd p) | None => None end.
Definition has (name : string) (kw : kwargs) : bool := existsb (fun p => String.eqb (fst p) name) kw.
Definition remove (name : string) (kw : kwargs) : kwargs := filter (fun p => negb (String.eqb (fst p) name)) kw.

(** [f(x, *args, **kwargs)] for a function of the user *)
Definition integrand := list R -> list pyval -> kwargs -> res arr.

(** python: bind positional and keyword arguments to parameters with defaults; the result is
    the values of the parameters, the remaining *args and the remaining **kwargs *)
Fixpoint bind_params (params : list (string * pyval)) (pos : list pyval) (kw : kwargs)
  : res (list pyval * list pyval * kwargs) :=
  match params with
  | [] => Ok ([], pos, kw)
  | (n, default) :: ps =>
      match pos with
      | v :: pos' =>
          if has n kw then Err TypeError
          else r <- bind_params ps pos' kw ;; Ok (v :: fst (fst r), snd (fst r), snd r)
      | [] =>
          let v := match lookup n kw with Some v => v | None => default end in
          r <- bind_params ps [] (remove n kw) ;; Ok (v :: fst (fst r), snd (fst r), snd r)
      end
  end.
(** the keyword-only parameter [method: QuadRule = simpson] *)
Definition take_method (kw : kwargs) : res (quadrule * kwargs) :=
  match lookup "method" kw with
  | Some (Rule q) => Ok (q, remove "method" kw)
  | Some (Val _) => Err TypeError
  | None => Ok (simpson, kw)
  end.
(** a second value for a parameter that is given by position *)
Definition no_second (names : list string) (kw : kwargs) : res unit :=
  if existsb (fun n => has n kw) names then Err TypeError else Ok tt.
(** limits of shape (); limits with other shapes are not modelled *)
Definition limit (v : pyval) : res R := match v with Val (A0 r) => Ok r | _ => Err TypeError end.

(** integrate.py:66-72 and 135-140 integrate *)
Definition integrate_py (f : integrand) (domain : list (list R)) (args : list pyval) (kw : kwargs) : res arr :=
  _ <- no_second ["f"; "domain"] kw ;;
  m <- take_method kw ;;
  integrate (fun x => f x args (snd m)) domain (fst m).

(** integrate.py:143-154 and 183-199 integrate_disk; the inner function is [g(u, *args, **kwargs)] *)
Definition integrate_disk_py (f : integrand) (r : R) (o : list R) (n : counts) (args : list pyval) (kw : kwargs) : res arr :=
  _ <- no_second ["f"; "r"; "o"; "n"] kw ;;
  b <- bind_params [("r_inner", Val (A0 0)); ("phi1", Val (A0 0)); ("phi2", Val (A0 (2 * PI)))] args kw ;;
  m <- take_method (snd b) ;;
  l <- sequence (map limit (fst (fst b))) ;;
  ns <- expand_counts 2 n ;;
  let g := fun u a k => _ <- no_second ["u"] k ;; disk_integrand (fun p => f p a k) o u in
  integrate_py g [linspace (nth 0 l 0) r (nth 0 ns 0%nat); linspace (nth 1 l 0) (nth 2 l 0) (nth 1 ns 0%nat)]
    (snd (fst b)) (("method", Rule (fst m)) :: snd m).

(** integrate.py:202-215 and 239-257 integrate_sphere; the inner function is [g(t, *args, **kwargs)] *)
Definition integrate_sphere_py (f : integrand) (r : R) (o : list R) (n : counts) (args : list pyval) (kw : kwargs) : res arr :=
  _ <- no_second ["f"; "r"; "o"; "n"] kw ;;
  b <- bind_params [("r_inner", Val (A0 0)); ("phi1", Val (A0 0)); ("phi2", Val (A0 PI));
                    ("theta1", Val (A0 0)); ("theta2", Val (A0 (2 * PI)))] args kw ;;
  m <- take_method (snd b) ;;
  l <- sequence (map limit (fst (fst b))) ;;
  ns <- expand_counts 3 n ;;
  let g := fun t a k => _ <- no_second ["t"] k ;; sphere_integrand (fun p => f p a k) o t in
  integrate_py g [linspace (nth 0 l 0) r (nth 0 ns 0%nat); linspace (nth 1 l 0) (nth 2 l 0) (nth 1 ns 0%nat);
                  linspace (nth 3 l 0) (nth 4 l 0) (nth 2 ns 0%nat)]
    (snd (fst b)) (("method", Rule (fst m)) :: snd m).
