(** Model of magpi/tr.py (definitions only).  Arithmetic is exact but keeps inf and nan
    (M_XR.v).  Extra arguments *args/**kwargs are part of the objective; io_callback,
    jit, unroll and dtypes have no influence on the values. *)
From Verif Require Import Base M_XR.

(** tr.py:16-24 CgSteihaugResult *)
Record cg_result := mkCg {
  cg_iter : nat; cg_converged : bool; cg_limit_step : bool; cg_step_length : xr; cg_curvature : xr;
  cg_p : xtree; cg_eps : xr; cg_norm_r : xr }.

(** tr.py:303-311 the loop state of steihaug *)
Record cg_state := mkCgs {
  s_iter : nat; s_z : xtree; s_d : xtree; s_r : xtree; s_norm_z : xr; s_norm_r : xr; s_curv : xr }.

(** jaxopt.loop.while_loop(cond, body, init, maxiter) *)
Fixpoint while_loop {A} (maxiter : nat) (cond : A -> bool) (body : A -> A) (s : A) : A :=
  match maxiter with
  | O => s
  | S m => if cond s then while_loop m cond body (body s) else s
  end.

(** tr.py:259-266 limit_step *)
Definition limit_step (tr_radius : R) (z d : xtree) : xtree :=
  let a := xt_vdot d d in let b := xt_vdot z d in
  let c := xsub (xt_vdot z z) (Fin (tr_radius ^ 2)) in
  let q := xdiv b a in
  let disc := xsub (xmul q q) (xdiv c a) in
  let disc := if xltb disc (Fin 0) then Fin 0 else disc in
  let tau := xadd (xdiv (xneg b) a) (xsqrt disc) in
  let tau := xmax (Fin 0) tau in
  xt_axpy z tau d.

(** tr.py:268-295 step *)
Definition cg_step (hvp : xtree -> xtree) (tr_radius : R) (s : cg_state) : cg_state :=
  let z := s_z s in let d := s_d s in let r := s_r s in
  let rTr := xt_vdot r r in
  let Hd := hvp d in
  let curvature := xt_vdot d Hd in
  let alpha := xdiv rTr curvature in
  let z_new := xt_axpy z alpha d in
  let r_new := xt_axpy r alpha Hd in
  let beta := xdiv (xt_vdot r_new r_new) rTr in
  let d_new := xt_axpy (xt_neg r_new) beta d in
  let norm_z_new := xt_norm z_new in
  let norm_r_new := xt_norm r_new in
  let z := if orb (xleb curvature (Fin 0)) (xgeb norm_z_new (Fin tr_radius))
           then limit_step tr_radius z d else z_new in
  mkCgs (s_iter s + 1) z d_new r_new norm_z_new norm_r_new curvature.

(** tr.py:297-300 condition *)
Definition cg_cond (tr_radius : R) (eps : xr) (s : cg_state) : bool :=
  negb (orb (orb (xleb (s_curv s) (Fin 0)) (xgeb (s_norm_z s) (Fin tr_radius))) (xltb (s_norm_r s) eps)).

(** tr.py:255-257,303-311 initial loop state *)
Definition cg_init (grad_f : xtree) : cg_state :=
  mkCgs 0 (xt_zeros grad_f) (xt_neg grad_f) grad_f (Fin 0) (xt_norm grad_f) PInf.

(** tr.py:243-327 steihaug *)
Definition steihaug (grad_f : xtree) (hvp : xtree -> xtree) (tr_radius : R) (eps : xr) (maxiter : option nat) : cg_result :=
  let maxiter := match maxiter with None => (10 * xt_size grad_f)%nat | Some m => m end in
  let state := while_loop maxiter (cg_cond tr_radius eps) (cg_step hvp tr_radius) (cg_init grad_f) in
  let converged := negb (cg_cond tr_radius eps state) in
  let steplength := xt_norm (s_z state) in
  mkCg (s_iter state) converged (xisclose steplength (Fin tr_radius)) steplength (s_curv state) (s_z state) eps (s_norm_r state).

(** tr.py:330-351 update_tr_radius *)
Definition update_tr_radius (tr_radius max_tr_radius min_tr_radius : R) (rho stepsize : xr)
    (rho_increase rho_decrease increase_factor decrease_factor : R) : R :=
  let limit := xisclose stepsize (Fin tr_radius) in
  let tr_radius :=
    if xltb rho (Fin rho_decrease) then tr_radius * decrease_factor
    else if andb (xgtb rho (Fin rho_increase)) limit then Rmin (tr_radius * increase_factor) max_tr_radius
    else tr_radius in
  Rmax tr_radius min_tr_radius.

(** tr.py:43-76 the options of TR that influence the updates *)
Record tr_cfg := mkTr {
  init_tr_radius : R; max_tr_radius : R; min_tr_radius : R;
  rho_increase : R; increase_factor : R; rho_decrease : R; decrease_factor : R; rho_accept : R;
  forcing_parameter : R; damping_factor : option R; tol : R; maxiter_steihaug : option nat;
  approx_hvp : bool; fd_h : R }.

(** tr.py:52-66 default values *)
Definition default_tr : tr_cfg :=
  mkTr 1 2 (1 / 10000) (3 / 4) 2 (1 / 4) (1 / 4) (1 / 4) (1 / 2) None (1 / 100) None false (1 / 10000).

(** tr.py:226-235 __post_init__ *)
Definition make_tr (c : tr_cfg) : res tr_cfg :=
  if Rlt_dec (rho_decrease c) (rho_accept c) then Err ValueError else Ok c.

(** tr.py:27-36 TrState *)
Record tr_state (A : Type) := mkTrs {
  iter_num : nat; accepted : bool; value : xr; grad : xtree; error : xr; rho : xr;
  tr_radius : R; aux : A; subproblem : cg_result }.
Arguments mkTrs {A}. Arguments iter_num {A}. Arguments accepted {A}. Arguments value {A}. Arguments grad {A}.
Arguments error {A}. Arguments rho {A}. Arguments tr_radius {A}. Arguments aux {A}. Arguments subproblem {A}.

(** An objective: _value_and_grad_with_aux and the Hessian-vector product at a point
    (calc.value_grad_hvp differentiates the gradient). *)
Record objective (A : Type) := mkObj { vg : xtree -> xr * A * xtree; hess : xtree -> xtree -> xtree }.
Arguments mkObj {A}. Arguments vg {A}. Arguments hess {A}.

(** tr.py:78-109 init_state; the second argument is the state of a previous step, if
    the parameters are given as an OptStep *)
Definition init_state {A} (c : tr_cfg) (f : objective A) (params : xtree) (prev : option (tr_state A)) : tr_state A :=
  let radius := match prev with
                | Some s => if Rle_dec (tr_radius s) (min_tr_radius c) then init_tr_radius c else tr_radius s
                | None => init_tr_radius c end in
  let it := match prev with Some s => iter_num s | None => 0%nat end in
  let '(v, a, g) := vg f params in
  mkTrs it false v g (xt_norm g) (Fin 0) radius a
    (mkCg 0 false false (Fin 0) (Fin 0) (xt_zeros params) PInf PInf).

(** tr.py:117-134 the Hessian-vector product: by finite differences of the gradient or exact *)
Definition tr_hvp {A} (c : tr_cfg) (f : objective A) (params : xtree) : xtree -> xtree :=
  if approx_hvp c then
    let '(_, _, old_grad) := vg f params in
    fun p =>
      let params' := xt_add params (xt_scal (Fin (fd_h c)) p) in
      let '(_, _, df) := vg f params' in
      xt_scal (Fin (1 / fd_h c)) (xt_sub df old_grad)
  else hess f params.

(** tr.py:135-138 damping *)
Definition damped (c : tr_cfg) (hvp : xtree -> xtree) : xtree -> xtree :=
  match damping_factor c with
  | None => hvp
  | Some l => fun x => xt_axpy (hvp x) (Fin l) x
  end.

(** tr.py:141-144 the inner tolerance *)
Definition inner_eps (c : tr_cfg) (prev_eps norm_df : xr) : xr :=
  let eps := xmul (xmin (Fin (1 / 2)) (xpow norm_df (forcing_parameter c))) norm_df in
  let eps := xmin prev_eps eps in
  xmax (Fin (tol c)) eps.

(** tr.py:111-221 update *)
Definition update {A} (c : tr_cfg) (f : objective A) (params : xtree) (state : tr_state A) : res (xtree * tr_state A) :=
  if andb (approx_hvp c) (Reqb (fd_h c) 0) then Err ZeroDivisionError else
  let '(old_value, old_aux, old_grad) := vg f params in
  let hvp := tr_hvp c f params in
  let norm_df := xt_norm old_grad in
  let eps := inner_eps c (cg_eps (subproblem state)) norm_df in
  let sub := steihaug old_grad (damped c hvp) (tr_radius state) eps (maxiter_steihaug c) in
  let p := cg_p sub in
  if Rle_dec (tr_radius state) (min_tr_radius c) then Ok (params, state) else
  let new_params := xt_add params p in
  let '(v, a, new_grad) := vg f new_params in
  let nom := xsub old_value v in
  let denom := xneg (xadd (xt_vdot old_grad p) (xmul (Fin (1 / 2)) (xt_vdot p (hvp p)))) in
  let rh := xdiv nom denom in
  let radius := update_tr_radius (tr_radius state) (max_tr_radius c) (min_tr_radius c) rh (cg_step_length sub)
                  (rho_increase c) (rho_decrease c) (increase_factor c) (decrease_factor c) in
  let accept := xgeb rh (Fin (rho_accept c)) in
  let new_state :=
    if accept then mkTrs (iter_num state + 1) true v new_grad (xt_norm new_grad) rh radius a sub
    else mkTrs (iter_num state + 1) false old_value old_grad (xt_norm old_grad) rh radius old_aux sub in
  Ok (if accept then new_params else params, new_state).

(** tr.py:223-224 optimality_fun: the second component of value and gradient *)
Definition optimality_fun {A} (f : objective A) (params : xtree) : xtree := snd (vg f params).
