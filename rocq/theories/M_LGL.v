(** Model of regain/covariance/latent_graphical_lasso_.py (the solver). *)
From Coq Require Import Reals.
From mathcomp Require Import all_ssreflect all_algebra.
From Verif Require Import RStruct NP M_Prox M_Loop M_GL.
Import Order.TTheory GRing.Theory Num.Theory.

Set Implicit Arguments.
Unset Strict Implicit.
Unset Printing Implicit Defensive.
Local Open Scope ring_scope.

(** A += A.T; A /= 2.0 *)
Definition symmetrise n (A : 'M[R]_n) : 'M[R]_n := 2%:R^-1 *: (A + A^T).

(** latent_graphical_lasso_.py:48-52; [nuc] is np.linalg.norm(., ord="nuc") *)
Definition lgl_objective n (nuc : 'M[R]_n -> R) (emp_cov Rm K L : 'M[R]_n) (alpha tau : R) : xR :=
  xadd (gl_objective emp_cov Rm K alpha) (Fin (tau * nuc L)).

(** keyword arguments, lines 55-69 (verbose only prints) *)
Record lgl_params := LGLParams {
  lgl_alpha : R; lgl_tau : R; lgl_rho0 : R; lgl_max_iter : nat; lgl_tol : R; lgl_rtol : R;
  lgl_return_history : bool; lgl_return_n_iter : bool; lgl_rho_options : rho_options;
  lgl_compute_objective : bool }.

Record lgl_state n := LGLState {
  lgl_K : 'M[R]_n; lgl_L : 'M[R]_n; lgl_U : 'M[R]_n; lgl_Rold : 'M[R]_n; lgl_rho : R }.

(** lines 127-142: the R-, K-, L- and U-updates; returns (R, K, L, U). The argument of the
    K-update (line 134) is not symmetrised by the code. *)
Definition lgl_updates n (eigh : eigh_t n) (emp_cov : 'M[R]_n) (alpha tau rho : R)
    (K L U : 'M[R]_n) : 'M[R]_n * 'M[R]_n * 'M[R]_n * 'M[R]_n :=
  let Rm := prox_logdet eigh (emp_cov - rho *: symmetrise (K - L - U)) (1 / rho) in
  let K' := soft_thresholding (L + Rm + U) (alpha / rho) in
  let L' := prox_trace_indicator eigh (symmetrise (K' - Rm - U)) (tau / rho) in
  let U' := U + (Rm - K' + L') in
  (Rm, K', L', U').

(** [check.obj == np.inf] *)
Definition is_pinf (x : xR) : bool := if x is PInf then true else false.

(** lines 126-172: one iteration *)
Definition lgl_body n (eigh : eigh_t n) (nuc : 'M[R]_n -> R) (emp_cov : 'M[R]_n) (p : lgl_params)
    (iteration_ : nat) (s : lgl_state n) : outcome (lgl_state n) * convergence :=
  let rho := lgl_rho s in
  let: (Rm, K, L, U) :=
    lgl_updates eigh emp_cov (lgl_alpha p) (lgl_tau p) rho (lgl_K s) (lgl_L s) (lgl_U s) in
  let obj := if lgl_compute_objective p
             then lgl_objective nuc emp_cov Rm K L (lgl_alpha p) (lgl_tau p) else NaN in
  let rnorm := np_norm (Rm - K + L) in
  let snorm := rho * np_norm (Rm - lgl_Rold s) in
  let check := {|
    c_obj := obj; c_rnorm := rnorm; c_snorm := snorm;
    c_e_pri := sqrt ((n * n)%:R) * lgl_tol p + lgl_rtol p * np_max (np_norm Rm) (np_norm (K - L));
    c_e_dual := sqrt ((n * n)%:R) * lgl_tol p + lgl_rtol p * rho * np_norm U |} in
  if stop_test check then (Break (LGLState K L U Rm rho), check)
  else if is_pinf (c_obj check) then (Break (LGLState K L U Rm rho), check)
  else
    let rho_new := update_rho (lgl_rho_options p) rho rnorm snorm in
    (Next (LGLState K L ((rho / rho_new) *: U) Rm rho_new), check).

(** lines 119-122 *)
Definition lgl_init n (pinvh : 'M[R]_n -> 'M[R]_n) (emp_cov : 'M[R]_n) (p : lgl_params)
    (init : init_mode n) : lgl_state n :=
  LGLState (init_precision pinvh emp_cov init) 0 0 0 (lgl_rho0 p).

(** lines 124-174 *)
Definition lgl_loop n (eigh : eigh_t n) nuc (emp_cov : 'M[R]_n) (p : lgl_params) (s : lgl_state n) :
    loop_end (lgl_state n) convergence :=
  py_for (lgl_body eigh nuc emp_cov p) (lgl_max_iter p) 0 s [::] None.

Record lgl_result n := LGLResult {
  lgl_precision : 'M[R]_n; lgl_latent : 'M[R]_n; lgl_covariance : 'M[R]_n;
  lgl_history : option (seq convergence); lgl_n_iter : option nat; lgl_warned : bool }.

(** lines 55-182 *)
Definition latent_graphical_lasso n (eigh : eigh_t n) nuc (pinvh : 'M[R]_n -> 'M[R]_n)
    (emp_cov : 'M[R]_n) (p : lgl_params) (init : init_mode n) : py_result (lgl_result n) :=
  let e := lgl_loop eigh nuc emp_cov p (lgl_init pinvh emp_cov p init) in
  let hist := if lgl_return_history p then Some (le_checks e) else None in
  let s := le_state e in
  if lgl_return_n_iter p then
    match le_iter e with
    | Some it => Ok (LGLResult (lgl_K s) (lgl_L s) (pinvh (lgl_K s)) hist (Some it) (le_else e))
    | None => UnboundLocalError _
    end
  else Ok (LGLResult (lgl_K s) (lgl_L s) (pinvh (lgl_K s)) hist None (le_else e)).
