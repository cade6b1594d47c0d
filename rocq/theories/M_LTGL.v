(** Model of regain/covariance/latent_time_graphical_lasso_.py (the solver, "LT" below) and of
    regain/covariance/latent_time_matrix_decomposition.py (the solver, "MD" below), which is the same
    text but for the R-update, the initial values and the objective. Scalar alpha, tau, beta, eta. *)
From Coq Require Import Reals.
From mathcomp Require Import all_ssreflect all_algebra.
From Verif Require Import RStruct NP M_Prox M_Loop M_GL M_LGL M_TGL.
Import Order.TTheory GRing.Theory Num.Theory.

Set Implicit Arguments.
Unset Strict Implicit.
Unset Printing Implicit Defensive.
Local Open Scope ring_scope.

(** (_1, _2) variables on consecutive times *)
Definition spair n m : Type := stack n m * stack n m.
Canonical spair_zmod n m := [zmodType of spair n m].
Canonical spair_lmod n m := [lmodType R of spair n m].
Definition spair_sqnorm n m (X : spair n m) : R := stack_sqnorm X.1 + stack_sqnorm X.2.
(** (K[:-1], K[1:]) *)
Definition scopies n m (K : stack n m.+1) : spair n m := (but_last K, but_first K).
(** A[:-1] += D_1; A[1:] += D_2 *)
Definition add_pair n m (A : stack n m.+1) (D : spair n m) : stack n m.+1 :=
  add_but_first (add_but_last A D.1) D.2.

(** keyword arguments: LT lines 66-86, MD lines 57-76 (n_samples and init are separate arguments;
    verbose only prints; mode and assume_centered are not used) *)
Record lt_params := LTParams {
  lt_alpha : R; lt_tau : R; lt_rho0 : R; lt_beta : R; lt_eta : R; lt_max_iter : nat;
  lt_tol : R; lt_rtol : R; lt_return_history : bool; lt_return_n_iter : bool;
  lt_rho_options : rho_options; lt_compute_objective : bool }.

(** primal variables (Z_0, (Z_1, Z_2), W_0, (W_1, W_2)) *)
Record lt_primal n m := LTPrimal {
  lt_Z0 : stack n m.+1; lt_Z12 : spair n m; lt_W0 : stack n m.+1; lt_W12 : spair n m }.
(** dual variables (X_0, (X_1, X_2), (U_1, U_2)) *)
Record lt_dual n m := LTDual {
  lt_X0 : stack n m.+1; lt_X12 : spair n m; lt_U12 : spair n m }.
Definition lt_dual_scale n m (a : R) (d : lt_dual n m) : lt_dual n m :=
  LTDual (a *: lt_X0 d) (a *: lt_X12 d) (a *: lt_U12 d).

(** [lt_old]: (R_old, (Z_1_old, Z_2_old), (W_1_old, W_2_old)) *)
Record lt_state n m := LTState {
  lt_pr : lt_primal n m; lt_du : lt_dual n m; lt_old : stack n m.+1 * spair n m * spair n m;
  lt_rho : R }.

(** LT lines 190-206 and 217-232 (MD 157-171 and 189-203), with the weight beta or eta *)
Definition lt_pair_update n m (px : psi_mode n) (p : lt_params) (weight rho : R) (A : spair n m) :
    spair n m :=
  match px with
  | PsiPlain _ prox_psi =>
    ([ffun t => (pair_update prox_psi (A.1 t) (A.2 t) weight rho).1],
     [ffun t => (pair_update prox_psi (A.1 t) (A.2 t) weight rho).2])
  | PsiNode _ node =>
    node m A.1 A.2 (2%:R^-1 * weight / rho) rho (lt_tol p) (lt_rtol p) (lt_max_iter p)
  end.

(** LT lines 172-180: given Z_0 - W_0 - X_0 *)
Definition ltgl_R_update n T (eigh : eigh_t n) (emp_cov : stack n T) (n_samples : 'I_T -> R)
    (rho : R) (A : stack n T) : stack n T :=
  [ffun t => prox_logdet eigh ((- rho / n_samples t) *: symmetrise (A t) + emp_cov t)
               (n_samples t / rho)].
(** MD lines 144-145 *)
Definition ltmd_R_update n T (emp_cov : stack n T) (rho : R) (A : stack n T) : stack n T :=
  [ffun t => (2%:R + rho)^-1 *: (rho *: A t + 2%:R *: emp_cov t)].

(** LT lines 171-239, MD lines 143-210: returns R and the new variables. The argument of the
    soft-thresholding is not symmetrised, and its diagonal is thresholded too. *)
Definition lt_updates n m (R_update : R -> stack n m.+1 -> stack n m.+1) (eigh : eigh_t n)
    (psi phi : psi_mode n) (p : lt_params) (rho : R) (v : lt_primal n m) (d : lt_dual n m) :
    stack n m.+1 * lt_primal n m * lt_dual n m :=
  let Rm := R_update rho (lt_Z0 v - lt_W0 v - lt_X0 d) in
  let A := add_pair (Rm + lt_W0 v + lt_X0 d) (lt_Z12 v - lt_X12 d) in
  let Z_0 : stack n m.+1 :=
    [ffun t => soft_thresholding ((divisor t)^-1 *: A t) (lt_alpha p / (rho * divisor t))] in
  let Z_12 := lt_pair_update psi p (lt_beta p) rho (scopies Z_0 + lt_X12 d) in
  let B := add_pair (Z_0 - Rm - lt_X0 d) (lt_W12 v - lt_U12 d) in
  let W_0 : stack n m.+1 :=
    [ffun t => prox_trace_indicator eigh (symmetrise ((divisor t)^-1 *: B t))
                 (lt_tau p / (rho * divisor t))] in
  let W_12 := lt_pair_update phi p (lt_eta p) rho (scopies W_0 + lt_U12 d) in
  (Rm, LTPrimal Z_0 Z_12 W_0 W_12,
   LTDual (lt_X0 d + (Rm - Z_0 + W_0)) (lt_X12 d + (scopies Z_0 - Z_12))
          (lt_U12 d + (scopies W_0 - W_12))).

(** LT lines 48-63; [nuc] is np.linalg.norm(., ord="nuc") *)
Definition ltgl_objective n m (nuc : 'M[R]_n -> R) (emp_cov : stack n m.+1) (n_samples : 'I_m.+1 -> R)
    (p : lt_params) (psi phi : 'M[R]_n -> R) (Rm : stack n m.+1) (v : lt_primal n m) : xR :=
  xadd (tgl_objective n_samples emp_cov Rm (lt_Z0 v) (lt_Z12 v).1 (lt_Z12 v).2 (lt_alpha p) (lt_beta p) psi)
       (Fin (lt_tau p * (\sum_t nuc (lt_W0 v t)) +
             lt_eta p * (\sum_t phi (((lt_W12 v).2 - (lt_W12 v).1) t)))).
(** MD lines 47-54 *)
Definition ltmd_objective n m (nuc : 'M[R]_n -> R) (emp_cov : stack n m.+1) (p : lt_params)
    (psi phi : 'M[R]_n -> R) (Rm : stack n m.+1) (v : lt_primal n m) : xR :=
  Fin (stack_sqnorm (emp_cov - Rm) + lt_alpha p * (\sum_t l1_od_norm (lt_Z0 v t)) +
       lt_tau p * (\sum_t nuc (lt_W0 v t)) +
       lt_beta p * (\sum_t psi (((lt_Z12 v).2 - (lt_Z12 v).1) t)) +
       lt_eta p * (\sum_t phi (((lt_W12 v).2 - (lt_W12 v).1) t))).

(** LT lines 171-338, MD lines 143-309: one iteration *)
Definition lt_body n m R_update (objective : stack n m.+1 -> lt_primal n m -> xR) (eigh : eigh_t n)
    (psi phi : psi_mode n) (p : lt_params) (iteration_ : nat) (s : lt_state n m) :
    outcome (lt_state n m) * convergence :=
  let rho := lt_rho s in
  let: (Rm, v, d) := lt_updates R_update eigh psi phi p rho (lt_pr s) (lt_du s) in
  let: (R_old, Z_old, W_old) := lt_old s in
  let rnorm := sqrt (stack_sqnorm (Rm - lt_Z0 v + lt_W0 v) + spair_sqnorm (scopies (lt_Z0 v) - lt_Z12 v)
                     + spair_sqnorm (scopies (lt_W0 v) - lt_W12 v)) in
  let snorm := rho * sqrt (stack_sqnorm (Rm - R_old) + spair_sqnorm (lt_Z12 v - Z_old)
                     + spair_sqnorm (lt_W12 v - W_old)) in
  let obj := if lt_compute_objective p then objective Rm v else NaN in
  let sz : R := ((m.+1 * (n * n) + 4 * (m * (n * n)))%:R) in
  let check := {|
    c_obj := obj; c_rnorm := rnorm; c_snorm := snorm;
    c_e_pri := sqrt sz * lt_tol p + lt_rtol p * np_max
      (sqrt (stack_sqnorm Rm + spair_sqnorm (lt_Z12 v) + spair_sqnorm (lt_W12 v)))
      (sqrt (stack_sqnorm (lt_Z0 v - lt_W0 v) + spair_sqnorm (scopies (lt_Z0 v))
             + spair_sqnorm (scopies (lt_W0 v))));
    c_e_dual := sqrt sz * lt_tol p + lt_rtol p * rho *
      sqrt (stack_sqnorm (lt_X0 d) + spair_sqnorm (lt_X12 d) + spair_sqnorm (lt_U12 d)) |} in
  let old := (Rm, lt_Z12 v, lt_W12 v) in
  if stop_test check then (Break (LTState v d old rho), check)
  else
    let rho_new := update_rho (lt_rho_options p) rho rnorm snorm in
    (Next (LTState v (lt_dual_scale (rho / rho_new) d) old rho_new), check).

(** LT lines 142-159 with Z_0 = init_precision(emp_cov, init); MD lines 117-134 with Z_0 = 0 *)
Definition lt_init n m (p : lt_params) (Z_0 : stack n m.+1) : lt_state n m :=
  LTState (LTPrimal Z_0 (scopies Z_0) 0 0) (LTDual 0 0 0) (0, 0, 0) (lt_rho0 p).

(** LT lines 169-340, MD lines 141-310 *)
Definition lt_loop n m R_update objective (eigh : eigh_t n) psi phi (p : lt_params) (s : lt_state n m) :
    loop_end (lt_state n m) convergence :=
  py_for (lt_body R_update objective eigh psi phi p) (lt_max_iter p) 0 s [::] None.

Record lt_result n m := LTResult {
  lt_precision : stack n m.+1; lt_latent : stack n m.+1; lt_covariance : option (stack n m.+1);
  lt_history : option (seq convergence); lt_n_iter : option nat; lt_warned : bool }.

(** LT lines 342-348, MD lines 312-317 (no covariance) *)
Definition lt_return n m (p : lt_params) (cov : stack n m.+1 -> option (stack n m.+1))
    (e : loop_end (lt_state n m) convergence) : py_result (lt_result n m) :=
  let v := lt_pr (le_state e) in
  let hist := if lt_return_history p then Some (le_checks e) else None in
  if lt_return_n_iter p then
    match le_iter e with
    | Some it => Ok (LTResult (lt_Z0 v) (lt_W0 v) (cov (lt_Z0 v)) hist (Some it) (le_else e))
    | None => UnboundLocalError _
    end
  else Ok (LTResult (lt_Z0 v) (lt_W0 v) (cov (lt_Z0 v)) hist None (le_else e)).

(** LT lines 66-348 *)
Definition latent_time_graphical_lasso n m (eigh : eigh_t n) nuc (pinvh : 'M[R]_n -> 'M[R]_n)
    (psi phi : psi_mode n) (emp_cov : stack n m.+1) (n_samples : option ('I_m.+1 -> R)) (p : lt_params)
    (init : init_mode3 n m.+1) : py_result (lt_result n m) :=
  let ns := odflt (fun=> 1) n_samples in
  lt_return p (fun Z => Some [ffun t => pinvh (Z t)])
    (lt_loop (ltgl_R_update eigh emp_cov ns)
       (ltgl_objective nuc emp_cov ns p (psi_norm psi) (psi_norm phi)) eigh psi phi p
       (lt_init p (init_precision3 pinvh emp_cov init))).

(** MD lines 57-317 *)
Definition latent_time_matrix_decomposition n m (eigh : eigh_t n) nuc (psi phi : psi_mode n)
    (emp_cov : stack n m.+1) (p : lt_params) : py_result (lt_result n m) :=
  lt_return p (fun=> None)
    (lt_loop (ltmd_R_update emp_cov) (ltmd_objective nuc emp_cov p (psi_norm psi) (psi_norm phi))
       eigh psi phi p (lt_init p 0)).
