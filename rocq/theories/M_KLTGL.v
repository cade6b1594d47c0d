(** Model of regain/covariance/kernel_latent_time_graphical_lasso_.py (the solver). Scalar alpha and
    tau; psi and phi other than the node penalty. The dictionaries Z_M, W_M, Y_M, U_M are indexed by
    pairs of times as in M_KTGL.v. *)
From Coq Require Import Reals.
From mathcomp Require Import all_ssreflect all_algebra.
From Verif Require Import RStruct NP M_Prox M_Loop M_GL M_LGL M_TGL M_KTGL M_LTGL.
Import Order.TTheory GRing.Theory Num.Theory.

Set Implicit Arguments.
Unset Strict Implicit.
Unset Printing Implicit Defensive.
Local Open Scope ring_scope.

(** (left, right) entries for every pair of times *)
Definition epair n T : Type := edges n T * edges n T.
Canonical epair_zmod n T := [zmodType of epair n T].
Canonical epair_lmod n T := [lmodType R of epair n T].
Definition epair_sqnorm n T (X : epair n T) : R := edges_sqnorm X.1 + edges_sqnorm X.2.
Definition ecopies n T (K : stack n T) : epair n T := (lefts K, rights K).
Definition add_edges n T (A : stack n T) (D : epair n T) : stack n T := add_rights (add_lefts A D.1) D.2.

(** keyword arguments, lines 75-96 (n_samples and init are separate arguments; verbose only prints;
    mode and assume_centered are not used) *)
Record klt_params T := KLTParams {
  klt_alpha : R; klt_tau : R; klt_rho0 : R; klt_kernel_psi : option 'M[R]_T;
  klt_kernel_phi : option 'M[R]_T; klt_max_iter : nat; klt_tol : R; klt_rtol : R;
  klt_return_history : bool; klt_return_n_iter : bool; klt_rho_options : rho_options;
  klt_compute_objective : bool }.
(** lines 139-142 *)
Definition kpsi_of T (p : klt_params T) : 'M[R]_T := odflt 1%:M (klt_kernel_psi p).
Definition kphi_of T (p : klt_params T) : 'M[R]_T := odflt 1%:M (klt_kernel_phi p).

(** Z_0, Z_M, W_0, W_M *)
Record klt_primal n T := KLTPrimal {
  klt_Z0 : stack n T; klt_ZM : epair n T; klt_W0 : stack n T; klt_WM : epair n T }.
(** X_0, Y_M, U_M *)
Record klt_dual n T := KLTDual { klt_X0 : stack n T; klt_YM : epair n T; klt_UM : epair n T }.
Definition klt_dual_scale n T (a : R) (d : klt_dual n T) : klt_dual n T :=
  KLTDual (a *: klt_X0 d) (a *: klt_YM d) (a *: klt_UM d).
(** [klt_old]: R_old, Z_M_old, W_M_old *)
Record klt_state n T := KLTState {
  klt_pr : klt_primal n T; klt_du : klt_dual n T; klt_old : stack n T * epair n T * epair n T;
  klt_rho : R }.

(** lines 183-269: returns R and the new variables *)
Definition klt_updates n T (eigh : eigh_t n) (prox_psi prox_phi : 'M[R]_n -> R -> 'M[R]_n)
    (emp_cov : stack n T) (n_samples : 'I_T -> R) (p : klt_params T) (rho : R)
    (v : klt_primal n T) (d : klt_dual n T) : stack n T * klt_primal n T * klt_dual n T :=
  let Rm := ltgl_R_update eigh emp_cov n_samples rho (klt_Z0 v - klt_W0 v - klt_X0 d) in
  let A := add_edges (Rm + klt_W0 v + klt_X0 d) (klt_ZM v - klt_YM d) in
  let Z_0 : stack n T :=
    [ffun t => soft_thresholding (T%:R^-1 *: A t) (klt_alpha p / (rho * T%:R))] in
  let B := add_edges (Z_0 - Rm - klt_X0 d) (klt_WM v - klt_UM d) in
  let W_0 : stack n T :=
    [ffun t => prox_trace_indicator eigh (symmetrise (T%:R^-1 *: B t)) (klt_tau p / (rho * T%:R))] in
  let A_M := ecopies Z_0 + klt_YM d in
  let Z_M := ktgl_edge_update prox_psi (kpsi_of p) rho A_M.1 A_M.2 : epair n T in
  let B_M := ecopies W_0 + klt_UM d in
  let W_M := ktgl_edge_update prox_phi (kphi_of p) rho B_M.1 B_M.2 : epair n T in
  (Rm, KLTPrimal Z_0 Z_M W_0 W_M,
   KLTDual (klt_X0 d + (Rm - Z_0 + W_0)) (klt_YM d + (ecopies Z_0 - Z_M))
           (klt_UM d + (ecopies W_0 - W_M))).

(** lines 56-72; [nuc] is np.linalg.norm(., ord="nuc") *)
Definition klt_objective n T (nuc : 'M[R]_n -> R) (emp_cov : stack n T) (n_samples : 'I_T -> R)
    (p : klt_params T) (psi phi : 'M[R]_n -> R) (Rm : stack n T) (v : klt_primal n T) : xR :=
  xadd (ktgl_objective n_samples emp_cov Rm (klt_Z0 v) (klt_ZM v).1 (klt_ZM v).2 (klt_alpha p)
          (kpsi_of p) psi)
       (Fin (klt_tau p * (\sum_t nuc (klt_W0 v t)) +
             \sum_e phi ((klt_WM v).2 e - (klt_WM v).1 e) * kphi_of p (t_l e) (t_r e))).

(** lines 183-382: one iteration *)
Definition klt_body n T (eigh : eigh_t n) nuc (psi : 'M[R]_n -> R) prox_psi (phi : 'M[R]_n -> R)
    prox_phi (emp_cov : stack n T) (n_samples : 'I_T -> R) (p : klt_params T) (iteration_ : nat)
    (s : klt_state n T) : outcome (klt_state n T) * convergence :=
  let rho := klt_rho s in
  let: (Rm, v, d) := klt_updates eigh prox_psi prox_phi emp_cov n_samples p rho (klt_pr s) (klt_du s) in
  let: (R_old, Z_old, W_old) := klt_old s in
  let rnorm := sqrt (stack_sqnorm (Rm - klt_Z0 v + klt_W0 v)
                     + (epair_sqnorm (ecopies (klt_Z0 v) - klt_ZM v)
                        + epair_sqnorm (ecopies (klt_W0 v) - klt_WM v))) in
  let snorm := rho * sqrt (stack_sqnorm (Rm - R_old)
                     + (epair_sqnorm (klt_ZM v - Z_old) + epair_sqnorm (klt_WM v - W_old))) in
  let obj := if klt_compute_objective p
             then klt_objective nuc emp_cov n_samples p psi phi Rm v else NaN in
  let sz : R := n%:R * sqrt (T%:R * (2%:R * T%:R - 1)) in
  let check := {|
    c_obj := obj; c_rnorm := rnorm; c_snorm := snorm;
    c_e_pri := sz * klt_tol p + klt_rtol p * np_max
      (sqrt (stack_sqnorm Rm + (epair_sqnorm (klt_ZM v) + epair_sqnorm (klt_WM v))))
      (sqrt (stack_sqnorm (klt_Z0 v - klt_W0 v)
             + (epair_sqnorm (ecopies (klt_Z0 v)) + epair_sqnorm (ecopies (klt_W0 v)))));
    c_e_dual := sz * klt_tol p + klt_rtol p * rho *
      sqrt (stack_sqnorm (klt_X0 d) + (epair_sqnorm (klt_YM d) + epair_sqnorm (klt_UM d))) |} in
  let old := (Rm, klt_ZM v, klt_WM v) in
  if stop_test check then (Break (KLTState v d old rho), check)
  else
    let rho_new := update_rho (klt_rho_options p) rho rnorm snorm in
    (Next (KLTState v (klt_dual_scale (rho / rho_new) d) old rho_new), check).

(** lines 144-176 *)
Definition klt_init n T (p : klt_params T) (Z_0 : stack n T) : klt_state n T :=
  KLTState (KLTPrimal Z_0 (ecopies Z_0) 0 0) (KLTDual 0 0 0) (0, 0, 0) (klt_rho0 p).

(** lines 181-384 *)
Definition klt_loop n T (eigh : eigh_t n) nuc psi prox_psi phi prox_phi (emp_cov : stack n T) n_samples
    (p : klt_params T) (s : klt_state n T) : loop_end (klt_state n T) convergence :=
  py_for (klt_body eigh nuc psi prox_psi phi prox_phi emp_cov n_samples p) (klt_max_iter p) 0 s [::] None.

Record klt_result n T := KLTResult {
  klt_precision : stack n T; klt_latent : stack n T; klt_covariance : stack n T;
  klt_history : option (seq convergence); klt_n_iter : option nat; klt_warned : bool }.

(** lines 75-392 *)
Definition kernel_latent_time_graphical_lasso n T (eigh : eigh_t n) nuc (pinvh : 'M[R]_n -> 'M[R]_n)
    psi prox_psi phi prox_phi (emp_cov : stack n T) (n_samples : option ('I_T -> R))
    (p : klt_params T) (init : init_mode3 n T) : py_result (klt_result n T) :=
  let ns := odflt (fun=> 1) n_samples in
  let e := klt_loop eigh nuc psi prox_psi phi prox_phi emp_cov ns p
             (klt_init p (init_precision3 pinvh emp_cov init)) in
  let v := klt_pr (le_state e) in
  let cov : stack n T := [ffun t => pinvh (klt_Z0 v t)] in
  let hist := if klt_return_history p then Some (le_checks e) else None in
  if klt_return_n_iter p then
    match le_iter e with
    | Some it => Ok (KLTResult (klt_Z0 v) (klt_W0 v) cov hist (Some it) (le_else e))
    | None => UnboundLocalError _
    end
  else Ok (KLTResult (klt_Z0 v) (klt_W0 v) cov hist None (le_else e)).
