(** Model of regain/covariance/kernel_time_graphical_lasso_.py (the solver). Scalar alpha.

    The code keeps a dictionary Z_M with, for each lag m = 1 .. T-1, a pair (Z_L, Z_R) of arrays of
    T - m matrices; entry s of both belongs to the pair of times (s, s + m). The model indexes the
    entries by the pair of times itself: Z_M[m][0][s] is the left component at (s, s+m). *)
From Coq Require Import Reals.
From mathcomp Require Import all_ssreflect all_algebra.
From Verif Require Import RStruct NP M_Prox M_Loop M_GL M_LGL M_TGL.
Import Order.TTheory GRing.Theory Num.Theory.

Set Implicit Arguments.
Unset Strict Implicit.
Unset Printing Implicit Defensive.
Local Open Scope ring_scope.

(** pairs of times s < t *)
Definition tpair (T : nat) : Type := {e : 'I_T * 'I_T | (e.1 < e.2)%N}.
Canonical tpair_eqType T := [eqType of tpair T].
Canonical tpair_choiceType T := [choiceType of tpair T].
Canonical tpair_countType T := [countType of tpair T].
Canonical tpair_finType T := [finType of tpair T].
Definition t_l T (e : tpair T) : 'I_T := (val e).1.
Definition t_r T (e : tpair T) : 'I_T := (val e).2.

(** one matrix per pair of times: all the Z_M[m][0], or all the Z_M[m][1] *)
Definition edges (n T : nat) : Type := {ffun tpair T -> 'M[R]_n}.
Canonical edges_zmod n T := [zmodType of edges n T].
Canonical edges_lmod n T := [lmodType R of edges n T].

(** K[:-m] and K[m:], for every m *)
Definition lefts n T (K : stack n T) : edges n T := [ffun e => K (t_l e)].
Definition rights n T (K : stack n T) : edges n T := [ffun e => K (t_r e)].
(** A[:-m] += X[m] and A[m:] += X[m], for every m *)
Definition add_lefts n T (A : stack n T) (X : edges n T) : stack n T :=
  [ffun t => A t + \sum_(e | t_l e == t) X e].
Definition add_rights n T (A : stack n T) (X : edges n T) : stack n T :=
  [ffun t => A t + \sum_(e | t_r e == t) X e].
Definition edges_sqnorm n T (X : edges n T) : R := \sum_e squared_norm (X e).

(** the consensus variables (Z_0, left entries, right entries) *)
Definition ktriple n T : Type := stack n T * edges n T * edges n T.
Canonical ktriple_zmod n T := [zmodType of ktriple n T].
Canonical ktriple_lmod n T := [lmodType R of ktriple n T].
Definition kcopies n T (K : stack n T) : ktriple n T := (K, lefts K, rights K).
Definition ktriple_sqnorm n T (X : ktriple n T) : R :=
  stack_sqnorm X.1.1 + edges_sqnorm X.1.2 + edges_sqnorm X.2.

(** lines 60-74. [np.diag(kernel, m)[s]] is [kernel[s, s + m]]: only the part above the diagonal
    is read. *)
Definition ktgl_objective n T (n_samples : 'I_T -> R) (emp_cov K Z_0 : stack n T)
    (Z_L Z_R : edges n T) (alpha : R) (kernel : 'M[R]_T) (psi : 'M[R]_n -> R) : xR :=
  xadd (xadd (tgl_loss emp_cov K (Some n_samples)) (Fin (alpha * \sum_t l1_od_norm (Z_0 t))))
       (Fin (\sum_e psi (Z_R e - Z_L e) * kernel (t_l e) (t_r e))).

(** keyword arguments, lines 77-96 (verbose only prints, mode is not used) *)
Record ktgl_params T := KTGLParams {
  ktgl_alpha : R; ktgl_rho0 : R; ktgl_kernel : option 'M[R]_T; ktgl_max_iter : nat; ktgl_tol : R;
  ktgl_rtol : R; ktgl_return_history : bool; ktgl_return_n_iter : bool;
  ktgl_compute_objective : bool; ktgl_stop_at : option R; ktgl_stop_when : R;
  ktgl_rho_options : rho_options }.

(** lines 141-142 *)
Definition kernel_of T (p : ktgl_params T) : 'M[R]_T := odflt 1%:M (ktgl_kernel p).

Record ktgl_state n T := KTGLState {
  ktgl_Z : ktriple n T; ktgl_U : ktriple n T; ktgl_Zold : ktriple n T; ktgl_rho : R;
  ktgl_K : stack n T }.

(** lines 176-192 *)
Definition ktgl_K_update n T (eigh : eigh_t n) (emp_cov : stack n T) (n_samples : 'I_T -> R)
    (rho : R) (Z U : ktriple n T) : stack n T :=
  let D := Z - U in
  let A := add_rights (add_lefts D.1.1 D.1.2) D.2 in
  [ffun t =>
    let At := symmetrise (T%:R^-1 *: A t) in
    prox_logdet eigh ((- rho * T%:R / n_samples t) *: At + emp_cov t)
      (n_samples t / (rho * T%:R))].

(** lines 208-214, psi other than the node penalty, one pair of times. The prox is applied to
    each slice with its own step (exact for "laplacian", "l1" and "l2"; "linf" passes the array of
    steps to scipy and is not covered). *)
Definition ktgl_edge_update n T (prox_psi : 'M[R]_n -> R -> 'M[R]_n) (kernel : 'M[R]_T) (rho : R)
    (A_L A_R : edges n T) : edges n T * edges n T :=
  ([ffun e => (pair_update prox_psi (A_L e) (A_R e) (kernel (t_l e) (t_r e)) rho).1],
   [ffun e => (pair_update prox_psi (A_L e) (A_R e) (kernel (t_l e) (t_r e)) rho).2]).

(** lines 176-228: returns (K, Z, U) *)
Definition ktgl_updates n T (eigh : eigh_t n) (prox_psi : 'M[R]_n -> R -> 'M[R]_n)
    (emp_cov : stack n T) (n_samples : 'I_T -> R) (p : ktgl_params T) (rho : R)
    (Z U : ktriple n T) : stack n T * ktriple n T * ktriple n T :=
  let K := ktgl_K_update eigh emp_cov n_samples rho Z U in
  let Z_0 : stack n T := [ffun t => soft_thresholding (symmetrise (K t + U.1.1 t)) (ktgl_alpha p / rho)] in
  let Z_LR := ktgl_edge_update prox_psi (kernel_of p) rho (lefts K + U.1.2) (rights K + U.2) in
  let Z' := (Z_0, Z_LR.1, Z_LR.2) : ktriple n T in
  (K, Z', U + (kcopies K - Z')).

(** lines 175-306: one iteration. Line 243 passes Z_0 where [objective] expects K, and K where it
    expects Z_0. *)
Definition ktgl_body n T (eigh : eigh_t n) (psi : 'M[R]_n -> R) (prox_psi : 'M[R]_n -> R -> 'M[R]_n)
    (emp_cov : stack n T) (n_samples : 'I_T -> R) (p : ktgl_params T) (iteration_ : nat)
    (s : ktgl_state n T) : outcome (ktgl_state n T) * convergence :=
  let rho := ktgl_rho s in
  let: (K, Z, U) := ktgl_updates eigh prox_psi emp_cov n_samples p rho (ktgl_Z s) (ktgl_U s) in
  let rnorm := sqrt (ktriple_sqnorm (kcopies K - Z)) in
  let snorm := rho * sqrt (ktriple_sqnorm (Z - ktgl_Zold s)) in
  let obj := if ktgl_compute_objective p
             then ktgl_objective n_samples emp_cov Z.1.1 K Z.1.2 Z.2 (ktgl_alpha p) (kernel_of p) psi
             else NaN in
  let check := {|
    c_obj := obj; c_rnorm := rnorm; c_snorm := snorm;
    c_e_pri := n%:R * T%:R * ktgl_tol p +
      ktgl_rtol p * np_max (sqrt (ktriple_sqnorm Z)) (sqrt (ktriple_sqnorm (kcopies K)));
    c_e_dual := n%:R * T%:R * ktgl_tol p + ktgl_rtol p * rho * sqrt (ktriple_sqnorm U) |} in
  if stop_at_test obj (ktgl_stop_at p) (ktgl_stop_when p) then
    (Break (KTGLState Z U Z rho K), check)
  else if stop_test check then (Break (KTGLState Z U Z rho K), check)
  else
    let rho_new := update_rho (ktgl_rho_options p) rho rnorm snorm in
    (Next (KTGLState Z ((rho / rho_new) *: U) Z rho_new K), check).

(** lines 144-165 *)
Definition ktgl_init n T (pinvh : 'M[R]_n -> 'M[R]_n) (emp_cov : stack n T) (p : ktgl_params T)
    (init : init_mode3 n T) : ktgl_state n T :=
  let Z_0 := init_precision3 pinvh emp_cov init in
  KTGLState (kcopies Z_0) 0 0 (ktgl_rho0 p) Z_0.

(** lines 175-308 *)
Definition ktgl_loop n T (eigh : eigh_t n) psi prox_psi (emp_cov : stack n T) n_samples
    (p : ktgl_params T) (s : ktgl_state n T) : loop_end (ktgl_state n T) convergence :=
  py_for (ktgl_body eigh psi prox_psi emp_cov n_samples p) (ktgl_max_iter p) 0 s [::] None.

Record ktgl_result n T := KTGLResult {
  ktgl_precision : stack n T; ktgl_covariance : stack n T;
  ktgl_history : option (seq convergence); ktgl_n_iter : option nat; ktgl_warned : bool }.

(** lines 77-315; the history starts with the entry of lines 170-174, whose residuals are 0 *)
Definition kernel_time_graphical_lasso n T (eigh : eigh_t n) (pinvh : 'M[R]_n -> 'M[R]_n)
    (psi : 'M[R]_n -> R) (prox_psi : 'M[R]_n -> R -> 'M[R]_n) (emp_cov : stack n T)
    (n_samples : option ('I_T -> R)) (p : ktgl_params T) (init : init_mode3 n T) :
    py_result (ktgl_result n T) :=
  let ns := odflt (fun=> 1) n_samples in
  let s0 := ktgl_init pinvh emp_cov p init in
  let Z_0 := (ktgl_Z s0).1.1 in
  let check0 := Convergence (ktgl_objective ns emp_cov Z_0 Z_0 (ktgl_Z s0).1.2 (ktgl_Z s0).2
                  (ktgl_alpha p) (kernel_of p) psi) 0 0 0 0 in
  let e := ktgl_loop eigh psi prox_psi emp_cov ns p s0 in
  let Z := (ktgl_Z (le_state e)).1.1 in
  let cov : stack n T := [ffun t => pinvh (Z t)] in
  let hist := if ktgl_return_history p then Some (check0 :: le_checks e) else None in
  if ktgl_return_n_iter p then
    match le_iter e with
    | Some it => Ok (KTGLResult Z cov hist (Some it.+1) (le_else e))
    | None => UnboundLocalError _
    end
  else Ok (KTGLResult Z cov hist None (le_else e)).

(** lines 334-345 and 318-331: the objective of the kernel update, for a given kernel matrix *)
Definition objective_kernel_value n T (K : stack n T) (kernel : 'M[R]_T) (psi : 'M[R]_n -> R) : R :=
  \sum_e psi (K (t_r e) - K (t_l e)) * kernel (t_l e) (t_r e).
