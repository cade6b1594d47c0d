(** Model of GWishartFit with mode "gl" (regain/bayesian/gwishart_inference.py:168-200), the default of bayesian_graphical_lasso: the graphical lasso of
    regain/covariance/graphical_lasso_.py:81-203 with a matrix of penalties, 0 on the graph and infinite elsewhere. *)
From Coq Require Import Reals.
From mathcomp Require Import all_ssreflect all_algebra.
From Verif Require Import RStruct NP M_Utils M_Prox M_Loop M_GL M_GWPrior.
Import Order.TTheory GRing.Theory Num.Theory.

Set Implicit Arguments.
Unset Strict Implicit.
Unset Printing Implicit Defensive.
Local Open Scope ring_scope.

Section GWGL.
Variables (n : nat) (eigh : eigh_t n) (pinvh : 'M[R]_n -> 'M[R]_n) (emp_cov : 'M[R]_n).

(** gwishart_inference.py:194-195: alpha = 0 where G + G.T holds and inf elsewhere; None is inf *)
Definition penalties (N : 'M[bool]_n) (i j : 'I_n) : option R := if N i j || N j i then Some 0 else None.
(** prox.py:49-51, one entry; np.maximum(np.abs(a) - inf, 0) is 0 *)
Definition soft1x (a : R) (lamda : option R) : R := np_sign a * (if lamda is Some l then np_max (`|a| - l) 0 else 0).
(** prox.py:54-58 with a matrix of thresholds *)
Definition soft_off_diagonal_x (a : 'M[R]_n) (lamda : 'I_n -> 'I_n -> option R) : 'M[R]_n :=
  fill_diagonal_from (\matrix_(i, j) soft1x (a i j) (lamda i j)) a.
(** graphical_lasso_.py:156-166; alpha / rho of inf is inf, for a positive rho *)
Definition glx_updates (alpha : 'I_n -> 'I_n -> option R) (over_relax rho : R) (Z U : 'M[R]_n) : 'M[R]_n * 'M[R]_n * 'M[R]_n :=
  let A := gl_A Z U in
  let K := prox_logdet eigh (emp_cov - rho *: A) (1 / rho) in
  let K_hat := over_relax *: K - (1 - over_relax) *: Z in
  let Z' := soft_off_diagonal_x (K_hat + U) (fun i j => omap (fun a => a / rho) (alpha i j)) in
  let U' := U + (K_hat - Z') in
  (K, Z', U').
(** lines 155-194: one iteration. The objective is only reported: with an infinite penalty on a zero it is nan *)
Definition glx_body (alpha : 'I_n -> 'I_n -> option R) (p : gl_params) (iteration_ : nat) (s : gl_state n) : outcome (gl_state n) * convergence :=
  let rho := gl_rho s in
  let: (K, Z, U) := glx_updates alpha (gl_over_relax p) rho (gl_Z s) (gl_U s) in
  let rnorm := np_norm (K - Z) in
  let snorm := rho * np_norm (Z - gl_Zold s) in
  let check := {|
    c_obj := NaN; c_rnorm := rnorm; c_snorm := snorm;
    c_e_pri := sqrt ((n * n)%:R) * gl_tol p + gl_rtol p * np_max (np_norm K) (np_norm Z);
    c_e_dual := sqrt ((n * n)%:R) * gl_tol p + gl_rtol p * rho * np_norm U |} in
  if stop_test check then (Break (GLState Z U Z rho K), check)
  else
    let rho_new := update_rho (gl_rho_options p) rho rnorm snorm in
    (Next (GLState Z ((rho / rho_new) *: U) Z rho_new K), check).
(** lines 149-203, init "empirical": the precision, the number of iterations and whether the warning was emitted; max_iter 0 leaves iteration_ unbound *)
Definition graphical_lasso_x (alpha : 'I_n -> 'I_n -> option R) (p : gl_params) : py_result ('M[R]_n * nat * bool) :=
  let e := py_for (glx_body alpha p) (gl_max_iter p) 0 (gl_init pinvh emp_cov p InitEmpirical) [::] None in
  match le_iter e with
  | Some it => Ok (gl_Z (le_state e), it, le_else e)
  | None => UnboundLocalError _
  end.
End GWGL.

(** the defaults of lines 81-95; alpha is given as a matrix *)
Definition gl_defaults : gl_params := GLParams 0 1 1 100 (10%:R ^- 4) (10%:R ^- 4) false true default_rho_options true.
(** gwishart_inference.py:168-200 with mode "gl": the precision, and the iterations and warning of the solver *)
Definition gw_fit_gl p (empcov : seq 'rV[R]_p -> res ('M[R]_p)) (eigh : eigh_t p) (pinvh : 'M[R]_p -> 'M[R]_p) (X : seq 'rV[R]_p) (N : 'M[bool]_p)
    (d0 : R) (S0 : 'M[R]_p) : res (py_result ('M[R]_p * nat * bool)) :=
  match empcov X with
  | Raise e => Raise e
  | Val E =>
    let dn := (size X)%:R + d0 in
    let C := (dn - 2%:R)^-1 *: ((size X)%:R *: E + S0) in
    Val (graphical_lasso_x eigh pinvh C (penalties N) gl_defaults)
  end.
