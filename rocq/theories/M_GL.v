(** Model of regain/covariance/graphical_lasso_.py (the solver and the estimator's fit). *)
From Coq Require Import Reals.
From mathcomp Require Import all_ssreflect all_algebra.
From Verif Require Import RStruct NP M_Prox M_Loop.
Import Order.TTheory GRing.Theory Num.Theory.

Set Implicit Arguments.
Unset Strict Implicit.
Unset Printing Implicit Defensive.
Local Open Scope ring_scope.

(** sklearn.utils.extmath.fast_logdet: -inf when the determinant is not positive *)
Definition fast_logdet n (A : 'M[R]_n) : xR := if 0 < \det A then Fin (ln (\det A)) else NInf.

(** np.sum(a * b) *)
Definition np_sum_mul m n (a b : 'M[R]_(m, n)) : R := \sum_i \sum_j a i j * b i j.

(** graphical_lasso_.py:50-52 *)
Definition logl n (emp_cov precision : 'M[R]_n) : xR :=
  xsub (fast_logdet precision) (Fin (np_sum_mul emp_cov precision)).
(** graphical_lasso_.py:55-56; scalar alpha *)
Definition gl_objective n (emp_cov x z : 'M[R]_n) (alpha : R) : xR :=
  xadd (xneg (logl emp_cov x)) (Fin (l1_od_norm (alpha *: z))).

(** graphical_lasso_.py:59-78; [pinvh] is scipy.linalg.pinvh. A string other than "empirical"
    gives zeros. *)
Inductive init_mode n := InitEmpirical | InitArray of 'M[R]_n | InitOther.
Arguments InitEmpirical {n}. Arguments InitOther {n}.
Definition shrink95 n (emp_cov : 'M[R]_n) : 'M[R]_n :=
  \matrix_(i, j) if i == j then emp_cov i j else emp_cov i j * (95%:R / 100%:R).
Definition init_precision n (pinvh : 'M[R]_n -> 'M[R]_n) (emp_cov : 'M[R]_n) (mode : init_mode n) :
    'M[R]_n :=
  match mode with
  | InitEmpirical => pinvh (shrink95 emp_cov)
  | InitArray m => m
  | InitOther => 0
  end.

(** keyword arguments of graphical_lasso, lines 81-95 (verbose only prints) *)
Record gl_params := GLParams {
  gl_alpha : R; gl_rho0 : R; gl_over_relax : R; gl_max_iter : nat; gl_tol : R; gl_rtol : R;
  gl_return_history : bool; gl_return_n_iter : bool; gl_rho_options : rho_options;
  gl_compute_objective : bool }.

(** local variables that live across iterations (K is not bound before the first one: the
    model gives it the value of Z, never read) *)
Record gl_state n := GLState {
  gl_Z : 'M[R]_n; gl_U : 'M[R]_n; gl_Zold : 'M[R]_n; gl_rho : R; gl_K : 'M[R]_n }.

(** lines 156-158: A = Z - U; A += A.T; A /= 2 *)
Definition gl_A n (Z U : 'M[R]_n) : 'M[R]_n := 2%:R^-1 *: ((Z - U) + (Z - U)^T).

(** lines 156-166: the x-, z- and u-updates; returns (K, Z, U) *)
Definition gl_updates n (eigh : eigh_t n) (emp_cov : 'M[R]_n) (alpha over_relax rho : R)
    (Z U : 'M[R]_n) : 'M[R]_n * 'M[R]_n * 'M[R]_n :=
  let A := gl_A Z U in
  let K := prox_logdet eigh (emp_cov - rho *: A) (1 / rho) in
  let K_hat := over_relax *: K - (1 - over_relax) *: Z in
  let Z' := soft_thresholding_off_diagonal (K_hat + U) (alpha / rho) in
  let U' := U + (K_hat - Z') in
  (K, Z', U').

(** lines 155-194: one iteration *)
Definition gl_body n (eigh : eigh_t n) (emp_cov : 'M[R]_n) (p : gl_params) (iteration_ : nat)
    (s : gl_state n) : outcome (gl_state n) * convergence :=
  let rho := gl_rho s in
  let: (K, Z, U) := gl_updates eigh emp_cov (gl_alpha p) (gl_over_relax p) rho (gl_Z s) (gl_U s) in
  let obj := if gl_compute_objective p then gl_objective emp_cov K Z (gl_alpha p) else NaN in
  let rnorm := np_norm (K - Z) in
  let snorm := rho * np_norm (Z - gl_Zold s) in
  let check := {|
    c_obj := obj; c_rnorm := rnorm; c_snorm := snorm;
    c_e_pri := sqrt ((n * n)%:R) * gl_tol p + gl_rtol p * np_max (np_norm K) (np_norm Z);
    c_e_dual := sqrt ((n * n)%:R) * gl_tol p + gl_rtol p * rho * np_norm U |} in
  if stop_test check then (Break (GLState Z U Z rho K), check)
  else
    let rho_new := update_rho (gl_rho_options p) rho rnorm snorm in
    (Next (GLState Z ((rho / rho_new) *: U) Z rho_new K), check).

(** lines 149-151 *)
Definition gl_init n (pinvh : 'M[R]_n -> 'M[R]_n) (emp_cov : 'M[R]_n) (p : gl_params)
    (init : init_mode n) : gl_state n :=
  let Z := init_precision pinvh emp_cov init in
  GLState Z 0 0 (gl_rho0 p) Z.

(** lines 153-196 *)
Definition gl_loop n (eigh : eigh_t n) (emp_cov : 'M[R]_n) (p : gl_params) (s : gl_state n) :
    loop_end (gl_state n) convergence :=
  py_for (gl_body eigh emp_cov p) (gl_max_iter p) 0 s [::] None.

(** the returned list, lines 198-203, and whether the warning of line 196 was emitted *)
Record gl_result n := GLResult {
  gl_precision : 'M[R]_n; gl_covariance : 'M[R]_n; gl_history : option (seq convergence);
  gl_n_iter : option nat; gl_warned : bool }.

(** lines 81-203 *)
Definition graphical_lasso n (eigh : eigh_t n) (pinvh : 'M[R]_n -> 'M[R]_n) (emp_cov : 'M[R]_n)
    (p : gl_params) (init : init_mode n) : py_result (gl_result n) :=
  let e := gl_loop eigh emp_cov p (gl_init pinvh emp_cov p init) in
  let hist := if gl_return_history p then Some (le_checks e) else None in
  if gl_return_n_iter p then
    match le_iter e with
    | Some it => Ok (GLResult (gl_Z (le_state e)) emp_cov hist (Some it) (le_else e))
    | None => UnboundLocalError _
    end
  else Ok (GLResult (gl_Z (le_state e)) emp_cov hist None (le_else e)).
