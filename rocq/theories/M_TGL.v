(** Model of regain/covariance/time_graphical_lasso_.py (the solver). Scalar alpha and beta.
    A 3-dimensional array of T matrices is a function from 'I_T. The solver needs at least one
    time point (divisor[0] raises IndexError otherwise), so T = m.+1. *)
From Coq Require Import Reals.
From mathcomp Require Import all_ssreflect all_algebra.
From Verif Require Import RStruct NP M_Prox M_Loop M_GL M_LGL.
Import Order.TTheory GRing.Theory Num.Theory.

Set Implicit Arguments.
Unset Strict Implicit.
Unset Printing Implicit Defensive.
Local Open Scope ring_scope.

Definition stack (n T : nat) : Type := {ffun 'I_T -> 'M[R]_n}.
Canonical stack_zmod n T := [zmodType of stack n T].
Canonical stack_lmod n T := [lmodType R of stack n T].

(** K[:-1] and K[1:]. [lift ord_max t] is the index t itself, [lift ord0 t] is t+1. *)
Definition but_last n m (K : stack n m.+1) : stack n m := [ffun t => K (lift ord_max t)].
Definition but_first n m (K : stack n m.+1) : stack n m := [ffun t => K (lift ord0 t)].
(** A[:-1] += X and A[1:] += X *)
Definition add_but_last n m (A : stack n m.+1) (X : stack n m) : stack n m.+1 :=
  [ffun t => A t + oapp X 0 (unlift ord_max t)].
Definition add_but_first n m (A : stack n m.+1) (X : stack n m) : stack n m.+1 :=
  [ffun t => A t + oapp X 0 (unlift ord0 t)].
(** sklearn squared_norm of a 3-d array *)
Definition stack_sqnorm n T (X : stack n T) : R := \sum_t squared_norm (X t).

(** the consensus variables (Z_0, Z_1, Z_2), and likewise (U_0, U_1, U_2) *)
Definition triple n m : Type := stack n m.+1 * stack n m * stack n m.
Canonical triple_zmod n m := [zmodType of triple n m].
Canonical triple_lmod n m := [lmodType R of triple n m].
Definition copies n m (K : stack n m.+1) : triple n m := (K, but_last K, but_first K).
Definition triple_sqnorm n m (X : triple n m) : R :=
  stack_sqnorm X.1.1 + stack_sqnorm X.1.2 + stack_sqnorm X.2.

(** lines 172-175: 3, less one at the first and one at the last time (both when T = 1) *)
Definition divisor m (t : 'I_m.+1) : R := 3%:R - (t == ord0)%:R - (t == ord_max)%:R.

(** what check_norm_prox returns: (psi, prox_psi, False), or (node_penalty, prox_node_penalty, True).
    prox_psi acts on each time slice. For the node penalty, [node] is prox_node_penalty
    (prox.py:167-239), given A_1, A_2, lamda, rho, tol, rtol, max_iter. *)
Inductive psi_mode n :=
| PsiPlain (psi : 'M[R]_n -> R) (prox_psi : 'M[R]_n -> R -> 'M[R]_n)
| PsiNode (psi : 'M[R]_n -> R)
    (node : forall m, stack n m -> stack n m -> R -> R -> R -> R -> nat -> stack n m * stack n m).
Definition psi_norm n (x : psi_mode n) : 'M[R]_n -> R :=
  match x with PsiPlain psi _ => psi | PsiNode psi _ => psi end.

(** lines 54-56: one time slice *)
Definition log_likelihood n (emp_cov precision : 'M[R]_n) : xR :=
  xsub (fast_logdet precision) (Fin (np_sum_mul emp_cov precision)).
(** lines 59-66 *)
Definition tgl_loss n T (emp_cov precision : stack n T) (n_samples : option ('I_T -> R)) : xR :=
  let ns := odflt (fun=> 1) n_samples in
  \big[xadd/Fin 0]_t xmul (Fin (- ns t)) (log_likelihood (emp_cov t) (precision t)).
(** lines 69-83 *)
Definition tgl_objective n m (n_samples : 'I_m.+1 -> R) (emp_cov K Z_0 : stack n m.+1)
    (Z_1 Z_2 : stack n m) (alpha beta : R) (psi : 'M[R]_n -> R) : xR :=
  xadd (xadd (tgl_loss emp_cov K (Some n_samples)) (Fin (alpha * \sum_t l1_od_norm (Z_0 t))))
       (Fin (beta * \sum_t psi ((Z_2 - Z_1) t))).

(** keyword arguments, lines 86-105 (verbose only prints, mode is not used) *)
Record tgl_params := TGLParams {
  tgl_alpha : R; tgl_rho0 : R; tgl_beta : R; tgl_max_iter : nat; tgl_tol : R; tgl_rtol : R;
  tgl_return_history : bool; tgl_return_n_iter : bool; tgl_compute_objective : bool;
  tgl_stop_at : option R; tgl_stop_when : R; tgl_rho_options : rho_options }.

(** graphical_lasso_.py:59-78 on a 3-d array: slice by slice *)
Inductive init_mode3 n T := Init3Empirical | Init3Array of stack n T | Init3Other.
Arguments Init3Empirical {n T}. Arguments Init3Other {n T}.
Definition init_precision3 n T (pinvh : 'M[R]_n -> 'M[R]_n) (emp_cov : stack n T)
    (mode : init_mode3 n T) : stack n T :=
  match mode with
  | Init3Empirical => [ffun t => pinvh (shrink95 (emp_cov t))]
  | Init3Array K => K
  | Init3Other => 0
  end.

(** variables alive across iterations; [tgl_K] is the last log-det iterate (unbound before the
    first iteration: the model gives it the value of Z_0, never read) *)
Record tgl_state n m := TGLState {
  tgl_Z : triple n m; tgl_U : triple n m; tgl_Zold : triple n m; tgl_rho : R;
  tgl_K : stack n m.+1 }.

(** lines 186-197 *)
Definition tgl_K_update n m (eigh : eigh_t n) (emp_cov : stack n m.+1) (n_samples : 'I_m.+1 -> R)
    (rho : R) (Z U : triple n m) : stack n m.+1 :=
  let D := Z - U in
  let A := add_but_first (add_but_last D.1.1 D.1.2) D.2 in
  [ffun t =>
    let At := symmetrise ((divisor t)^-1 *: A t) in
    prox_logdet eigh ((- rho * divisor t / n_samples t) *: At + emp_cov t)
      (n_samples t / (rho * divisor t))].

(** lines 200-204 *)
Definition tgl_Z0_update n m (alpha rho : R) (K U_0 : stack n m.+1) : stack n m.+1 :=
  [ffun t => soft_thresholding (symmetrise (K t + U_0 t)) (alpha / rho)].

(** lines 207-222 *)
Definition tgl_pair_update n m (px : psi_mode n) (p : tgl_params) (rho : R) (A_1 A_2 : stack n m) :
    stack n m * stack n m :=
  match px with
  | PsiPlain _ prox_psi =>
    ([ffun t => (pair_update prox_psi (A_1 t) (A_2 t) (tgl_beta p) rho).1],
     [ffun t => (pair_update prox_psi (A_1 t) (A_2 t) (tgl_beta p) rho).2])
  | PsiNode _ node =>
    node m A_1 A_2 (2%:R^-1 * tgl_beta p / rho) rho (tgl_tol p) (tgl_rtol p) (tgl_max_iter p)
  end.

(** lines 186-227: returns (K, Z, U) *)
Definition tgl_updates n m (eigh : eigh_t n) (px : psi_mode n) (emp_cov : stack n m.+1)
    (n_samples : 'I_m.+1 -> R) (p : tgl_params) (rho : R) (Z U : triple n m) :
    stack n m.+1 * triple n m * triple n m :=
  let K := tgl_K_update eigh emp_cov n_samples rho Z U in
  let Z_0 := tgl_Z0_update (tgl_alpha p) rho K U.1.1 in
  let Z_12 := tgl_pair_update px p rho (but_last K + U.1.2) (but_first K + U.2) in
  let Z' := (Z_0, Z_12.1, Z_12.2) : triple n m in
  (K, Z', U + (copies K - Z')).

(** lines 276-278: [abs(check.obj - stop_at) / abs(stop_at) < stop_when]. A zero divisor gives inf
    or nan, and an infinite or nan objective gives inf or nan: the comparison is then false. *)
Definition stop_at_test (obj : xR) (stop_at : option R) (stop_when : R) : bool :=
  match stop_at, obj with
  | Some s, Fin o => (s != 0) && (`|o - s| / `|s| < stop_when)
  | _, _ => false
  end.

(** lines 185-291: one iteration. Line 242 passes Z_0 where [objective] expects K, and K where it
    expects Z_0. *)
Definition tgl_body n m (eigh : eigh_t n) (px : psi_mode n) (emp_cov : stack n m.+1)
    (n_samples : 'I_m.+1 -> R) (p : tgl_params) (iteration_ : nat) (s : tgl_state n m) :
    outcome (tgl_state n m) * convergence :=
  let rho := tgl_rho s in
  let: (K, Z, U) := tgl_updates eigh px emp_cov n_samples p rho (tgl_Z s) (tgl_U s) in
  let rnorm := sqrt (triple_sqnorm (copies K - Z)) in
  let snorm := rho * sqrt (triple_sqnorm (Z - tgl_Zold s)) in
  let obj := if tgl_compute_objective p
             then tgl_objective n_samples emp_cov Z.1.1 K Z.1.2 Z.2 (tgl_alpha p) (tgl_beta p)
                    (psi_norm px)
             else NaN in
  let sz : R := ((m.+1 * (n * n) + 2 * (m * (n * n)))%:R) in
  let check := {|
    c_obj := obj; c_rnorm := rnorm; c_snorm := snorm;
    c_e_pri := sqrt sz * tgl_tol p +
      tgl_rtol p * np_max (sqrt (triple_sqnorm Z)) (sqrt (triple_sqnorm (copies K)));
    c_e_dual := sqrt sz * tgl_tol p + tgl_rtol p * rho * sqrt (triple_sqnorm U) |} in
  if stop_at_test obj (tgl_stop_at p) (tgl_stop_when p) then
    (Break (TGLState Z U Z rho K), check)
  else if stop_test check then (Break (TGLState Z U Z rho K), check)
  else
    let rho_new := update_rho (tgl_rho_options p) rho rnorm snorm in
    (Next (TGLState Z ((rho / rho_new) *: U) Z rho_new K), check).

(** lines 159-169 *)
Definition tgl_init n m (pinvh : 'M[R]_n -> 'M[R]_n) (emp_cov : stack n m.+1) (p : tgl_params)
    (init : init_mode3 n m.+1) : tgl_state n m :=
  let Z_0 := init_precision3 pinvh emp_cov init in
  TGLState (copies Z_0) 0 0 (tgl_rho0 p) Z_0.

(** lines 185-293 *)
Definition tgl_loop n m (eigh : eigh_t n) px (emp_cov : stack n m.+1) n_samples p
    (s : tgl_state n m) : loop_end (tgl_state n m) convergence :=
  py_for (tgl_body eigh px emp_cov n_samples p) (tgl_max_iter p) 0 s [::] None.

Record tgl_result n m := TGLResult {
  tgl_precision : stack n m.+1; tgl_covariance : stack n m.+1;
  tgl_history : option (seq convergence); tgl_n_iter : option nat; tgl_warned : bool }.

(** lines 86-301; the history starts with the entry of lines 180-184, whose residuals are 0 *)
Definition time_graphical_lasso n m (eigh : eigh_t n) (pinvh : 'M[R]_n -> 'M[R]_n) (px : psi_mode n)
    (emp_cov : stack n m.+1) (n_samples : option ('I_m.+1 -> R)) (p : tgl_params)
    (init : init_mode3 n m.+1) : py_result (tgl_result n m) :=
  let ns := odflt (fun=> 1) n_samples in
  let s0 := tgl_init pinvh emp_cov p init in
  let Z_0 := (tgl_Z s0).1.1 in
  let check0 := Convergence (tgl_objective ns emp_cov Z_0 Z_0 (tgl_Z s0).1.2 (tgl_Z s0).2
                  (tgl_alpha p) (tgl_beta p) (psi_norm px)) 0 0 0 0 in
  let e := tgl_loop eigh px emp_cov ns p s0 in
  let Z := (tgl_Z (le_state e)).1.1 in
  let cov : stack n m.+1 := [ffun t => pinvh (Z t)] in
  let hist := if tgl_return_history p then Some (check0 :: le_checks e) else None in
  if tgl_return_n_iter p then
    match le_iter e with
    | Some it => Ok (TGLResult Z cov hist (Some it.+1) (le_else e))
    | None => UnboundLocalError _
    end
  else Ok (TGLResult Z cov hist None (le_else e)).
