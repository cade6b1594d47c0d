(** Model of regain/generalized_linear_model/glm_time_ising.py and glm_time_poisson.py (the solvers).
    The arrays indexed by lag are indexed by pairs of times, as in M_KTGL. *)
From Coq Require Import Reals.
From mathcomp Require Import all_ssreflect all_algebra.
From Verif Require Import RStruct NP M_Prox M_Loop M_GL M_LGL M_TGL M_KTGL M_Stab M_GLM.
Import Order.TTheory GRing.Theory Num.Theory.

Set Implicit Arguments.
Unset Strict Implicit.
Unset Printing Implicit Defensive.
Local Open Scope ring_scope.

(** glm_time_ising.py:49-56, glm_time_poisson.py:49-54, with n_samples None (as called) *)
Definition glm_time_loss n T (loss : 'I_T -> 'M[R]_n -> xR) (K : stack n T) : xR :=
  \big[xadd/Fin 0]_t (xmul (Fin (-1)) (loss t (K t))).

(** glm_time_ising.py:59-70, glm_time_poisson.py:57-68 *)
Definition glm_time_objective n T (loss : 'I_T -> 'M[R]_n -> xR) (K : stack n T) (Z_L Z_R : edges n T)
    (alpha : R) (kernel : 'M[R]_T) (psi : 'M[R]_n -> R) : xR :=
  xadd (xadd (glm_time_loss loss K) (Fin (alpha * \sum_t l1_od_norm (K t))))
       (Fin (\sum_e psi (Z_R e - Z_L e) * kernel (t_l e) (t_r e))).

(** keyword arguments (verbose only prints; mode, init and n_cores are not used) *)
Record time_glm_params T := TimeGLMParams {
  tg_alpha : R; tg_rho0 : R; tg_kernel : option 'M[R]_T; tg_max_iter : nat; tg_gamma : R; tg_tol : R;
  tg_rtol : R; tg_return_history : bool; tg_return_n_iter : bool; tg_compute_objective : bool;
  tg_stop_at : option R; tg_stop_when : R; tg_rho_options : rho_options }.
Definition tg_kernel_of T (p : time_glm_params T) : 'M[R]_T := odflt 1%:M (tg_kernel p).

(** Z_M, U_M and Z_M_old as (left, right) pairs; rho; K; checks *)
Record time_glm_state n T := TimeGLMState {
  tg_Z : edges n T * edges n T; tg_U : edges n T * edges n T; tg_Zold : edges n T * edges n T;
  tg_rho : R; tg_K : stack n T; tg_checks : seq convergence }.

(** glm_time_ising.py:153-162 *)
Definition time_glm_A n T (Z U : edges n T * edges n T) : stack n T :=
  let A : stack n T := add_rights (add_lefts 0 (Z.1 - U.1)) (Z.2 - U.2) in
  [ffun t => symmetrise (T%:R^-1 *: A t)].

Definition pair_sqnorm n T (X : edges n T * edges n T) : R := edges_sqnorm X.1 + edges_sqnorm X.2.
Definition pair_copies n T (K : stack n T) : edges n T * edges n T := (lefts K, rights K).

(** glm_time_ising.py:182-207: Z and U, psi other than the node penalty *)
Definition time_glm_ZU n T (prox_psi : 'M[R]_n -> R -> 'M[R]_n) (kernel : 'M[R]_T) (rho : R)
    (K : stack n T) (U : edges n T * edges n T) :
    (edges n T * edges n T) * (edges n T * edges n T) :=
  let Z := ktgl_edge_update prox_psi kernel rho (lefts K + U.1) (rights K + U.2) in
  (Z, (U.1 + (lefts K - Z.1), U.2 + (rights K - Z.2))).

(** glm_time_ising.py:150-291, glm_time_poisson.py:140-280: one iteration. [solve t rho A] is the K
    update of time t (below). [None]: it did not return. *)
Definition time_glm_body n T (solve : 'I_T -> R -> 'M[R]_n -> option 'M[R]_n)
    (loss : 'I_T -> 'M[R]_n -> xR) (psi : 'M[R]_n -> R) (prox_psi : 'M[R]_n -> R -> 'M[R]_n)
    (p : time_glm_params T) (iteration_ : nat) (s : time_glm_state n T) :
    option (bool * time_glm_state n T) :=
  let rho := tg_rho s in
  let A := time_glm_A (tg_Z s) (tg_U s) in
  match all_some (fun t => solve t rho (A t)) 0 with
  | None => None
  | Some Knew =>
    let K : stack n T := [ffun t => Knew t] in
    let: (Z, U) := time_glm_ZU prox_psi (tg_kernel_of p) rho K (tg_U s) in
    let rnorm := sqrt (pair_sqnorm (pair_copies K - Z)) in
    let snorm := rho * sqrt (pair_sqnorm (Z - tg_Zold s)) in
    let obj := if tg_compute_objective p
               then glm_time_objective loss K Z.1 Z.2 (tg_alpha p) (tg_kernel_of p) psi else NaN in
    let check := {|
      c_obj := obj; c_rnorm := rnorm; c_snorm := snorm;
      c_e_pri := n%:R * T%:R * tg_tol p + tg_rtol p *
        np_max (sqrt (pair_sqnorm Z)) (sqrt (stack_sqnorm K + pair_sqnorm (pair_copies K)));
      c_e_dual := n%:R * T%:R * tg_tol p + tg_rtol p * rho * sqrt (pair_sqnorm U) |} in
    let checks := rcons (tg_checks s) check in
    if stop_at_test obj (tg_stop_at p) (tg_stop_when p) then
      Some (true, TimeGLMState Z U Z rho K checks)
    else if stop_test check then Some (true, TimeGLMState Z U Z rho K checks)
    else
      let rho_new := update_rho (tg_rho_options p) rho rnorm snorm in
      Some (false, TimeGLMState Z ((rho / rho_new) *: U.1, (rho / rho_new) *: U.2) Z rho_new K checks)
  end.

(** glm_time_ising.py:128-148 *)
Definition time_glm_init n T (loss : 'I_T -> 'M[R]_n -> xR) (psi : 'M[R]_n -> R)
    (p : time_glm_params T) : time_glm_state n T :=
  let check0 := Convergence (glm_time_objective loss 0 0 0 (tg_alpha p) (tg_kernel_of p) psi) 0 0 0 0 in
  TimeGLMState (0, 0) (0, 0) (0, 0) (tg_rho0 p) 0 [:: check0].

Record time_glm_result n T := TimeGLMResult {
  tgr_K : stack n T; tgr_history : option (seq convergence); tgr_n_iter : option nat }.

(** glm_time_ising.py:128-297 (the warning is not modelled) *)
Definition time_glm_fit n T solve loss psi prox_psi (p : time_glm_params T) :
    option (py_result (time_glm_result n T)) :=
  omap (fun e : time_glm_state n T * option nat =>
    let: (s, it) := e in
    let hist := if tg_return_history p then Some (tg_checks s) else None in
    if tg_return_n_iter p then
      match it with
      | Some i => Ok (TimeGLMResult (tg_K s) hist (Some i.+1))
      | None => UnboundLocalError _
      end
    else Ok (TimeGLMResult (tg_K s) hist None))
   (glm_for (time_glm_body solve loss psi prox_psi p) (tg_max_iter p) 0 (time_glm_init loss psi p) None).

(** the K update of the Ising model, glm_time_ising.py:165-180: the same alpha, gamma, tol, max_iter *)
Definition time_ising_inner n T (p : time_glm_params T) (rho : R) (A : 'M[R]_n) : ising_params n :=
  IsingParams (tg_alpha p) (tg_gamma p) (tg_tol p) (tg_max_iter p) false false (Some A) T%:R rho
    (1 / 2%:R) false.
Definition time_ising_solve n T m (X : 'I_T -> 'M[R]_(m, n)) (p : time_glm_params T) (t : 'I_T) (rho : R)
    (A : 'M[R]_n) : option 'M[R]_n :=
  theta_of (ising_fit (X t) (time_ising_inner p rho A) 0 None).
(** [X t] is X[t, :, :] *)
Definition fit_time_ising_model n T m (X : 'I_T -> 'M[R]_(m, n)) psi prox_psi (p : time_glm_params T) :
    option (py_result (time_glm_result n T)) :=
  time_glm_fit (time_ising_solve X p) (fun t => ising_loss (X t)) psi prox_psi p.

(** glm_time_poisson.py:152-171: alpha, tol, A, T, rho are passed; gamma = 1, max_iter = 100 are the
    defaults of fit_each_variable *)
Definition time_poisson_inner d T (p : time_glm_params T) (rho : R) (A : 'M[R]_d.+1) : poisson_params d :=
  PoissonParams (tg_alpha p) 1 (tg_tol p) 100 (1 / 2%:R) true false (Some A) T%:R rho.
Definition time_poisson_solve d T m (X : 'I_T -> 'M[R]_(m, d.+1)) (p : time_glm_params T) (fuel : nat)
    (t : 'I_T) (rho : R) (A : 'M[R]_d.+1) : option 'M[R]_d.+1 :=
  glm_precision (fun v => theta_of (poisson_fit_each (X t) v (time_poisson_inner p rho A) fuel)) Union.
(** the loss sums the node losses of each K[t], whatever its symmetry; it is finite *)
Definition fit_time_poisson_model d T m (X : 'I_T -> 'M[R]_(m, d.+1)) psi prox_psi
    (p : time_glm_params T) (fuel : nat) : option (py_result (time_glm_result d.+1 T)) :=
  time_glm_fit (time_poisson_solve X p fuel) (fun t K => Fin (poisson_loss (X t) K)) psi prox_psi p.
