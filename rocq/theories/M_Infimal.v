(** Model of regain/covariance/infimal_convolution_.py. *)
From Coq Require Import Reals.
From mathcomp Require Import all_ssreflect all_algebra.
From Verif Require Import RStruct NP M_Prox M_Loop M_GL M_LGL.
Import Order.TTheory GRing.Theory Num.Theory.

Set Implicit Arguments.
Unset Strict Implicit.
Unset Printing Implicit Defensive.
Local Open Scope ring_scope.

(** lines 46-51; [nuc] is np.linalg.norm(., ord="nuc"). The value is always finite. *)
Definition ic_objective n (nuc : 'M[R]_n -> R) (S Rm K L : 'M[R]_n) (alpha tau : R) : R :=
  2%:R^-1 * squared_norm (S - Rm) + alpha * l1_od_norm K + tau * nuc L.

(** lines 117-132: the R-, K-, L- and U-updates; returns (R, K, L, U). The argument of the K-update is not symmetrised. *)
Definition ic_updates n (eigh : eigh_t n) (S : 'M[R]_n) (alpha tau rho : R) (K L U : 'M[R]_n) :
    'M[R]_n * 'M[R]_n * 'M[R]_n * 'M[R]_n :=
  let Rm := prox_laplacian (S + rho *: symmetrise (K - L - U)) (rho / 2%:R) in
  let K' := soft_thresholding (L + Rm + U) (alpha / rho) in
  let L' := prox_trace_indicator eigh (symmetrise (K' - Rm - U)) (tau / rho) in
  let U' := U + (Rm - K' + L') in
  (Rm, K', L', U').

(** lines 116-162: one iteration. The parameters and the state are those of the latent graphical lasso. *)
Definition ic_body n (eigh : eigh_t n) (nuc : 'M[R]_n -> R) (S : 'M[R]_n) (p : lgl_params)
    (iteration_ : nat) (s : lgl_state n) : outcome (lgl_state n) * convergence :=
  let rho := lgl_rho s in
  let: (Rm, K, L, U) := ic_updates eigh S (lgl_alpha p) (lgl_tau p) rho (lgl_K s) (lgl_L s) (lgl_U s) in
  let obj := if lgl_compute_objective p
             then Fin (ic_objective nuc S Rm K L (lgl_alpha p) (lgl_tau p)) else NaN in
  let rnorm := np_norm (Rm - K + L) in
  let snorm := rho * np_norm (Rm - lgl_Rold s) in
  let check := {|
    c_obj := obj; c_rnorm := rnorm; c_snorm := snorm;
    c_e_pri := sqrt ((n * n)%:R) * lgl_tol p + lgl_rtol p * np_max (np_norm Rm) (np_norm (K - L));
    c_e_dual := sqrt ((n * n)%:R) * lgl_tol p + lgl_rtol p * rho * np_norm U |} in
  if stop_test check then (Break (LGLState K L U Rm rho), check)
  else if is_pinf (c_obj check) then (Break (LGLState K L U Rm rho), check)
  else
    let rho_new := update_rho (lgl_rho_options p) rho rnorm snorm in
    (Next (LGLState K L ((rho / rho_new) *: U) Rm rho_new), check).

(** lines 109-112 *)
Definition ic_init n (p : lgl_params) : lgl_state n := LGLState 0 0 0 0 (lgl_rho0 p).

(** lines 114-164 *)
Definition ic_loop n (eigh : eigh_t n) nuc (S : 'M[R]_n) (p : lgl_params) : loop_end (lgl_state n) convergence :=
  py_for (ic_body eigh nuc S p) (lgl_max_iter p) 0 (ic_init n p) [::] None.

(** lines 54-172 *)
Definition infimal_convolution n (eigh : eigh_t n) nuc (pinvh : 'M[R]_n -> 'M[R]_n) (S : 'M[R]_n) (p : lgl_params) :
    py_result (lgl_result n) :=
  let e := ic_loop eigh nuc S p in
  let hist := if lgl_return_history p then Some (le_checks e) else None in
  let s := le_state e in
  if lgl_return_n_iter p then
    match le_iter e with
    | Some it => Ok (LGLResult (lgl_K s) (lgl_L s) (pinvh (lgl_K s)) hist (Some it) (le_else e))
    | None => UnboundLocalError _
    end
  else Ok (LGLResult (lgl_K s) (lgl_L s) (pinvh (lgl_K s)) hist None (le_else e)).
