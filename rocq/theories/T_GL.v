(** Property theorems C12-C19: graphical_lasso. *)
From Coq Require Import Reals.
From mathcomp Require Import all_ssreflect all_algebra all_fingroup.
From Verif Require Import RStruct RTac S_Mat NP M_Prox M_Loop M_GL S_GL.
From Verif Require Import RMx P_Eigh P_Rules P_GL P_GL2.
Import Order.TTheory GRing.Theory Num.Theory.

Set Implicit Arguments.
Unset Strict Implicit.
Unset Printing Implicit Defensive.
Local Open Scope ring_scope.

(** a concrete problem used to show that hypotheses can be met: S = [[2,1],[1,2]], alpha = 1,
    rho = 1, tol = 1/10, max_iter = 100, default rho options with both factors 1 *)
Definition exS : 'M[R]_2 := \matrix_(i, j) if i == j then 2%:R else 1.
Definition exp (m : nat) : gl_params :=
  GLParams 1 1 1 m (10%:R^-1) 0 true true (RhoOptions 10%:R 1 1) true.
Lemma exS_sym : sym exS.
Proof. by apply/matrixP => i j; rewrite !mxE eq_sym. Qed.
Lemma exS_opt : gl_optimum exS 1 (diag_mx (\row_i (exS i i)^-1)).
Proof.
apply: gl_optimum_diag; first exact: exS_sym.
  by move=> i; rewrite mxE eqxx; mclra.
by move=> i j ij; rewrite mxE (negbTE ij) normr1.
Qed.

(** C12: for over_relax = 1 no hypothesis on the initialisation is needed *)
Theorem C12_symmetric : forall n (eigh : eigh_t n) pinvh (S : 'M[R]_n) p init r,
  eigh_ok eigh -> sym S -> 0 < gl_rho0 p ->
  0 < tau_inc (gl_rho_options p) -> 0 < tau_dec (gl_rho_options p) ->
  graphical_lasso eigh pinvh S p init = Ok r -> (0 < gl_max_iter p)%N ->
  gl_over_relax p = 1 \/ sym (init_precision pinvh S init) -> sym (gl_precision r).
Proof. exact gl_top_sym. Qed.
Print Assumptions C12_symmetric.
Theorem C12_positive_diagonal : forall n (eigh : eigh_t n) pinvh (S : 'M[R]_n) p init r,
  eigh_ok eigh -> sym S -> 0 < gl_rho0 p ->
  0 < tau_inc (gl_rho_options p) -> 0 < tau_dec (gl_rho_options p) ->
  graphical_lasso eigh pinvh S p init = Ok r -> forall i, (0 < gl_max_iter p)%N ->
  gl_over_relax p = 1 -> 0 < gl_precision r i i.
Proof. exact gl_top_diag. Qed.
Print Assumptions C12_positive_diagonal.
Theorem C12_logdet_iterate_pd : forall n (eigh : eigh_t n) pinvh (S : 'M[R]_n) p init,
  eigh_ok eigh -> sym S -> 0 < gl_rho0 p ->
  0 < tau_inc (gl_rho_options p) -> 0 < tau_dec (gl_rho_options p) -> (0 < gl_max_iter p)%N ->
  gl_over_relax p = 1 \/ sym (init_precision pinvh S init) ->
  pd (gl_K (le_state (gl_loop eigh S p (gl_init pinvh S p init)))).
Proof. exact gl_top_K. Qed.
Print Assumptions C12_logdet_iterate_pd.
Example C12_case : exists (eigh : eigh_t 2) r, eigh_ok eigh /\ sym exS /\ exS 0 1 != 0 /\
  graphical_lasso eigh id exS (exp 7) InitEmpirical = Ok r.
Proof.
have [eigh h] := eigh_exists 2.
have [|r hr] := @gl_call_ok _ eigh id exS (exp 7) InitEmpirical; first by [].
exists eigh, r; split=> //; split; first exact: exS_sym.
by split=> //; rewrite mxE; apply/eqP; mclra.
Qed.

(** C13 *)
Theorem C13_stationary_is_optimal : forall n (eigh : eigh_t n), eigh_ok eigh ->
  forall S : 'M[R]_n, sym S -> forall alpha rho Z U K, 0 <= alpha -> 0 < rho ->
  gl_updates eigh S alpha 1 rho Z U = (K, Z, U) ->
  K = Z /\ minimiser (@pd n) (fun K => \tr (S *m K) - ln (\det K) + alpha * l1od K) Z.
Proof. exact gl_fixed_opt. Qed.
Print Assumptions C13_stationary_is_optimal.
Theorem C13_optimal_is_stationary : forall n (eigh : eigh_t n), eigh_ok eigh ->
  forall S : 'M[R]_n, sym S -> forall alpha rho K, 0 <= alpha -> 0 < rho ->
  minimiser (@pd n) (fun K => \tr (S *m K) - ln (\det K) + alpha * l1od K) K ->
  let U := rho^-1 *: (invmx K - S) in gl_updates eigh S alpha 1 rho K U = (K, K, U).
Proof. exact gl_opt_fixed. Qed.
Print Assumptions C13_optimal_is_stationary.
Example C13_case : sym exS /\ gl_optimum exS 1 (diag_mx (\row_i (exS i i)^-1)).
Proof. by split; [exact: exS_sym | exact: exS_opt]. Qed.

(** C14: with an explicit bound N on the number of iterations *)
Theorem C14_no_warning : forall n (eigh : eigh_t n) pinvh (S : 'M[R]_n) p init r,
  eigh_ok eigh -> sym S -> 0 < gl_rho0 p -> graphical_lasso eigh pinvh S p init = Ok r ->
  forall Ko N,
  gl_over_relax p = 1 -> tau_inc (gl_rho_options p) = 1 -> tau_dec (gl_rho_options p) = 1 ->
  0 <= gl_alpha p -> 0 <= gl_rtol p -> 0 < n%:R * gl_tol p ->
  gl_optimum S (gl_alpha p) Ko ->
  let d := fnorm2 (init_precision pinvh S init - Ko) + fnorm2 (invmx Ko - S) / gl_rho0 p ^+ 2 in
  d <= (n%:R * gl_tol p) ^+ 2 * N%:R -> gl_rho0 p ^+ 2 * d <= (n%:R * gl_tol p) ^+ 2 * N%:R ->
  (0 < N)%N -> (N < gl_max_iter p)%N -> gl_warned r = false.
Proof. exact gl_top_nowarn. Qed.
Print Assumptions C14_no_warning.
Theorem C14_terminates : forall n (eigh : eigh_t n) pinvh S p init, eigh_ok eigh -> sym S ->
  0 < gl_rho0 p -> gl_over_relax p = 1 -> tau_inc (gl_rho_options p) = 1 ->
  tau_dec (gl_rho_options p) = 1 -> 0 <= gl_alpha p -> 0 <= gl_rtol p -> 0 < n%:R * gl_tol p ->
  (exists Ko, gl_optimum S (gl_alpha p) Ko) ->
  exists N, forall m, (N < m)%N -> forall r,
    graphical_lasso eigh pinvh S
      (GLParams (gl_alpha p) (gl_rho0 p) (gl_over_relax p) m (gl_tol p) (gl_rtol p)
        (gl_return_history p) (gl_return_n_iter p) (gl_rho_options p) (gl_compute_objective p)) init
      = Ok r -> gl_warned r = false.
Proof. exact gl_terminates. Qed.
Print Assumptions C14_terminates.
Example C14_case : 0 < 2%:R * gl_tol (exp 5) /\ (exists Ko, gl_optimum exS (gl_alpha (exp 5)) Ko).
Proof. by split; [rewrite /=; mclra | eexists; exact: exS_opt]. Qed.

(** C15: against every competitor Y, in particular the optimum *)
Theorem C15_stop_gap : forall n (eigh : eigh_t n), eigh_ok eigh -> forall S : 'M[R]_n, sym S ->
  forall p, 0 < tau_inc (gl_rho_options p) -> 0 < tau_dec (gl_rho_options p) ->
  forall st Y c0, gl_over_relax p = 1 -> 0 <= gl_alpha p -> 0 < gl_rho st -> pd Y ->
  let e := gl_loop eigh S p st in let s := le_state e in let c := last c0 (le_checks e) in
  ~~ le_else e -> (1 < size (le_checks e))%N ->
  gl_obj2 S (gl_alpha p) (gl_K s) (gl_Z s) <= gl_obj S (gl_alpha p) Y
     + gl_rho s * fnorm (gl_U s) * c_rnorm c + c_snorm c * fnorm (gl_K s - Y).
Proof. exact gl_stop_gap. Qed.
Print Assumptions C15_stop_gap.
(** at the first iteration: for every error M there are data and an array init such that the call
    returns without warning an estimate worse than the optimum by at least M *)
Theorem C15_first_iteration_refuted : forall (eigh : eigh_t 1) pinvh p M, eigh_ok eigh ->
  0 < gl_rho0 p -> gl_over_relax p = 1 -> 0 < gl_tol p -> 0 <= gl_rtol p ->
  (0 < gl_max_iter p)%N -> 0 <= M ->
  exists S Z0 Ko : 'M[R]_1, [/\ pd S, pd Z0, gl_optimum S (gl_alpha p) Ko &
    exists r, [/\ graphical_lasso eigh pinvh S p (InitArray Z0) = Ok r, gl_warned r = false,
      pd (gl_precision r) &
      gl_obj S (gl_alpha p) Ko + M <= gl_obj S (gl_alpha p) (gl_precision r)]].
Proof. exact gl_first_stop. Qed.
Print Assumptions C15_first_iteration_refuted.

(** C16 *)
Theorem C16_over_relaxation_refuted : forall n (eigh : eigh_t n), eigh_ok eigh ->
  forall S : 'M[R]_n, sym S -> forall alpha om rho Z U K (i0 : 'I_n), 0 <= alpha -> 0 < rho ->
  1 < om -> om < 2%:R -> gl_updates eigh S alpha om rho Z U = (K, Z, U) ->
  ~ gl_optimum S alpha Z /\ ~ gl_optimum S alpha K.
Proof. exact gl_relax_not_opt. Qed.
Print Assumptions C16_over_relaxation_refuted.
(** and stationary points do exist *)
Theorem C16_stationary_exists : forall (eigh : eigh_t 1) alpha om rho, eigh_ok eigh -> 0 < rho ->
  1 < om -> om < 2%:R ->
  exists S Z : 'M[R]_1, pd S /\ gl_updates eigh S alpha om rho Z 0 = (1%:M, Z, 0).
Proof. exact gl_relax_witness. Qed.
Print Assumptions C16_stationary_exists.

(** C17: one history entry per iteration, but the count returned is one less *)
Theorem C17_graphical_lasso_off_by_one : forall n (eigh : eigh_t n) pinvh (S : 'M[R]_n) p init r,
  gl_return_n_iter p -> gl_return_history p -> graphical_lasso eigh pinvh S p init = Ok r ->
  exists h k, [/\ gl_history r = Some h, gl_n_iter r = Some k, size h = k.+1,
    (size h <= gl_max_iter p)%N & gl_warned r -> size h = gl_max_iter p].
Proof. exact gl_count. Qed.
Print Assumptions C17_graphical_lasso_off_by_one.

(** C18 *)
Theorem C18_graphical_lasso_zero_iterations : forall n (eigh : eigh_t n) pinvh (S : 'M[R]_n) p init,
  gl_max_iter p = 0%N ->
  (gl_return_n_iter p -> graphical_lasso eigh pinvh S p init = UnboundLocalError _) /\
  (~~ gl_return_n_iter p -> exists r, graphical_lasso eigh pinvh S p init = Ok r /\
     gl_precision r = init_precision pinvh S init /\ gl_warned r = true).
Proof. exact gl_zero_iter. Qed.
Print Assumptions C18_graphical_lasso_zero_iterations.

(** C19 *)
Theorem C19_relabelling : forall n (s : {perm 'I_n}) (eigh eigh' : eigh_t n),
  eigh_ok eigh -> eigh_ok eigh' -> forall S : 'M[R]_n, sym S ->
  forall p, 0 < tau_inc (gl_rho_options p) -> 0 < tau_dec (gl_rho_options p) ->
  forall pinvh pinvh' init init', 0 < gl_rho0 p ->
  init_precision pinvh' (relabel s S) init' = relabel s (init_precision pinvh S init) ->
  match graphical_lasso eigh pinvh S p init,
        graphical_lasso eigh' pinvh' (relabel s S) p init' with
  | Ok r, Ok r' => [/\ gl_precision r' = relabel s (gl_precision r),
      gl_covariance r' = relabel s (gl_covariance r),
      gl_history r' = gl_history r, gl_n_iter r' = gl_n_iter r & gl_warned r' = gl_warned r]
  | UnboundLocalError, UnboundLocalError => True
  | _, _ => False
  end.
Proof. exact rl_call. Qed.
Print Assumptions C19_relabelling.
Example C19_case : exists (s : {perm 'I_2}) (S : 'M[R]_2), sym S /\ relabel s S <> S.
Proof.
exists (tperm 0 1), (\matrix_(i, j) if (i == 0) && (j == 0) then 1 else 0); split.
  by apply/matrixP => i j; rewrite !mxE andbC.
move/matrixP => /(_ 0 0); rewrite !mxE tpermL /= => /eqP.
by rewrite eq_sym oner_eq0.
Qed.
