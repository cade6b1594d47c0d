(** Property theorems C20-C21 (and the parts of C17, C18) : latent_graphical_lasso. *)
From Coq Require Import Reals.
From mathcomp Require Import all_ssreflect all_algebra.
From Verif Require Import RStruct RTac S_Mat NP M_Prox M_Loop M_GL M_LGL S_LGL.
From Verif Require Import RMx P_Eigh P_Loop P_LGL T_GL.
Import Order.TTheory GRing.Theory Num.Theory.

Set Implicit Arguments.
Unset Strict Implicit.
Unset Printing Implicit Defensive.
Local Open Scope ring_scope.

(** concrete data: exS of T_GL (diagonal 2, off-diagonal 1), alpha = 1, tau = 0 *)
Lemma exS_slack : psd (0%:M + diag_mx (\row_i (exS i i + 1)) - exS).
Proof.
have -> : 0%:M + diag_mx (\row_i (exS i i + 1)) - exS =
          (\col_i (if i == 0 then 1 else -1)) *m (\col_i (if i == 0 then 1 else -1))^T :> 'M[R]_2.
  apply/matrixP => i j; rewrite !mxE big_ord_recl big_ord0 !mxE mul0rn add0r addr0 eqxx.
  case/orP: (ord2 i) => /eqP ->; case/orP: (ord2 j) => /eqP -> /=;
    rewrite ?mulr1n ?mulr0n; mclra.
exact: psd_gram.
Qed.
Lemma exS_lgl_opt : minimiser (@lgl_feasible 2) (lgl_obj (@l1 2 2) exS 1 0)
  (diag_mx (\row_i (exS i i + 1)^-1), 0).
Proof.
apply: lgl_opt_diag; [exact: exS_sym | mclra | | | exact: exS_slack].
  by move=> i; rewrite mxE eqxx; mclra.
by move=> i j ij; rewrite mxE (negbTE ij) normr1.
Qed.

(** C20: the result, and every intermediate state *)
Theorem C20_result : forall n (eigh : eigh_t n) nuc pinvh (S : 'M[R]_n) p init r,
  eigh_ok eigh -> sym S -> 0 < lgl_rho0 p -> 0 <= lgl_tau p ->
  0 < tau_inc (lgl_rho_options p) -> 0 < tau_dec (lgl_rho_options p) -> (0 < lgl_max_iter p)%N ->
  latent_graphical_lasso eigh nuc pinvh S p init = Ok r ->
  sym (lgl_precision r) /\ psd (lgl_latent r).
Proof. exact lgl_top_struct. Qed.
Print Assumptions C20_result.
Theorem C20_every_iteration : forall n (eigh : eigh_t n) nuc pinvh, eigh_ok eigh ->
  forall S : 'M[R]_n, sym S -> forall p, 0 < lgl_rho0 p -> 0 <= lgl_tau p ->
  0 < tau_inc (lgl_rho_options p) -> 0 < tau_dec (lgl_rho_options p) -> forall init k,
  let s := iter_state (lgl_body eigh nuc S p) 0 (lgl_init pinvh S p init) k.+1 in
  [/\ psd (lgl_L s), sym (lgl_U s), sym (lgl_K s) & pd (lgl_Rold s)].
Proof. exact lgl_iter_post. Qed.
Print Assumptions C20_every_iteration.
Example C20_case : exists (eigh : eigh_t 2) r, eigh_ok eigh /\ sym exS /\ exS 0 1 != 0 /\
  latent_graphical_lasso eigh (fun=> 0) id exS
    (LGLParams 1 1 1 7 (10%:R^-1) 0 true true (RhoOptions 10%:R 1 1) true) InitEmpirical = Ok r.
Proof.
have [eigh h] := eigh_exists 2; set p := LGLParams _ _ _ _ _ _ _ _ _ _.
have [|r hr] := @lgl_call_ok _ eigh (fun=> 0) id exS p InitEmpirical; first by [].
exists eigh, r; split=> //; split; first exact: exS_sym.
by split=> //; rewrite mxE; apply/eqP; mclra.
Qed.

(** C21: the l1 norm that includes the diagonal *)
Theorem C21_stationary_is_optimal : forall n (eigh : eigh_t n), eigh_ok eigh ->
  forall S : 'M[R]_n, sym S -> forall alpha tau rho K L U Rm, 0 <= alpha -> 0 <= tau -> 0 < rho ->
  sym L -> sym U -> lgl_updates eigh S alpha tau rho K L U = (Rm, K, L, U) ->
  minimiser (fun KL => [/\ sym KL.1, psd KL.2 & pd (KL.1 - KL.2)])
    (fun KL => \tr (S *m (KL.1 - KL.2)) - ln (\det (KL.1 - KL.2)) + alpha * l1 KL.1
               + tau * \tr KL.2) (K, L).
Proof. exact lgl_fixed_opt. Qed.
Print Assumptions C21_stationary_is_optimal.
Theorem C21_optimal_is_stationary : forall n (eigh : eigh_t n), eigh_ok eigh ->
  forall S : 'M[R]_n, sym S -> forall alpha tau rho K L, 0 <= alpha -> 0 <= tau -> 0 < rho ->
  minimiser (fun KL => [/\ sym KL.1, psd KL.2 & pd (KL.1 - KL.2)])
    (fun KL => \tr (S *m (KL.1 - KL.2)) - ln (\det (KL.1 - KL.2)) + alpha * l1 KL.1
               + tau * \tr KL.2) (K, L) ->
  let U := rho^-1 *: (invmx (K - L) - S) in
  lgl_updates eigh S alpha tau rho K L U = (K - L, K, L, U).
Proof. exact lgl_opt_fixed. Qed.
Print Assumptions C21_optimal_is_stationary.
(** the documented objective, whose l1 norm is off-diagonal: no stationary point minimises it *)
Theorem C21_documented_objective_refuted : forall n (eigh : eigh_t n), eigh_ok eigh ->
  forall S : 'M[R]_n, sym S -> forall alpha tau rho K L U Rm (i : 'I_n), 0 < alpha -> 0 <= tau ->
  0 < rho -> sym L -> sym U -> lgl_updates eigh S alpha tau rho K L U = (Rm, K, L, U) ->
  ~ minimiser (fun KL => [/\ sym KL.1, psd KL.2 & pd (KL.1 - KL.2)])
    (fun KL => \tr (S *m (KL.1 - KL.2)) - ln (\det (KL.1 - KL.2)) + alpha * l1od KL.1
               + tau * \tr KL.2) (K, L).
Proof. exact lgl_fixed_not_doc. Qed.
Print Assumptions C21_documented_objective_refuted.
Example C21_case : exists (eigh : eigh_t 2), eigh_ok eigh /\ exists K U,
  lgl_updates eigh exS 1 0 1 K 0 U = (K - 0, K, 0, U).
Proof.
have [eigh h] := eigh_exists 2; exists eigh; split=> //.
by eexists; eexists; apply: (lgl_opt_fixed h exS_sym _ _ _ exS_lgl_opt); mclra.
Qed.

(** C17, C18 *)
Theorem C17_latent_graphical_lasso_off_by_one :
  forall n (eigh : eigh_t n) nuc pinvh (S : 'M[R]_n) p init r,
  lgl_return_n_iter p -> lgl_return_history p ->
  latent_graphical_lasso eigh nuc pinvh S p init = Ok r ->
  exists h k, [/\ lgl_history r = Some h, lgl_n_iter r = Some k, size h = k.+1,
    (size h <= lgl_max_iter p)%N & lgl_warned r -> size h = lgl_max_iter p].
Proof. exact lgl_count. Qed.
Print Assumptions C17_latent_graphical_lasso_off_by_one.
Theorem C18_latent_graphical_lasso_zero_iterations :
  forall n (eigh : eigh_t n) nuc pinvh (S : 'M[R]_n) p init, lgl_max_iter p = 0%N ->
  (lgl_return_n_iter p -> latent_graphical_lasso eigh nuc pinvh S p init = UnboundLocalError _) /\
  (~~ lgl_return_n_iter p -> exists r, latent_graphical_lasso eigh nuc pinvh S p init = Ok r /\
     lgl_precision r = init_precision pinvh S init /\ lgl_latent r = 0 /\ lgl_warned r = true).
Proof. exact lgl_zero_iter. Qed.
Print Assumptions C18_latent_graphical_lasso_zero_iterations.
