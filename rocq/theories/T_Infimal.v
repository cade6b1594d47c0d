(** Property theorem C135 (and the parts of C17, C18, C100): infimal_convolution. *)
From Coq Require Import Reals.
From mathcomp Require Import all_ssreflect all_algebra.
From Verif Require Import RStruct RTac S_Mat NP M_Prox M_Loop M_GL M_LGL M_Infimal.
From Verif Require Import RMx P_Eigh P_Loop P_LGL P_Infimal T_GL T_Stop.
Import Order.TTheory GRing.Theory Num.Theory.

Set Implicit Arguments.
Unset Strict Implicit.
Unset Printing Implicit Defensive.
Local Open Scope ring_scope.

(** the result: a symmetric K, a positive semidefinite L, and the pseudo-inverse of K (not of K - L) as third element *)
Theorem C135_result : forall n (eigh : eigh_t n) nuc pinvh (S : 'M[R]_n) p r,
  eigh_ok eigh -> sym S -> 0 < lgl_rho0 p -> 0 <= lgl_tau p ->
  0 < tau_inc (lgl_rho_options p) -> 0 < tau_dec (lgl_rho_options p) -> (0 < lgl_max_iter p)%N ->
  infimal_convolution eigh nuc pinvh S p = Ok r ->
  [/\ sym (lgl_precision r), psd (lgl_latent r) & lgl_covariance r = pinvh (lgl_precision r)].
Proof.
move=> n eigh nuc pinvh S p r He sS r0 t0 ti td m0 /ic_call [[-> ->] -> _ _ _].
by have [] := ic_loop_post nuc He sS r0 t0 ti td m0.
Qed.
Print Assumptions C135_result.

(** the problem that is solved: a least-squares fit of K - L to S, with the l1 norm over all entries *)
Theorem C135_stationary_is_optimal : forall n (eigh : eigh_t n), eigh_ok eigh ->
  forall S : 'M[R]_n, sym S -> forall alpha tau rho K L U Rm, 0 <= alpha -> 0 <= tau -> 0 < rho ->
  sym L -> sym U -> ic_updates eigh S alpha tau rho K L U = (Rm, K, L, U) ->
  minimiser (fun KL => sym KL.1 /\ psd KL.2)
    (fun KL => fnorm2 (S - (KL.1 - KL.2)) / 2%:R + alpha * l1 KL.1 + tau * \tr KL.2) (K, L).
Proof. by move=> n eigh He S sS a t r K L U Rm a0 t0 r0 sL sU h; apply: ic_kkt_opt (ic_fixed He sS a0 t0 r0 sL sU h). Qed.
Print Assumptions C135_stationary_is_optimal.
Theorem C135_optimal_is_stationary : forall n (eigh : eigh_t n), eigh_ok eigh ->
  forall S : 'M[R]_n, sym S -> forall alpha tau rho K L, 0 <= alpha -> 0 <= tau -> 0 < rho ->
  minimiser (fun KL => sym KL.1 /\ psd KL.2)
    (fun KL => fnorm2 (S - (KL.1 - KL.2)) / 2%:R + alpha * l1 KL.1 + tau * \tr KL.2) (K, L) ->
  let U := rho^-1 *: (S - (K - L)) in ic_updates eigh S alpha tau rho K L U = (K - L, K, L, U).
Proof. exact ic_opt_fixed. Qed.
Print Assumptions C135_optimal_is_stationary.
Theorem C135_solution_exists : forall n (S : 'M[R]_n) alpha tau, 0 < alpha -> 0 <= tau ->
  exists KL, minimiser (fun KL => sym KL.1 /\ psd KL.2)
    (fun KL => fnorm2 (S - (KL.1 - KL.2)) / 2%:R + alpha * l1 KL.1 + tau * \tr KL.2) KL.
Proof. exact ic_exists. Qed.
Print Assumptions C135_solution_exists.

(** the documented problem -loglik(S, K - L) + ...: whenever no entry of S exceeds alpha the result is K = L = 0, after any
    number of iterations; so K - L is not positive definite, the documented objective is not even defined there, and the
    returned "precision" carries no information about S *)
Theorem C135_documented_problem_refuted : forall n (eigh : eigh_t n) nuc pinvh (S : 'M[R]_n) p r (i0 : 'I_n),
  eigh_ok eigh -> psd S -> (forall i j, `|S i j| <= lgl_alpha p) -> 0 < lgl_rho0 p -> 0 <= lgl_tau p ->
  0 < tau_inc (lgl_rho_options p) -> 0 < tau_dec (lgl_rho_options p) ->
  infimal_convolution eigh nuc pinvh S p = Ok r ->
  lgl_precision r = 0 /\ lgl_latent r = 0 /\
  forall penalty, ~ minimiser (fun KL => [/\ sym KL.1, psd KL.2 & pd (KL.1 - KL.2)])
    (fun KL => \tr (S *m (KL.1 - KL.2)) - ln (\det (KL.1 - KL.2)) + lgl_alpha p * penalty KL.1
               + lgl_tau p * \tr KL.2) (lgl_precision r, lgl_latent r).
Proof.
move=> n eigh nuc pinvh S p r i0 He pS hs r0 t0 ti td h.
have [_ z1 z2 _] := ic_loop_zero nuc He (psd_sym pS) r0 t0 ti td pS hs.
have [[-> _] -> _ _ _] := ic_call h; rewrite z1 z2; split=> //; split=> // pen [[_ _]] /=.
rewrite subr0 => p0 _; have [_ q] := p0; have e0 : (delta_mx i0 0 : 'cV[R]_n) != 0.
  by apply/eqP => /matrixP /(_ i0 0); rewrite !mxE !eqxx => /eqP; rewrite oner_eq0.
by have := q _ e0; rewrite /quad mulmx0 mul0mx mxE ltxx.
Qed.
Print Assumptions C135_documented_problem_refuted.
Lemma exS_psd : psd exS.
Proof.
have -> : exS = 1%:M + const_mx 1 *m (const_mx 1 : 'cV[R]_2)^T.
  apply/matrixP => i j; rewrite !mxE big_ord_recl big_ord0 !mxE.
  by case/orP: (ord2 i) => /eqP ->; case/orP: (ord2 j) => /eqP -> /=; rewrite ?mulr1n ?mulr0n; mclra.
apply: psdD (psd_gram _); exact: pd_psd (pd1 _).
Qed.
Example C135_case : exists (eigh : eigh_t 2) r, eigh_ok eigh /\ psd exS /\ exS 0 1 != 0 /\ (forall i j, `|exS i j| <= 2%:R) /\
  infimal_convolution eigh (fun=> 0) id exS
    (LGLParams 2%:R 1 1 7 (10%:R^-1) 0 true true (RhoOptions 10%:R 1 1) true) = Ok r.
Proof.
have [eigh h] := eigh_exists 2; set p := LGLParams _ _ _ _ _ _ _ _ _ _.
have [|r hr] := @ic_call_ok _ eigh (fun=> 0) id exS p; first by [].
exists eigh, r; split=> //; split; first exact: exS_psd.
split; first by rewrite mxE; apply/eqP; mclra.
split=> // i j; rewrite mxE; case: ifP => _; rewrite ?normr1 ?ger0_norm ?lexx ?ler0n ?ler1n //.
Qed.

(** C17, C18, C100 *)
Theorem C17_infimal_convolution_off_by_one :
  forall n (eigh : eigh_t n) nuc pinvh (S : 'M[R]_n) p r, lgl_return_n_iter p -> lgl_return_history p ->
  infimal_convolution eigh nuc pinvh S p = Ok r ->
  exists h k, [/\ lgl_history r = Some h, lgl_n_iter r = Some k, size h = k.+1,
    (size h <= lgl_max_iter p)%N & lgl_warned r -> size h = lgl_max_iter p].
Proof. exact ic_count. Qed.
Print Assumptions C17_infimal_convolution_off_by_one.
Theorem C18_infimal_convolution_zero_iterations :
  forall n (eigh : eigh_t n) nuc pinvh (S : 'M[R]_n) p, lgl_max_iter p = 0%N ->
  (lgl_return_n_iter p -> infimal_convolution eigh nuc pinvh S p = UnboundLocalError _) /\
  (~~ lgl_return_n_iter p -> exists r, infimal_convolution eigh nuc pinvh S p = Ok r /\
     lgl_precision r = 0 /\ lgl_latent r = 0 /\ lgl_warned r = true).
Proof. exact ic_zero_iter. Qed.
Print Assumptions C18_infimal_convolution_zero_iterations.
Theorem C100_infimal_convolution : forall n (eigh : eigh_t n) nuc pinvh (S : 'M[R]_n) p r h,
  infimal_convolution eigh nuc pinvh S p = Ok r -> lgl_history r = Some h ->
  stops_by within_tol (lgl_max_iter p) h (lgl_warned r).
Proof.
move=> n eigh nuc pinvh S p r h; rewrite /infimal_convolution /ic_loop.
have hb j s : is_break (ic_body eigh nuc S p j s).1 <-> within_tol (ic_body eigh nuc S p j s).2.
  rewrite -stop_testP /ic_body; case: (ic_updates _ _ _ _ _ _ _ _) => [[[K Z] U] L]; set c := Convergence _ _ _ _ _.
  case: (boolP (stop_test c)) => h1 //=; rewrite (_ : is_pinf _ = false) /= ?(negbTE h1) //; by case: (lgl_compute_objective p).
have [h' e1 hs] := py_for_stops (lgl_max_iter p) 0 (ic_init n p) [::] None hb; rewrite /= in e1.
move: hs; set E := py_for _ _ _ _ _ _ => hs; rewrite -/E in e1; rewrite e1.
by case: ifP => _; [case: (le_iter E) => [it|] //|]; case=> <- /=; case: ifP => // _ [<-].
Qed.
Print Assumptions C100_infimal_convolution.
