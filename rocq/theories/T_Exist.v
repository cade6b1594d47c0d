(** Property theorem C101: the estimation problems have solutions, the solvers have resting states, and the covariance solvers
    with two blocks stop. *)
From Coq Require Import Reals Lra.
From mathcomp Require Import all_ssreflect all_algebra.
From Verif Require Import RStruct RTac S_Mat RMx S_GL S_LGL S_TGL S_KTGL S_LTGL NP M_Prox M_Loop M_GL M_LGL M_TGL M_KTGL M_LTGL M_KLTGL.
From Verif Require Import P_Prox P_LGL P_TGL4 P_Exist Exist P_Exist2 P_GL2 T_GL T_LGL T_TGL T_KTGL T_LTGL.
Import Order.TTheory GRing.Theory Num.Theory.

Set Implicit Arguments.
Unset Strict Implicit.
Unset Printing Implicit Defensive.
Local Open Scope ring_scope.

(** * C101: solutions exist *)
(** the graphical lasso, whose penalty leaves out the diagonal: the empirical variances must be positive *)
Theorem C101_graphical_lasso : forall n (S : 'M[R]_n) alpha,
  psd S -> (forall i, 0 < S i i) -> 0 < alpha -> exists K, gl_optimum S alpha K.
Proof. move=> n S alpha pS dS; exact: gl_exists. Qed.
Print Assumptions C101_graphical_lasso.
(** with a zero variance there is none *)
Theorem C101_zero_variance : forall alpha : R, ~ exists K, gl_optimum (0 : 'M[R]_1) alpha K.
Proof.
move=> alpha [K [pK h]]; have := h (2%:R *: K); have k0 := pd_det_gt0 pK.
rewrite /gl_obj /gl_obj2 !mul0mx mxtrace0 detZ expr1 !sub0r.
have e (X : 'M[R]_1) : l1od X = 0.
  by rewrite /l1od big1 // => i _; rewrite big1 // => j; rewrite !ord1 eqxx.
rewrite !e mulr0 !addr0 => /(_ _); have p2 : pd (2%:R *: K) by apply: pdZ; rewrite ?ltr0n.
move=> /(_ p2); rewrite ler_opp2 leNgt => /negP; apply; apply/RltP; apply: ln_increasing; first exact/RltP.
by apply/RltP; move: (\det K) k0 => d d0; mclra.
Qed.
Print Assumptions C101_zero_variance.
Theorem C101_time_graphical_lasso : forall n T psi (S : stack n T) ns alpha beta,
  slices (@psd n) S -> (forall t, 0 < ns t) -> convex_fun psi -> (forall X, 0 <= psi X) -> 0 < alpha -> 0 <= beta ->
  exists K : stack n T, minimiser (fun K : stack n T => slices (@pd n) K)
    (fun K => time_obj (@l1 n n) psi ns S alpha beta K) K.
Proof.
move=> n T psi S ns alpha beta pS ns0 cpsi psi0 a0 b0.
by have := ld_exists ns0 pS a0 (fun K => ncb_ge0 psi0 K b0) (fun u K => ncb_cv cpsi beta (u := u) (K := K)).
Qed.
Print Assumptions C101_time_graphical_lasso.
Theorem C101_kernel_time_graphical_lasso : forall n T psi (S : stack n T) ns alpha (w : 'I_T -> 'I_T -> R),
  slices (@psd n) S -> (forall t, 0 < ns t) -> convex_fun psi -> (forall X, 0 <= psi X) -> 0 < alpha ->
  (forall s t : 'I_T, (s < t)%N -> 0 <= w s t) ->
  exists K : stack n T, minimiser (fun K : stack n T => slices (@pd n) K)
    (fun K => kernel_obj (@l1 n n) psi ns S alpha w K) K.
Proof.
move=> n T psi S ns alpha w pS ns0 cpsi psi0 a0 w0.
exact: (ld_exists ns0 pS a0 (kcb_ge0 psi0 w0) (fun u K => kcb_cv cpsi w (u := u) (K := K))).
Qed.
Print Assumptions C101_kernel_time_graphical_lasso.

Lemma minus_ffun n T (K L : stack n T) : (fun t => K t - L t) =1 (K - L : stack n T).
Proof. by move=> t; rewrite !ffunE. Qed.
Lemma latent_ld n T (S : stack n T) ns alpha tau c c' (K L : stack n T) :
  latent_obj (logdet_loss ns S) (@l1 n n) alpha tau c c' K L =
  lat_obj (ld_loss S ns) alpha tau (fun K : stack n T => c K) (fun K : stack n T => c' K) K L.
Proof. by congr (_ + _ + _ + _ + _); apply: eq_bigr => t _; rewrite minus_ffun. Qed.
Lemma latent_fr n T (S : stack n T) alpha tau c c' (K L : stack n T) :
  latent_obj (frobenius_loss S) (@l1 n n) alpha tau c c' K L =
  lat_obj (fr_loss S) alpha tau (fun K : stack n T => c K) (fun K : stack n T => c' K) K L.
Proof. by congr (_ + _ + _ + _ + _); apply: eq_bigr => t _; rewrite minus_ffun. Qed.
Lemma feasE n T P (K L : stack n T) : latent_feasible P K L <-> slices (@psd n) L /\ slices P (K - L).
Proof. by split=> -[h1 h2]; split=> // t; have := h2 t; rewrite minus_ffun. Qed.

Theorem C101_latent_time_graphical_lasso : forall n T psi phi (S : stack n T) ns alpha tau beta eta,
  slices (@psd n) S -> (forall t, 0 < ns t) -> convex_fun psi -> (forall X, 0 <= psi X) ->
  convex_fun phi -> (forall X, 0 <= phi X) -> 0 < alpha -> 0 < tau -> 0 <= beta -> 0 <= eta ->
  exists K L : stack n T, minimiser (fun KL : stack n T * stack n T => latent_feasible (@pd n) KL.1 KL.2)
        (fun KL => latent_obj (logdet_loss ns S) (@l1 n n) alpha tau
           (fun K => beta * neighbour_coupling psi K) (fun L => eta * neighbour_coupling phi L) KL.1 KL.2) (K, L).
Proof.
move=> n T psi phi S ns alpha tau beta eta pS ns0 cpsi psi0 cphi phi0 a0 t0 b0 e0.
have [K [L [/= d h]]] := ld_latent_exists ns0 pS a0 t0 (fun K => ncb_ge0 psi0 K b0) (fun K => ncb_ge0 phi0 K e0)
  (fun u K => ncb_cv cpsi beta (u := u) (K := K)) (fun u K => ncb_cv cphi eta (u := u) (K := K)).
exists K, L; split=> [|[K' L'] /= /feasE d']; first exact/feasE.
by rewrite !latent_ld; exact: h (K', L') d'.
Qed.
Print Assumptions C101_latent_time_graphical_lasso.
Theorem C101_kernel_latent_time_graphical_lasso : forall n T psi phi (S : stack n T) ns alpha tau (w w' : 'I_T -> 'I_T -> R),
  slices (@psd n) S -> (forall t, 0 < ns t) -> convex_fun psi -> (forall X, 0 <= psi X) ->
  convex_fun phi -> (forall X, 0 <= phi X) -> 0 < alpha -> 0 < tau ->
  (forall s t : 'I_T, (s < t)%N -> 0 <= w s t) -> (forall s t : 'I_T, (s < t)%N -> 0 <= w' s t) ->
  exists K L : stack n T, minimiser (fun KL : stack n T * stack n T => latent_feasible (@pd n) KL.1 KL.2)
        (fun KL => latent_obj (logdet_loss ns S) (@l1 n n) alpha tau
           (kernel_coupling w psi) (kernel_coupling w' phi) KL.1 KL.2) (K, L).
Proof.
move=> n T psi phi S ns alpha tau w w' pS ns0 cpsi psi0 cphi phi0 a0 t0 b0 e0.
have [K [L [/= d h]]] := ld_latent_exists ns0 pS a0 t0 (kcb_ge0 psi0 b0) (kcb_ge0 phi0 e0)
  (fun u K => kcb_cv cpsi w (u := u) (K := K)) (fun u K => kcb_cv cphi w' (u := u) (K := K)).
exists K, L; split=> [|[K' L'] /= /feasE d']; first exact/feasE.
by rewrite !latent_ld; exact: h (K', L') d'.
Qed.
Print Assumptions C101_kernel_latent_time_graphical_lasso.
Theorem C101_latent_time_matrix_decomposition : forall n T psi phi (S : stack n T) alpha tau beta eta,
  convex_fun psi -> (forall X, 0 <= psi X) ->
  convex_fun phi -> (forall X, 0 <= phi X) -> 0 < alpha -> 0 < tau -> 0 <= beta -> 0 <= eta ->
  exists K L : stack n T, minimiser (fun KL : stack n T * stack n T => latent_feasible (@sym n) KL.1 KL.2)
        (fun KL => latent_obj (frobenius_loss S) (@l1 n n) alpha tau
           (fun K => beta * neighbour_coupling psi K) (fun L => eta * neighbour_coupling phi L) KL.1 KL.2) (K, L).
Proof.
move=> n T psi phi S alpha tau beta eta cpsi psi0 cphi phi0 a0 t0 b0 e0.
have [K [L [/= d h]]] := fr_latent_exists S a0 t0 (fun K => ncb_ge0 psi0 K b0) (fun K => ncb_ge0 phi0 K e0)
  (fun u K => ncb_cv cpsi beta (u := u) (K := K)) (fun u K => ncb_cv cphi eta (u := u) (K := K)).
exists K, L; split=> [|[K' L'] /= /feasE d']; first exact/feasE.
by rewrite !latent_fr; exact: h (K', L') d'.
Qed.
Print Assumptions C101_latent_time_matrix_decomposition.
Theorem C101_latent_graphical_lasso : forall n (S : 'M[R]_n) alpha tau, psd S -> 0 < alpha -> 0 < tau ->
  exists K L, minimiser (fun KL => [/\ sym KL.1, psd KL.2 & pd (KL.1 - KL.2)])
    (fun KL => \tr (S *m (KL.1 - KL.2)) - ln (\det (KL.1 - KL.2)) + alpha * l1 KL.1 + tau * \tr KL.2) (K, L).
Proof.
move=> n S alpha tau pS a0 t0.
pose psi (X : 'M[R]_n) : R := 0.
have cpsi : convex_fun psi by move=> x y t _ _; rewrite !mulr0 addr0.
have [K [L [[/= f1 f2] h]]] := @C101_latent_time_graphical_lasso n 1 psi psi [ffun=> S] (fun=> 1) alpha tau 0 0 
  (fun t => eq_ind_r (@psd n) pS (ffunE _ _)) (fun=> ltr01) cpsi (fun=> lexx 0) cpsi (fun=> lexx 0) a0 t0 (lexx 0) (lexx 0).
exists (K 0), (L 0); split=> [|[K' L'] /= [s1 s2 s3]].
  split=> /=; [| exact: f1 | exact: f2].
  rewrite -[K 0](subrK (L 0)); apply: symD; [exact: pd_sym (f2 0) | exact: (proj1 (f1 0))].
have := h ([ffun=> K'], [ffun=> L']) _; rewrite /latent_obj /logdet_loss /= !mul0r !addr0 !big_ord_recl !big_ord0 !addr0 !mul1r !ffunE; apply.
by split=> t; rewrite !ffunE.
Qed.
Print Assumptions C101_latent_graphical_lasso.

(** ** hence: the two-block solvers stop *)
Theorem C14_always_terminates : forall n (eigh : eigh_t n) pinvh S p init, eigh_ok eigh ->
  psd S -> (forall i, 0 < S i i) -> 0 < gl_rho0 p -> gl_over_relax p = 1 ->
  tau_inc (gl_rho_options p) = 1 -> tau_dec (gl_rho_options p) = 1 ->
  0 < gl_alpha p -> 0 <= gl_rtol p -> 0 < n%:R * gl_tol p ->
  exists N, forall m, (N < m)%N -> forall r,
    graphical_lasso eigh pinvh S
      (GLParams (gl_alpha p) (gl_rho0 p) (gl_over_relax p) m (gl_tol p) (gl_rtol p)
        (gl_return_history p) (gl_return_n_iter p) (gl_rho_options p) (gl_compute_objective p)) init
      = Ok r -> gl_warned r = false.
Proof.
move=> n eigh pinvh S p init He pS dS r0 o1 i1 d1 a0 rt t0.
apply: (C14_terminates (p := p) pinvh init He (proj1 pS)) => //; first exact: ltW.
exact: C101_graphical_lasso.
Qed.
Print Assumptions C14_always_terminates.
Theorem C24_always_terminates : forall n m (eigh : eigh_t n) psi prox pinvh (S : stack n m.+1) ns p init,
  eigh_ok eigh -> slices (@psd n) S -> (forall t, 0 < odflt (fun=> 1) ns t) ->
  convex_fun psi -> (forall X, 0 <= psi X) -> prox_of psi prox -> (forall a lam, sym a -> sym (prox a lam)) ->
  0 < tgl_rho0 p -> tau_inc (tgl_rho_options p) = 1 -> tau_dec (tgl_rho_options p) = 1 ->
  0 < tgl_alpha p -> 0 <= tgl_beta p -> 0 <= tgl_rtol p -> 0 < n%:R * tgl_tol p ->
  exists N, forall k, (N < k)%N -> forall r,
    time_graphical_lasso eigh pinvh (PsiPlain psi prox) S ns
      (TGLParams (tgl_alpha p) (tgl_rho0 p) (tgl_beta p) k (tgl_tol p) (tgl_rtol p) (tgl_return_history p)
        (tgl_return_n_iter p) (tgl_compute_objective p) (tgl_stop_at p) (tgl_stop_when p)
        (tgl_rho_options p)) init = Ok r ->
    tgl_warned r = false.
Proof.
move=> n m eigh psi prox pinvh S ns p init He pS ns0 cpsi psi0 hp sp r0 i1 d1 a0 b0 rt t0.
apply: (C24_terminates (p := p) pinvh init He _ ns0 cpsi hp sp) => //; first by move=> t; exact: (proj1 (pS t)).
- exact: ltW.
exact: C101_time_graphical_lasso.
Qed.
Print Assumptions C24_always_terminates.
Theorem C65_always_terminates : forall n T (eigh : eigh_t n) psi prox pinvh (S : stack n T) ns p init,
  eigh_ok eigh -> slices (@psd n) S -> (forall t, 0 < odflt (fun=> 1) ns t) ->
  convex_fun psi -> (forall X, 0 <= psi X) -> prox_of psi prox -> (forall a lam, sym a -> sym (prox a lam)) ->
  0 < ktgl_rho0 p -> tau_inc (ktgl_rho_options p) = 1 -> tau_dec (ktgl_rho_options p) = 1 ->
  0 < ktgl_alpha p -> (forall s t : 'I_T, (s < t)%N -> 0 <= kernel_of p s t) ->
  0 <= ktgl_rtol p -> 0 < n%:R * T%:R * ktgl_tol p ->
  exists N, forall k, (N < k)%N -> forall r,
    kernel_time_graphical_lasso eigh pinvh psi prox S ns
      (KTGLParams (ktgl_alpha p) (ktgl_rho0 p) (ktgl_kernel p) k (ktgl_tol p) (ktgl_rtol p)
        (ktgl_return_history p) (ktgl_return_n_iter p) (ktgl_compute_objective p) (ktgl_stop_at p)
        (ktgl_stop_when p) (ktgl_rho_options p)) init = Ok r ->
    ktgl_warned r = false.
Proof.
move=> n T eigh psi prox pinvh S ns p init He pS ns0 cpsi psi0 hp sp r0 i1 d1 a0 w0 rt t0.
apply: (C65_terminates (p := p) pinvh init He _ ns0 cpsi hp sp) => //; first by move=> t; exact: (proj1 (pS t)).
- exact: ltW.
exact: C101_kernel_time_graphical_lasso.
Qed.
Print Assumptions C65_always_terminates.

(** ** hence: the latent solvers have a state that an iteration leaves as it is *)
Theorem C101_latent_graphical_lasso_rests : forall n (eigh : eigh_t n), eigh_ok eigh ->
  forall S alpha tau rho, psd S -> 0 < alpha -> 0 < tau -> 0 < rho ->
  exists K L U, lgl_updates eigh S alpha tau rho K L U = (K - L, K, L, U).
Proof.
move=> n eigh He S alpha tau rho pS a0 t0 r0; have [K [L h]] := C101_latent_graphical_lasso pS a0 t0.
exists K, L, (rho^-1 *: (invmx (K - L) - S)).
exact: (C21_optimal_is_stationary He (proj1 pS) (ltW a0) (ltW t0) r0 h).
Qed.
Print Assumptions C101_latent_graphical_lasso_rests.
Theorem C101_latent_time_graphical_lasso_rests : forall n m psi phi pp pf (eigh : eigh_t n), eigh_ok eigh ->
  convex_fun psi -> convex_fun phi -> prox_of psi pp -> prox_of phi pf ->
  (forall x, psi x^T = psi x) -> (forall x, phi x^T = phi x) -> (forall X, 0 <= psi X) -> (forall X, 0 <= phi X) ->
  forall p rho, 0 < lt_alpha p -> 0 < lt_tau p -> 0 <= lt_beta p -> 0 <= lt_eta p -> 0 < rho ->
  forall (S : stack n m.+1) ns, slices (@psd n) S -> (forall t, 0 < ns t) ->
  exists v d, lt_updates (ltgl_R_update eigh S ns) eigh (PsiPlain psi pp) (PsiPlain phi pf) p rho v d =
    (lt_Z0 v - lt_W0 v, v, d).
Proof.
move=> n m psi phi pp pf eigh He cp cf hp hf pT fT p0 f0 p rho a0 t0 b0 e0 r0 S ns pS ns0.
have [K [L h]] := C101_latent_time_graphical_lasso pS ns0 cp p0 cf f0 a0 t0 b0 e0.
have [|d [_ _ _ e]] := C69_optimal_is_stationary He cp cf hp hf pT fT (ltW a0) (ltW t0) b0 e0 r0 _ ns0 h.
  by move=> t; exact: (proj1 (pS t)).
by exists (LTPrimal K (scopies K) L (scopies L)), d.
Qed.
Print Assumptions C101_latent_time_graphical_lasso_rests.
Theorem C101_kernel_latent_time_graphical_lasso_rests : forall n T psi phi pp pf (eigh : eigh_t n), eigh_ok eigh ->
  convex_fun psi -> convex_fun phi -> prox_of psi pp -> prox_of phi pf ->
  (forall x, psi x^T = psi x) -> (forall x, phi x^T = phi x) -> (forall X, 0 <= psi X) -> (forall X, 0 <= phi X) ->
  forall (p : klt_params T) rho, 0 < klt_alpha p -> 0 < klt_tau p ->
  (forall s t : 'I_T, (s < t)%N -> 0 <= kpsi_of p s t) -> (forall s t : 'I_T, (s < t)%N -> 0 <= kphi_of p s t) ->
  0 < rho -> forall (S : stack n T) ns, slices (@psd n) S -> (forall t, 0 < ns t) ->
  exists v d, klt_updates eigh pp pf S ns p rho v d = (klt_Z0 v - klt_W0 v, v, d).
Proof.
move=> n T psi phi pp pf eigh He cp cf hp hf pT fT p0 f0 p rho a0 t0 b0 e0 r0 S ns pS ns0.
have [K [L h]] := C101_kernel_latent_time_graphical_lasso pS ns0 cp p0 cf f0 a0 t0 b0 e0.
have [|d e] := C70_optimal_is_stationary He cp cf hp hf pT fT (ltW a0) (ltW t0) b0 e0 r0 _ ns0 h.
  by move=> t; exact: (proj1 (pS t)).
by exists (KLTPrimal K (ecopies K) L (ecopies L)), d.
Qed.
Print Assumptions C101_kernel_latent_time_graphical_lasso_rests.
Theorem C101_latent_time_matrix_decomposition_rests : forall n m psi phi pp pf (eigh : eigh_t n), eigh_ok eigh ->
  convex_fun psi -> convex_fun phi -> prox_of psi pp -> prox_of phi pf ->
  (forall x, psi x^T = psi x) -> (forall x, phi x^T = phi x) -> (forall X, 0 <= psi X) -> (forall X, 0 <= phi X) ->
  forall p rho, 0 < lt_alpha p -> 0 < lt_tau p -> 0 <= lt_beta p -> 0 <= lt_eta p -> 0 < rho ->
  forall S : stack n m.+1, slices (@sym n) S ->
  exists v d, lt_updates (ltmd_R_update S) eigh (PsiPlain psi pp) (PsiPlain phi pf) p rho v d =
    (lt_Z0 v - lt_W0 v, v, d).
Proof.
move=> n m psi phi pp pf eigh He cp cf hp hf pT fT p0 f0 p rho a0 t0 b0 e0 r0 S sS.
have [K [L h]] := C101_latent_time_matrix_decomposition S cp p0 cf f0 a0 t0 b0 e0.
have [d [_ _ _ e]] := C71_optimal_is_stationary He cp cf hp hf pT fT (ltW a0) (ltW t0) b0 e0 r0 sS h.
by exists (LTPrimal K (scopies K) L (scopies L)), d.
Qed.
Print Assumptions C101_latent_time_matrix_decomposition_rests.

(** the hypotheses are met *)
Lemma exS_psd : psd exS.
Proof.
have -> : exS = 1%:M + (const_mx 1 : 'cV[R]_2) *m (const_mx 1)^T.
  apply/matrixP => i j; rewrite !mxE big_ord_recl big_ord0 addr0 !mxE mulr1.
  by case: (i == j); rewrite ?mulr1n ?mulr0n -?natrD ?add0r.
by apply: pd_psd; apply: pdD_psd; [exact: pd1 | exact: psd_gram].
Qed.
Example C101_case : [/\ psd exS, forall i, 0 < exS i i, convex_fun (@l1 2 2), forall X : 'M[R]_2, 0 <= l1 X & slices (@psd 2) exSt].
Proof.
split; first exact: exS_psd.
- by move=> i; rewrite mxE eqxx ltr0n.
- exact: l1_convex.
- by move=> X; apply: sumr_ge0 => i _; apply: sumr_ge0.
by move=> t; rewrite ffunE; exact: exS_psd.
Qed.
