(** C186: the marginals and the predictive distribution of a normal-inverse-Wishart (regain/bayesian/wishart_distribution_.py:191-200, 231-234). *)
From Coq Require Import Reals Lra.
From mathcomp Require Import all_ssreflect all_fingroup all_algebra.
From Verif Require Import RStruct RTac LinTac S_Mat S_Fit NP M_Utils M_GL M_Wishart M_NIW.
From Verif Require Import RMx P_Prox P_Fit P_Wishart T_Wishart.
Import Order.TTheory GRing.Theory Num.Theory.

Set Implicit Arguments.
Unset Strict Implicit.
Unset Printing Implicit Defensive.
Local Open Scope ring_scope.

(** log-density of the multivariate Student distribution; [gammaln] is the logarithm of the Gamma function (no property of it is used) *)
Definition mvt_logpdf D (gammaln : R -> R) (t : mvt D) (x : 'rV[R]_D) : R :=
  gammaln ((mvt_df t + D%:R) / 2%:R) - gammaln (mvt_df t / 2%:R) - 2%:R^-1 * ln (\det (mvt_sigma t)) - D%:R / 2%:R * ln (mvt_df t * PI)
  - (mvt_df t + D%:R) / 2%:R * ln (1 + quad (invmx (mvt_sigma t)) (x - mvt_mean t)^T / mvt_df t).
(** what is assumed of scipy.special.multigammaln: the logarithm of pi^(d(d-1)/4) Gamma(a) Gamma(a - 1/2) ... Gamma(a - (d-1)/2) *)
Definition multigammaln_ok (gammaln : R -> R) (multigammaln : R -> nat -> R) : Prop :=
  forall a d, multigammaln a d = (d * (d - 1))%N%:R / 4%:R * ln PI + \sum_(j < d) gammaln (a - j%:R / 2%:R).

(** determinant of a rank one update *)
Lemma det_rank1 D (S : 'M[R]_D) (c : R) (v : 'rV[R]_D) : S \in unitmx ->
  \det (S + c *: (v^T *m v)) = \det S * (1 + c * (v *m invmx S *m v^T) 0 0).
Proof.
move=> u; pose M := block_mx (1%:M : 'M[R]_1) (- c *: v) v^T S.
have e1 : \det M = \det (S + c *: (v^T *m v)).
  have -> : M = block_mx 1%:M 0 v^T 1%:M *m block_mx 1%:M (- c *: v) 0 (S + c *: (v^T *m v)).
    rewrite mulmx_block !mul1mx !mul0mx !mulmx1 ?mulmx0 ?addr0; congr (block_mx _ _ _ _).
    by rewrite -scalemxAr scaleNr addrCA addNr addr0.
  by rewrite det_mulmx det_lblock det_ublock !det1 !mul1r.
have e2 : \det M = \det S * (1 + c * (v *m invmx S *m v^T) 0 0).
  have -> : M = block_mx 1%:M (- c *: (v *m invmx S)) 0 1%:M *m block_mx (1%:M + c *: (v *m invmx S *m v^T)) 0 v^T S.
    rewrite mulmx_block !mul1mx ?mul0mx ?mulmx0 ?add0r -!scalemxAl mulmxKV //; congr (block_mx _ _ _ _).
    by lin.
  by rewrite det_mulmx det_lblock det_ublock !det1 !mul1r det_mx11 !mxE mulrC.
by rewrite -e1.
Qed.
Lemma telescope_mg gl mg (nu : R) D : multigammaln_ok gl mg ->
  mg (1 / 2%:R * (nu + 1)) D - mg (1 / 2%:R * nu) D = gl ((nu + 1) / 2%:R) - gl ((nu - D%:R + 1) / 2%:R).
Proof.
move=> ok; rewrite !ok.
have -> : forall a b c : R, a + b - (a + c) = b - c by move=> a b c; mcring.
pose f j := gl ((nu + 1) / 2%:R - j%:R / 2%:R).
have e1 : \sum_(j < D) gl (1 / 2%:R * (nu + 1) - j%:R / 2%:R) = \sum_(0 <= j < D) f j.
  by rewrite big_mkord; apply: eq_bigr => j _; rewrite /f; congr (gl _); mcfield.
have e2 : \sum_(j < D) gl (1 / 2%:R * nu - j%:R / 2%:R) = \sum_(0 <= j < D) f j.+1.
  rewrite big_mkord; apply: eq_bigr => j _; rewrite /f; congr (gl _); rewrite [(nat_of_ord j).+1%:R]mulrS; move: (j%:R : R) => jj; by mcfield.
rewrite e1 e2 -sumrB.
have -> : \sum_(0 <= j < D) (f j - f j.+1) = - (f D - f 0%N).
  by rewrite -telescope_sumr // -sumrN; apply: eq_bigr => j _; rewrite opprB.
rewrite opprB /f; congr (gl _ - gl _); by mcfield.
Qed.
Lemma mvt_core D gl mg (S : 'M[R]_D) (c nu : R) (m x : 'rV[R]_D) : multigammaln_ok gl mg -> pd S -> 0 < c -> D%:R - 1 < nu ->
  mvt_logpdf gl (MVT (nu - D%:R + 1) m ((c * (nu - D%:R + 1))^-1 *: S)) x =
  2%:R^-1 * (nu * logdet S - (nu + 1) * logdet (S + c *: outer (x - m)) + D%:R * ln c - D%:R * ln PI)
  + (mg (1 / 2%:R * (nu + 1)) D - mg (1 / 2%:R * nu) D).
Proof.
move=> ok hS c0 hn; rewrite (telescope_mg nu D ok) /mvt_logpdf /=.
pose df := nu - D%:R + 1; have df0 : 0 < df by rewrite /df; move: hn; move: (D%:R : R) => d hn; mclra.
have cd : 0 < c * df by rewrite mulr_gt0.
have i0 : 0 < (c * df)^-1 by rewrite invr_gt0.
rewrite -/df -[ln (\det _)]/(logdet ((c * df)^-1 *: S)) logdetZ //.
have -> : invmx ((c * df)^-1 *: S) = (c * df) *: invmx S by rewrite invmxZ ?invrK //; exact: pd_unit (pdZ i0 hS).
have q0 : 0 <= (( x - m) *m invmx S *m (x - m)^T) 0 0.
  have [_ h] := pd_psd (pd_inv hS); by have := h (x - m)^T; rewrite /quad trmxK.
have -> : quad ((c * df) *: invmx S) (x - m)^T / df = c * ((x - m) *m invmx S *m (x - m)^T) 0 0.
  rewrite /quad trmxK -scalemxAr -scalemxAl mxE.
  have num (a b d : R) : 0 < b -> a * b * d / b = a * d by move=> b0; have bn : b != 0 by [rewrite gt_eqF]; mcfield.
  exact: num.
set Q := (_ *m _ *m _) 0 0; have Qp : 0 < 1 + c * Q by rewrite ltr_spaddl ?ltr01 // mulr_ge0 // ltW.
have -> : logdet (S + c *: outer (x - m)) = logdet S + ln (1 + c * Q).
  rewrite /logdet /outer det_rank1; last exact: pd_unit.
  by apply: ln_mult; apply/RltP; [exact: pd_det_gt0 | ].
have lnm (a b : R) : 0 < a -> 0 < b -> ln (a * b) = ln a + ln b by move=> a0 b0; apply: ln_mult; apply/RltP.
have p0 : 0 < PI :> R by apply/RltP; exact: PI_RGT_0.
have -> : ln ((c * df)^-1) = - (ln c + ln df) by rewrite -lnm // RinvE'; apply: ln_Rinv; apply/RltP.
rewrite (lnm df PI) //; have -> : df + D%:R = nu + 1 by rewrite /df; move: (D%:R : R) => d; mcring.
move: (gl _ : R) => g1; move: (gl _ : R) => g2; move: (ln _ : R) => l1; move: (ln _ : R) => l2; move: (ln _ : R) => l3; move: (ln _ : R) => l4.
move: (logdet S : R) (D%:R : R) => L d; by mcfield.
Qed.
Lemma posterior_one D (d : niw D) (x : 'rV[R]_D) : 0 < niw_kappa d ->
  w_S (niw_iw (niw_posterior d x)) = w_S (niw_iw d) + (niw_kappa d / (niw_kappa d + 1)) *: outer (x - niw_mu d).
Proof.
move=> k0; have := complete_square x (niw_mu (niw_posterior d x)) (isT : (0 < 1)%N) k0.
have oZ (a : R) (v : 'rV[R]_D) : outer (a *: v) = a ^+ 2 *: outer v by rewrite /outer [(a *: v)^T]linearZ /= -scalemxAl -scalemxAr scalerA expr2.
rewrite subrr; have -> : outer (0 : 'rV[R]_D) = 0 by rewrite /outer mulmx0.
rewrite scaler0 addr0 => ->; rewrite big_ord1 row_id posterior_mu //.
have -> : colsum x = x by apply/rowP => j; rewrite !mxE big_ord1 mxE mul1r.
set k := niw_kappa d; have p : 0 < k + 1 by rewrite addr_gt0 ?ltr01.
have kn : k + 1 != 0 by rewrite gt_eqF.
have -> : (k + 1%:R)^-1 *: (k *: niw_mu d + x) - niw_mu d = (k + 1)^-1 *: (x - niw_mu d).
  apply/(scalerI kn); rewrite scalerBr !scalerA divff // !scale1r; by lin.
have -> : x - (k + 1%:R)^-1 *: (k *: niw_mu d + x) = (k / (k + 1)) *: (x - niw_mu d).
  apply/(scalerI kn); rewrite scalerBr !scalerA divff // mulrCA divff // mulr1 scale1r; by lin.
rewrite !oZ scalerA -addrA -scalerDl; congr (_ + _ *: _).
have num (u : R) : u + 1 != 0 -> u * (u + 1)^-1 ^+ 2 + (u / (u + 1)) ^+ 2 = u / (u + 1) by move=> h; mcfield.
exact: num.
Qed.

(** The predictive density at x is the density of the data x under the prior: prior density times likelihood over posterior density, which
    does not depend on the mean and covariance it is computed at. *)
Theorem C186_predictive : forall D (d : niw D) (x : 'rV[R]_D) gammaln multigammaln pinvh mvn_logpdf,
  pinvh_ok pinvh -> mvn_ok mvn_logpdf -> multigammaln_ok gammaln multigammaln ->
  niw_2d d = false -> 0 < niw_kappa d -> pd (w_S (niw_iw d)) -> D%:R - 1 < w_nu (niw_iw d) ->
  forall (mu : 'rV[R]_D) (Sigma : 'M[R]_D), pd Sigma -> exists post prior : R,
  [/\ niw_log_likelihood pinvh multigammaln mvn_logpdf (ravel (niw_posterior d x)) mu Sigma = Val (Fin post),
      niw_log_likelihood pinvh multigammaln mvn_logpdf d mu Sigma = Val (Fin prior) &
      mvt_logpdf gammaln (niw_predictive d) x = prior + gauss_logpdf (invmx Sigma) mu x - post].
Proof.
move=> D d x gl mg pinvh mvn hp hm ok h2 k0 hS hn mu Sigma hSig.
pose post := niw_posterior d x.
have kp : 0 < niw_kappa post by rewrite /= addr_gt0 // ltr01.
have pS : pd (w_S (niw_iw post)) by exact: posterior_S_pd.
eexists; eexists; split; [by rewrite niw_llE | by rewrite niw_llE |].
set k := niw_kappa d; set nu := w_nu (niw_iw d); set S := w_S (niw_iw d).
have p : 0 < k + 1 by rewrite addr_gt0 ?ltr01.
have c0 : 0 < k / (k + 1) by rewrite divr_gt0.
have -> : niw_predictive d = MVT (nu - D%:R + 1) (niw_mu d) ((k / (k + 1) * (nu - D%:R + 1))^-1 *: S).
  rewrite /niw_predictive -/k -/nu -/S scalerA; congr (MVT _ _ (_ *: _)).
  have df0 : 0 < nu - D%:R + 1 by move: hn; rewrite -/nu; move: (D%:R : R) => dd hn; mclra.
  have num (u v : R) : 0 < u -> 0 < v -> 0 < u + 1 -> (u * v)^-1 * (u + 1) = (u / (u + 1) * v)^-1.
    move=> u0 v0 w0; have un : u != 0 by rewrite gt_eqF.
    have vn : v != 0 by rewrite gt_eqF.
    have wn : u + 1 != 0 by rewrite gt_eqF.
    by mcfield.
  exact: num.
rewrite (mvt_core _ _ ok hS c0 hn) gaussE -posterior_one // -/post.
rewrite complete_square // big_ord1 row_id !fdotDl.
have -> : niw_kappa (ravel post) = k + 1 by [].
have -> : w_nu (niw_iw (ravel post)) = nu + 1 by [].
have -> : w_S (niw_iw (ravel post)) = w_S (niw_iw post) by [].
rewrite -/S -/nu -/k.
have lnm (a b : R) : 0 < a -> 0 < b -> ln (a * b) = ln a + ln b by move=> a0 b0; apply: ln_mult; apply/RltP.
have p0 : 0 < PI :> R by apply/RltP; exact: PI_RGT_0.
have -> : ln (k / (k + 1)) = ln k - ln (k + 1) by rewrite lnm ?invr_gt0 // RinvE'; congr (_ + _); apply: ln_Rinv; apply/RltP.
rewrite (lnm 2%:R PI) ?ltr0n //.
move: (fdot S _ : R) => a; move: (fdot _ _ : R) => a'; move: (fdot _ _ : R) => a''; move: (logdet (invmx Sigma) : R) => c.
move: (mg _ _ : R) => e; move: (mg _ _ : R) => f; move: (logdet _ : R) => g; move: (logdet _ : R) => g'.
move: (ln 2%:R : R) (ln PI : R) (ln k : R) (ln (k + 1) : R) => l1 l2 l3 l4.
move: (nu : R) (D%:R : R) => h j.
by mcfield.
Qed.
Print Assumptions C186_predictive.

(** The joint density of (mu, Sigma) is the first marginal at mu times the inverse-Wishart density of Sigma given mu, and the second marginal
    at Sigma times the normal density of mu given Sigma. *)
Theorem C186_marginals : forall D (d : niw D) gammaln multigammaln pinvh mvn_logpdf,
  pinvh_ok pinvh -> mvn_ok mvn_logpdf -> multigammaln_ok gammaln multigammaln ->
  niw_2d d = false -> 0 < niw_kappa d -> pd (w_S (niw_iw d)) -> D%:R - 1 < w_nu (niw_iw d) ->
  forall (mu : 'rV[R]_D) (Sigma : 'M[R]_D), pd Sigma -> exists joint sigma_given_mu sigma : R,
  [/\ niw_log_likelihood pinvh multigammaln mvn_logpdf d mu Sigma = Val (Fin joint),
      inverse_wishart_log_likelihood pinvh multigammaln
        (Wishart (w_nu (niw_iw d) + 1) (w_S (niw_iw d) + niw_kappa d *: ((mu - niw_mu d)^T *m (mu - niw_mu d)))) Sigma = Fin sigma_given_mu,
      inverse_wishart_log_likelihood pinvh multigammaln (niw_marginals d).2 Sigma = Fin sigma,
      joint = mvt_logpdf gammaln (niw_marginals d).1 mu + sigma_given_mu &
      joint = sigma + gauss_logpdf (niw_kappa d *: invmx Sigma) (niw_mu d) mu].
Proof.
move=> D d gl mg pinvh mvn hp hm ok h2 k0 hS hn mu Sigma hSig.
set S' := w_S _ + _.
have pS : pd S'.
  split=> [|v v0]; first by rewrite /sym /S' linearD linearZ /= trmx_mul trmxK (pd_sym hS).
  have -> : quad S' v = quad (w_S (niw_iw d)) v + niw_kappa d * ((mu - niw_mu d) *m v) 0 0 ^+ 2.
    rewrite /S' quadD quadZ; congr (_ + _ * _); rewrite /quad; set w := mu - niw_mu d.
    have -> : v^T *m (w^T *m w) *m v = (w *m v)^T *m (w *m v) by rewrite trmx_mul !mulmxA.
    by rewrite mxE big_ord1 mxE expr2.
  have [_ h] := hS; apply: ltr_paddr; last exact: h.
  by rewrite mulr_ge0 ?sqr_ge0 // ltW.
do 3 eexists; split; [by rewrite niw_llE | by rewrite iw_llE | by rewrite iw_llE | |].
- rewrite /niw_marginals (mvt_core _ _ ok hS k0 hn) /= -[outer _]/((mu - niw_mu d)^T *m (mu - niw_mu d)) -/S'.
  have lnm (a b : R) : 0 < a -> 0 < b -> ln (a * b) = ln a + ln b by move=> a0 b0; apply: ln_mult; apply/RltP.
  have p0 : 0 < PI :> R by apply/RltP; exact: PI_RGT_0.
  rewrite (lnm 2%:R PI) ?ltr0n //.
  move: (fdot _ _ : R) => a; move: (logdet (invmx Sigma) : R) => c.
  move: (mg _ _ : R) => e; move: (mg _ _ : R) => f; move: (logdet _ : R) => g; move: (logdet _ : R) => g'.
  move: (ln 2%:R : R) (ln PI : R) (ln _ : R) => l1 l2 l3; move: (w_nu _ : R) (D%:R : R) => h j.
  by mcfield.
rewrite gaussE logdetZ //; last exact: pd_inv.
rewrite fdotZr fdotDl fdotZl /=.
move: (fdot _ _ : R) => a; move: (fdot _ _ : R) => a'; move: (logdet (invmx Sigma) : R) => c; move: (mg _ _ : R) => e; move: (logdet _ : R) => g.
move: (ln _ : R) => l1; move: (ln _ : R) => l2; move: (ln _ : R) => l3; move: (w_nu _ : R) (D%:R : R) (niw_kappa d : R) => h j k.
by mcfield.
Qed.
Print Assumptions C186_marginals.

(** Both Student distributions are proper: positive degrees of freedom and a positive definite scale; the scale of the predictive one is
    kappa + 1 times the other. *)
Theorem C186_proper : forall D (d : niw D), 0 < niw_kappa d -> pd (w_S (niw_iw d)) -> D%:R - 1 < w_nu (niw_iw d) ->
  [/\ 0 < mvt_df (niw_predictive d), mvt_df (niw_marginals d).1 = mvt_df (niw_predictive d), pd (mvt_sigma (niw_predictive d)),
      pd (mvt_sigma (niw_marginals d).1) & mvt_sigma (niw_predictive d) = (niw_kappa d + 1) *: mvt_sigma (niw_marginals d).1].
Proof.
move=> D d k0 hS hn /=.
have df0 : 0 < w_nu (niw_iw d) - D%:R + 1 by move: hn; move: (D%:R : R) => dd hn; mclra.
have i0 : 0 < (niw_kappa d * (w_nu (niw_iw d) - D%:R + 1))^-1 by rewrite invr_gt0 mulr_gt0.
have k1 : 0 < niw_kappa d + 1 by rewrite addr_gt0 ?ltr01.
split=> //; [by apply: pdZ => //; exact: pdZ | exact: pdZ | by rewrite !scalerA mulrC].
Qed.
Print Assumptions C186_proper.
Example C186_case : exists (d : niw 2) (gammaln : R -> R) (multigammaln : R -> nat -> R),
  [/\ multigammaln_ok gammaln multigammaln, niw_2d d = false, 0 < niw_kappa d, pd (w_S (niw_iw d)) & (2%:R - 1 : R) < w_nu (niw_iw d)].
Proof.
exists (NIW 0 false 1 (Wishart 3%:R 1%:M)), (fun x => x), (fun a d => (d * (d - 1))%N%:R / 4%:R * ln PI + \sum_(j < d) (a - j%:R / 2%:R)).
by split=> //; [rewrite ltr01 | exact: pd1 | rewrite /=; mclra].
Qed.
