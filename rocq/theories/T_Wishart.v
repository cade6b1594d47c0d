(** Property theorems C42, C84, C85: the Wishart family of distributions. *)
From Coq Require Import Reals.
From mathcomp Require Import all_ssreflect all_fingroup all_algebra.
From Verif Require Import RStruct RTac LinTac S_Mat S_Fit NP M_Utils M_GL M_Wishart.
From Verif Require Import RMx P_Prox P_Fit P_Wishart.
Import Order.TTheory GRing.Theory Num.Theory.

Set Implicit Arguments.
Unset Strict Implicit.
Unset Printing Implicit Defensive.
Local Open Scope ring_scope.

(** what is assumed of scipy's multivariate normal log-density: the log-density, for a positive
    definite covariance *)
Definition mvn_ok D (mvn_logpdf : 'rV[R]_D -> 'rV[R]_D -> 'M[R]_D -> xR) : Prop :=
  forall x m C, pd C -> mvn_logpdf x m C = Fin (gauss_logpdf (invmx C) m x).
(** the same distribution with the mean as a vector *)
Definition ravel D (d : niw D) : niw D := NIW (niw_mu d) false (niw_kappa d) (niw_iw d).

(** * C42: the normal-inverse-Wishart posterior *)
Theorem C42_order_independent : forall D n (d : niw D) (X : 'M[R]_(n, D)) (s : 'S_n),
  niw_posterior d (row_perm s X) = niw_posterior d X.
Proof. exact: posterior_perm. Qed.
Print Assumptions C42_order_independent.

Theorem C42_incremental : forall D n m (d : niw D) (X : 'M[R]_(n, D)) (Y : 'M[R]_(m, D)),
  (0 < n)%N -> (0 < m)%N -> 0 < niw_kappa d ->
  niw_posterior (niw_posterior d X) Y = niw_posterior d (col_mx X Y).
Proof. exact: posterior_col. Qed.
Print Assumptions C42_incremental.

(** the posterior scale matrix is positive definite *)
Theorem C42_valid : forall D n (d : niw D) (X : 'M[R]_(n, D)),
  (0 < n)%N -> 0 < niw_kappa d -> pd (w_S (niw_iw d)) -> pd (w_S (niw_iw (niw_posterior d X))).
Proof. exact: posterior_S_pd. Qed.
Print Assumptions C42_valid.

(** Bayes' rule: posterior density = constant * prior density * likelihood of the samples, in logs *)
Theorem C42_bayes : forall D n (d : niw D) (X : 'M[R]_(n, D)) pinvh multigammaln mvn_logpdf,
  pinvh_ok pinvh -> mvn_ok mvn_logpdf ->
  niw_2d d = false -> 0 < niw_kappa d -> pd (w_S (niw_iw d)) -> (0 < n)%N ->
  exists c : R, forall (mu : 'rV[R]_D) (Sigma : 'M[R]_D), pd Sigma -> exists post prior : R,
   [/\ niw_log_likelihood pinvh multigammaln mvn_logpdf (ravel (niw_posterior d X)) mu Sigma = Val (Fin post),
       niw_log_likelihood pinvh multigammaln mvn_logpdf d mu Sigma = Val (Fin prior) &
       post = c + prior + \sum_i gauss_logpdf (invmx Sigma) mu (row i X)].
Proof. move=> D n d X pinvh mg mvn hp hm h2 k0 hS hn; exact: niw_bayes. Qed.
Print Assumptions C42_bayes.
Example C42_case : exists (d : niw 2) (X : 'M[R]_(1, 2)) (pinvh : 'M[R]_2 -> 'M[R]_2)
    (mvn : 'rV[R]_2 -> 'rV[R]_2 -> 'M[R]_2 -> xR),
  [/\ pinvh_ok pinvh, mvn_ok mvn, niw_2d d = false /\ 0 < niw_kappa d, pd (w_S (niw_iw d)) &
      niw_mu (niw_posterior d X) <> niw_mu d].
Proof.
exists (NIW 0 false 1 (Wishart 3%:R 1%:M)), (const_mx 1), (@invmx _ 2), (fun x m C => Fin (gauss_logpdf (invmx C) m x)).
split=> //; [by split=> //; rewrite /= ltr01 | exact: pd1 |].
rewrite posterior_mu //= => /matrixP /(_ 0 0); rewrite !mxE big_ord1 !mxE mulr0 add0r mulr1 => /eqP.
by rewrite mulf_eq0 invr_eq0 oner_eq0 orbF -[1 + _]/((2%N)%:R : R) pnatr_eq0.
Qed.

(** * C84: the mode is where the density is largest *)
Theorem C84_wishart_mode : forall D (w : wishart D) pinvh multigammaln M,
  pinvh_ok pinvh -> pd (w_S w) -> wishart_mode w = Some M -> pd M /\
  forall X, pd X -> X <> M -> exists a b : R,
   [/\ wishart_log_likelihood pinvh multigammaln w X = Fin a,
       wishart_log_likelihood pinvh multigammaln w M = Fin b & a < b].
Proof.
move=> D w pinvh mg M hp hS; rewrite /wishart_mode; case: ifP => // hnu [<-].
have m0 : 0 < w_nu w - D%:R - 1 by rewrite -addrA -opprD subr_gt0.
have hM := pdZ m0 hS; split=> // X hX ne.
eexists; eexists; split; [by rewrite w_llE | by rewrite w_llE |].
rewrite ltr_pmul2l ?invr_gt0 ?ltr0Sn // ltr_add2r.
have hi := pd_inv hS; have := wmax m0 hi hX; rewrite invmxK; exact.
Qed.
Print Assumptions C84_wishart_mode.

Theorem C84_inverse_wishart_mode : forall D (w : wishart D) pinvh multigammaln,
  pinvh_ok pinvh -> pd (w_S w) -> 0 < w_nu w + D%:R + 1 ->
  let M := inverse_wishart_mode w in pd M /\
  forall X, pd X -> X <> M -> exists a b : R,
   [/\ inverse_wishart_log_likelihood pinvh multigammaln w X = Fin a,
       inverse_wishart_log_likelihood pinvh multigammaln w M = Fin b & a < b].
Proof.
move=> D w pinvh mg hp hS m0 M.
have hM : pd M by apply: pdZ => //; rewrite invr_gt0.
have eM : invmx M = (w_nu w + D%:R + 1) *: invmx (w_S w) by rewrite invmxZ ?invrK //; exact: pd_unit.
split=> // X hX ne.
eexists; eexists; split; [by rewrite iw_llE | by rewrite iw_llE |].
rewrite ltr_pmul2l ?invr_gt0 ?ltr0Sn // ltr_add2r eM.
apply: wmax => //; first exact: pd_inv.
by rewrite -eM => /(congr1 invmx); rewrite !invmxK.
Qed.
Print Assumptions C84_inverse_wishart_mode.

Theorem C84_niw_mode : forall D (d : niw D) pinvh multigammaln mvn_logpdf,
  pinvh_ok pinvh -> mvn_ok mvn_logpdf -> niw_2d d = false -> 0 < niw_kappa d -> pd (w_S (niw_iw d)) ->
  0 < w_nu (niw_iw d) + D%:R + 2%:R ->
  forall mu X, pd X -> (mu, X) <> niw_mode d -> exists a b : R,
   [/\ niw_log_likelihood pinvh multigammaln mvn_logpdf d mu X = Val (Fin a),
       niw_log_likelihood pinvh multigammaln mvn_logpdf d (niw_mode d).1 (niw_mode d).2 = Val (Fin b) & a < b].
Proof. move=> D d pinvh mg mvn hp hm h2 k0 hS m0 mu X hX; exact: niw_mode_max. Qed.
Print Assumptions C84_niw_mode.
(** two variables, 5 degrees of freedom *)
Example C84_case : let w := Wishart 5%:R (1%:M : 'M[R]_2) in
  [/\ exists pinvh : 'M[R]_2 -> 'M[R]_2, pinvh_ok pinvh, pd (w_S w) & wishart_mode w = Some (2%:R%:M)].
Proof.
split; [by exists (@invmx _ 2) | exact: pd1 |].
have e3 : (2%:R + 1 : R) = 3%:R by rewrite -[1]/(1%N%:R) -natrD.
have e2 : (5%:R - 2%:R - 1 : R) = 2%:R by rewrite -addrA -opprD e3 -natrB.
rewrite /wishart_mode [w_nu _]/= [w_S _]/= e3 ltr_nat e2; congr Some; exact: scalemx1.
Qed.

(** * C85: a posterior can be used like any normal-inverse-Wishart distribution. Refuted. *)
Theorem C85_posterior_usable_refuted : forall D n (d : niw D) (X : 'M[R]_(n, D)) pinvh multigammaln mvn_logpdf draw
    mu Sigma, (1 < D)%N ->
  niw_log_likelihood pinvh multigammaln mvn_logpdf (niw_posterior d X) mu Sigma = Raise ValueError /\
  niw_sample draw Sigma (niw_posterior d X) = Raise ValueError.
Proof. by move=> D n d X pinvh mg mvn draw mu Sigma hD; split; rewrite /niw_log_likelihood /= ?gtn_eqF. Qed.
Print Assumptions C85_posterior_usable_refuted.
Example C85_case : exists (d : niw 2) draw Sigma x, niw_sample draw Sigma d = Val x.
Proof. by exists (NIW 0 false 1 (Wishart 3%:R 1%:M)), (fun m _ => m), 1%:M; eexists; reflexivity. Qed.
