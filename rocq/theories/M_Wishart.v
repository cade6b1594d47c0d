(** Model of regain/bayesian/wishart_distribution_.py. *)
From Coq Require Import Reals.
From mathcomp Require Import all_ssreflect all_algebra.
From Verif Require Import RStruct NP M_Utils M_GL.
Import Order.TTheory GRing.Theory Num.Theory.

Set Implicit Arguments.
Unset Strict Implicit.
Unset Printing Implicit Defensive.
Local Open Scope ring_scope.

(** lines 41-48: WishartDistribution(nu, S); D is S.shape[0]. inv_S is computed by the constructor
    with scipy.linalg.pinvh, passed below as [pinvh]. *)
Record wishart D := Wishart { w_nu : R; w_S : 'M[R]_D }.

(** lines 50-52 *)
Definition wishart_mean D (w : wishart D) : 'M[R]_D := w_nu w *: w_S w.
(** lines 54-56; [None] is nan *)
Definition wishart_mode D (w : wishart D) : option 'M[R]_D :=
  if D%:R + 1 < w_nu w then Some ((w_nu w - D%:R - 1) *: w_S w) else None.
(** lines 58-74; [multigammaln a d] is scipy.special.multigammaln *)
Definition wishart_log_likelihood D (pinvh : 'M[R]_D -> 'M[R]_D) (multigammaln : R -> nat -> R)
    (w : wishart D) (X : 'M[R]_D) : xR :=
  let nu := w_nu w in
  let inv_S := pinvh (w_S w) in
  let logp := xmul (Fin (nu - D%:R - 1)) (fast_logdet X) in
  let logp := xsub logp (Fin (np_sum_mul X inv_S)) in
  let logp := xsub logp (Fin (nu * D%:R * ln 2%:R)) in
  let logp := xsub logp (Fin (2%:R * multigammaln (1 / 2%:R * nu) D)) in
  let logp := xsub logp (xmul (Fin nu) (fast_logdet (w_S w))) in
  xmul logp (Fin (1 / 2%:R)).

(** InverseWishartDistribution, lines 91-99: mean and mode *)
Definition inverse_wishart_mean D (w : wishart D) : 'M[R]_D := (w_nu w - D%:R - 1)^-1 *: w_S w.
Definition inverse_wishart_mode D (w : wishart D) : 'M[R]_D := (w_nu w + D%:R + 1)^-1 *: w_S w.
(** lines 101-116 *)
Definition inverse_wishart_log_likelihood D (pinvh : 'M[R]_D -> 'M[R]_D) (multigammaln : R -> nat -> R)
    (w : wishart D) (X : 'M[R]_D) : xR :=
  let nu := w_nu w in
  let logp := xmul (Fin nu) (fast_logdet (w_S w)) in
  let logp := xsub logp (Fin (np_sum_mul (w_S w) (pinvh X))) in
  let logp := xsub logp (xmul (Fin (nu + D%:R + 1)) (fast_logdet X)) in
  let logp := xsub logp (Fin (nu * D%:R * ln 2%:R)) in
  let logp := xsub logp (Fin (2%:R * multigammaln (1 / 2%:R * nu) D)) in
  xmul logp (Fin (1 / 2%:R)).

(** NormalInverseWishartDistribution(mu, kappa, nu, S), lines 137-150. [niw_2d]: mu is an array of shape
    (1, D) instead of (D,). *)
Record niw D := NIW { niw_mu : 'rV[R]_D; niw_2d : bool; niw_kappa : R; niw_iw : wishart D }.

(** lines 164-184: [mvn_logpdf x mean cov] is scipy.stats.multivariate_normal.logpdf, which raises
    ValueError for a mean that is not a vector, unless the dimension is 1 *)
Definition niw_log_likelihood D pinvh multigammaln (mvn_logpdf : 'rV[R]_D -> 'rV[R]_D -> 'M[R]_D -> xR)
    (d : niw D) (mu : 'rV[R]_D) (X : 'M[R]_D) : res xR :=
  let logl := inverse_wishart_log_likelihood pinvh multigammaln (niw_iw d) X in
  if niw_2d d && (D != 1)%N then Raise ValueError
  else Val (xadd logl (mvn_logpdf mu (niw_mu d) ((niw_kappa d)^-1 *: X))).

(** lines 186-189 *)
Definition niw_mode D (d : niw D) : 'rV[R]_D * 'M[R]_D :=
  (niw_mu d, (w_nu (niw_iw d) + D%:R + 2%:R)^-1 *: w_S (niw_iw d)).

(** lines 152-162: what sample does with mu: numpy.random.multivariate_normal raises ValueError for a
    mean that is not one-dimensional. [draw mean cov] is its result otherwise; [Sigma] is the
    inverse-Wishart draw. *)
Definition niw_sample D (draw : 'rV[R]_D -> 'M[R]_D -> 'rV[R]_D) (Sigma : 'M[R]_D) (d : niw D) :
    res ('rV[R]_D * 'M[R]_D) :=
  if niw_2d d then Raise ValueError
  else Val (draw (niw_mu d) ((niw_kappa d)^-1 *: Sigma), Sigma).

(** lines 202-229. For n = 0 np.mean is nan; the theorems take n > 0. *)
Definition niw_posterior D n (d : niw D) (X : 'M[R]_(n, D)) : niw D :=
  let nu_n := w_nu (niw_iw d) + n%:R in
  let S := X^T *m X in
  let mean : 'rV[R]_D := \row_j ((\sum_i X i j) / n%:R) in
  let k_0 := niw_kappa d in
  let k_n := k_0 + n%:R in
  let m_0 := niw_mu d in
  let m_n := k_n^-1 *: (k_0 *: m_0 + n%:R *: mean) in
  let S_n := w_S (niw_iw d) + S + k_0 *: (m_0^T *m m_0) - k_n *: (m_n^T *m m_n) in
  NIW m_n true k_n (Wishart nu_n S_n).
