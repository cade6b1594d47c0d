(** Model of NormalInverseWishartDistribution.marginals and predictive, regain/bayesian/wishart_distribution_.py:191-200, 231-234. *)
From Coq Require Import Reals.
From mathcomp Require Import all_ssreflect all_algebra.
From Verif Require Import RStruct M_Wishart.
Import GRing.Theory Num.Theory.

Set Implicit Arguments.
Unset Strict Implicit.
Unset Printing Implicit Defensive.
Local Open Scope ring_scope.

(** statsmodels' MVT(mean, sigma, df): the parameters only *)
Record mvt D := MVT { mvt_df : R; mvt_mean : 'rV[R]_D; mvt_sigma : 'M[R]_D }.

(** lines 191-200; ravel makes a mean of shape (1, D) a vector, which is how both are modelled *)
Definition niw_marginals D (d : niw D) : mvt D * wishart D :=
  let df := w_nu (niw_iw d) - D%:R + 1 in
  (MVT df (niw_mu d) ((niw_kappa d * df)^-1 *: w_S (niw_iw d)), Wishart (w_nu (niw_iw d)) (w_S (niw_iw d))).
(** lines 231-234 *)
Definition niw_predictive D (d : niw D) : mvt D :=
  let df := w_nu (niw_iw d) - D%:R + 1 in
  MVT df (niw_mu d) ((niw_kappa d * df)^-1 *: ((niw_kappa d + 1) *: w_S (niw_iw d))).
