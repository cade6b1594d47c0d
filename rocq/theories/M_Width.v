(** Model of the log posterior density of the inverse width in sample_hyper_kernel (regain/bayesian/sampling.py:177-181). *)
From Coq Require Import Reals.
From mathcomp Require Import all_ssreflect all_algebra.
From Verif Require Import RStruct.
Import Order.TTheory GRing.Theory Num.Theory.

Set Implicit Arguments.
Unset Strict Implicit.
Unset Printing Implicit Defensive.
Local Open Scope ring_scope.

Section Width.
(** [ustack]: np.vstack(current_state.xx), wishart_process_.py:119; its rows are the draws of the Gaussian process, over n times. [kern]: the kernel matrix
    of the times. [logpdf_dev K dev]: the density in scipy's multivariate_normal, which depends on the deviation x - mean only. [prior_logpdf]: that of the
    inverse width *)
Variables (k n : nat) (kern : R -> 'M[R]_n) (logpdf_dev : 'M[R]_n -> 'rV[R]_n -> R) (prior_logpdf : R -> R).
(** ustack.mean(axis=0) *)
Definition stack_mean (ustack : 'M[R]_(k, n)) : 'rV[R]_n := k%:R^-1 *: \sum_i row i ustack.
(** stats.multivariate_normal(mean, cov=K, allow_singular=True).logpdf(ustack) *)
Definition mvn_logpdf (mean : 'rV[R]_n) (K : 'M[R]_n) (ustack : 'M[R]_(k, n)) (i : 'I_k) : R := logpdf_dev K (row i ustack - mean).
(** lines 177-181 *)
Definition width_logp_post (ustack : 'M[R]_(k, n)) (inverse_width : R) : R :=
  let K := kern inverse_width in
  let logp := \sum_i mvn_logpdf (stack_mean ustack) K ustack i in
  let logp_prior := prior_logpdf inverse_width in
  logp + logp_prior.
End Width.
