(** Specification vocabulary for the latent graphical lasso properties. *)
From Coq Require Import Reals.
From mathcomp Require Import all_ssreflect all_algebra.
From Verif Require Import RStruct S_Mat.
Import Order.TTheory GRing.Theory Num.Theory.

Set Implicit Arguments.
Unset Strict Implicit.
Unset Printing Implicit Defensive.
Local Open Scope ring_scope.

(** feasible pairs: K symmetric, L positive semidefinite, K - L positive definite *)
Definition lgl_feasible n (KL : 'M[R]_n * 'M[R]_n) : Prop :=
  [/\ sym KL.1, psd KL.2 & pd (KL.1 - KL.2)].

(** -loglik(S, K-L) + alpha * penalty(K) + tau * trace(L); the nuclear norm of a PSD matrix is
    its trace *)
Definition lgl_obj n (penalty : 'M[R]_n -> R) (S : 'M[R]_n) (alpha tau : R)
    (KL : 'M[R]_n * 'M[R]_n) : R :=
  \tr (S *m (KL.1 - KL.2)) - ln (\det (KL.1 - KL.2)) + alpha * penalty KL.1 + tau * \tr KL.2.
