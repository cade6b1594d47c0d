(** Specification vocabulary for the kernel time graphical lasso. *)
From Coq Require Import Reals.
From mathcomp Require Import all_ssreflect all_algebra.
From Verif Require Import RStruct S_Mat.
Import Order.TTheory GRing.Theory Num.Theory.

Set Implicit Arguments.
Unset Strict Implicit.
Unset Printing Implicit Defensive.
Local Open Scope ring_scope.

(** sum_t n_t (tr(S_t K_t) - log det K_t) + alpha sum_t penalty(K_t)
    + sum over s < t of w(s,t) psi(K_t - K_s) *)
Definition kernel_obj n T (penalty psi : 'M[R]_n -> R) (ns : 'I_T -> R) (S : 'I_T -> 'M[R]_n)
    (alpha : R) (w : 'I_T -> 'I_T -> R) (K : 'I_T -> 'M[R]_n) : R :=
  (\sum_t ns t * (\tr (S t *m K t) - ln (\det (K t))))
  + alpha * (\sum_t penalty (K t))
  + \sum_(s < T) \sum_(t < T | (s < t)%N) w s t * psi (K t - K s).
