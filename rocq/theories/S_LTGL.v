(** Specification vocabulary for the latent time-varying solvers. *)
From Coq Require Import Reals.
From mathcomp Require Import all_ssreflect all_algebra.
From Verif Require Import RStruct S_Mat S_TGL.
Import Order.TTheory GRing.Theory Num.Theory.

Set Implicit Arguments.
Unset Strict Implicit.
Unset Printing Implicit Defensive.
Local Open Scope ring_scope.

Section Spec.
Variables (n T : nat).
Implicit Types (K L : 'I_T -> 'M[R]_n).

(** sum_t n_t (tr(S_t K_t) - log det K_t) *)
Definition logdet_loss (ns : 'I_T -> R) (S : 'I_T -> 'M[R]_n) K : R :=
  \sum_t ns t * (\tr (S t *m K t) - ln (\det (K t))).
(** sum_t ||S_t - K_t||_F^2 *)
Definition frobenius_loss (S : 'I_T -> 'M[R]_n) K : R := \sum_t fnorm2 (S t - K t).

(** sum_t psi(K_(t+1) - K_t) *)
Definition neighbour_coupling (psi : 'M[R]_n -> R) K : R :=
  \sum_(s < T) \sum_(t < T | t == s.+1 :> nat) psi (K t - K s).
(** sum over s < t of w(s,t) psi(K_t - K_s) *)
Definition kernel_coupling (w : 'I_T -> 'I_T -> R) (psi : 'M[R]_n -> R) K : R :=
  \sum_(s < T) \sum_(t < T | (s < t)%N) w s t * psi (K t - K s).

(** feasible pairs (K, L): every L_t positive semidefinite, every K_t - L_t in P *)
Definition latent_feasible (P : 'M[R]_n -> Prop) K L : Prop :=
  slices (@psd n) L /\ slices P (fun t => K t - L t).

(** loss(K - L) + alpha sum_t penalty(K_t) + tau sum_t trace(L_t) + coupling(K) + coupling'(L);
    the nuclear norm of a positive semidefinite matrix is its trace *)
Definition latent_obj (loss : ('I_T -> 'M[R]_n) -> R) (penalty : 'M[R]_n -> R) (alpha tau : R)
    (coupling coupling' : ('I_T -> 'M[R]_n) -> R) K L : R :=
  loss (fun t => K t - L t) + alpha * (\sum_t penalty (K t)) + tau * (\sum_t \tr (L t))
  + coupling K + coupling' L.
End Spec.
