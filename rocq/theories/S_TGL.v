(** Specification vocabulary for the time-varying properties. *)
From Coq Require Import Reals.
From mathcomp Require Import all_ssreflect all_algebra.
From Verif Require Import RStruct S_Mat.
Import Order.TTheory GRing.Theory Num.Theory.

Set Implicit Arguments.
Unset Strict Implicit.
Unset Printing Implicit Defensive.
Local Open Scope ring_scope.

Definition convex_fun n (psi : 'M[R]_n -> R) : Prop :=
  forall x y (t : R), 0 <= t -> t <= 1 ->
    psi ((1 - t) *: x + t *: y) <= (1 - t) * psi x + t * psi y.

(** [prox a lam] is the proximal point of lam * psi at a *)
Definition prox_of n (psi : 'M[R]_n -> R) (prox : 'M[R]_n -> R -> 'M[R]_n) : Prop :=
  forall a (lam : R), 0 <= lam ->
    unique_minimiser (@everywhere _) (fun X => lam * psi X + fnorm2 (X - a) / 2%:R) (prox a lam).

(** sum_t n_t (tr(S_t K_t) - log det K_t) + alpha sum_t penalty(K_t) + beta sum_t psi(K_(t+1) - K_t) *)
Definition time_obj n T (penalty psi : 'M[R]_n -> R) (ns : 'I_T -> R) (S : 'I_T -> 'M[R]_n)
    (alpha beta : R) (K : 'I_T -> 'M[R]_n) : R :=
  (\sum_t ns t * (\tr (S t *m K t) - ln (\det (K t))))
  + alpha * (\sum_t penalty (K t))
  + beta * (\sum_(s < T) \sum_(t < T | t == s.+1 :> nat) psi (K t - K s)).

(** every slice satisfies P *)
Definition slices n T (P : 'M[R]_n -> Prop) (K : 'I_T -> 'M[R]_n) : Prop := forall t, P (K t).
