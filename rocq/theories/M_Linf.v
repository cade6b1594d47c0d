(** Model of prox_linf_1d (regain/prox.py:81-116). *)
From Coq Require Import Reals.
From mathcomp Require Import all_ssreflect all_algebra.
From Verif Require Import RStruct S_Mat.
Import Order.TTheory GRing.Theory Num.Theory.

Set Implicit Arguments.
Unset Strict Implicit.
Unset Printing Implicit Defensive.
Local Open Scope ring_scope.

(** np.linalg.norm(x, np.inf) of a vector *)
Definition linf n (x : 'cV[R]_n) : R := \big[Num.max/0]_i `|x i 0|.
(** lines 113-114 *)
Definition linf_objective n (a : 'cV[R]_n) (lamda : R) (x : 'cV[R]_n) : R := lamda * linf x + 1 / 2%:R * fnorm2 (a - x).
(** lines 111-116: [minimize f x0] is scipy.optimize.minimize(f, x0).x *)
Definition prox_linf_1d n (minimize : ('cV[R]_n -> R) -> 'cV[R]_n -> 'cV[R]_n) (a : 'cV[R]_n) (lamda : R) : 'cV[R]_n :=
  minimize (linf_objective a lamda) a.
