(** Specification vocabulary for the graphical lasso properties. *)
From Coq Require Import Reals.
From mathcomp Require Import all_ssreflect all_algebra all_fingroup.
From Verif Require Import RStruct S_Mat.
Import Order.TTheory GRing.Theory Num.Theory.

Set Implicit Arguments.
Unset Strict Implicit.
Unset Printing Implicit Defensive.
Local Open Scope ring_scope.

(** the documented objective: trace(S K) - log det K + alpha ||K||_od,1, and its split form *)
Definition gl_obj2 n (S : 'M[R]_n) (alpha : R) (K Z : 'M[R]_n) : R :=
  \tr (S *m K) - ln (\det K) + alpha * l1od Z.
Definition gl_obj n (S : 'M[R]_n) (alpha : R) (K : 'M[R]_n) : R := gl_obj2 S alpha K K.
Definition gl_optimum n (S : 'M[R]_n) (alpha : R) : 'M[R]_n -> Prop :=
  minimiser (@pd n) (gl_obj S alpha).

(** renaming the variables: entry (i,j) of the result is entry (s i, s j) of the matrix *)
Definition relabel n (s : {perm 'I_n}) (X : 'M[R]_n) : 'M[R]_n := \matrix_(i, j) X (s i) (s j).
