(** Matrix vocabulary used in specifications: symmetric, positive (semi)definite,
    Frobenius inner product and norm, l1 norms, minimisers. *)
From Coq Require Import Reals.
From mathcomp Require Import all_ssreflect all_algebra.
From Verif Require Import RStruct.
Import Order.TTheory GRing.Theory Num.Theory.

Set Implicit Arguments.
Unset Strict Implicit.
Unset Printing Implicit Defensive.
Local Open Scope ring_scope.

Definition sym n (A : 'M[R]_n) : Prop := A^T = A.

(** v^T A v *)
Definition quad n (A : 'M[R]_n) (v : 'cV[R]_n) : R := (v^T *m A *m v) 0 0.

Definition psd n (A : 'M[R]_n) : Prop := sym A /\ forall v, 0 <= quad A v.
Definition pd n (A : 'M[R]_n) : Prop := sym A /\ forall v, v != 0 -> 0 < quad A v.

(** Frobenius inner product, squared norm and norm *)
Definition fdot m n (A B : 'M[R]_(m, n)) : R := \sum_i \sum_j A i j * B i j.
Definition fnorm2 m n (A : 'M[R]_(m, n)) : R := \sum_i \sum_j A i j ^+ 2.
Definition fnorm m n (A : 'M[R]_(m, n)) : R := sqrt (fnorm2 A).

(** l1 norm, and l1 norm of the off-diagonal entries *)
Definition l1 m n (A : 'M[R]_(m, n)) : R := \sum_i \sum_j `|A i j|.
Definition l1od n (A : 'M[R]_n) : R := \sum_i \sum_(j | j != i) `|A i j|.

(** [x] is a minimiser (the unique minimiser) of [f] on [D] *)
Definition minimiser T (D : T -> Prop) (f : T -> R) (x : T) : Prop :=
  D x /\ forall y, D y -> f x <= f y.
Definition unique_minimiser T (D : T -> Prop) (f : T -> R) (x : T) : Prop :=
  D x /\ forall y, D y -> y <> x -> f x < f y.
Definition everywhere T : T -> Prop := fun _ => True.

(** what is assumed of [numpy.linalg.eigh]: on a symmetric matrix it returns the eigenvalues and
    an orthonormal basis of eigenvectors (columns of [Q]). Nothing is assumed about the order of
    the eigenvalues, the choice of basis, or the result on other matrices. *)
Definition eigh_ok n (eigh : 'M[R]_n -> 'rV[R]_n * 'M[R]_n) : Prop :=
  forall A, sym A -> let: (es, Q) := eigh A in
    Q^T *m Q = 1%:M /\ A = Q *m diag_mx es *m Q^T.

(** total variation of a series: sum of |x_(t+1) - x_t| *)
Definition tvar T (x : 'rV[R]_T) : R :=
  \sum_(s < T) \sum_(t < T | t == s.+1 :> nat) `|x 0 t - x 0 s|.
