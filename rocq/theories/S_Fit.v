(** Specification vocabulary for the estimator layer. *)
From Coq Require Import Reals.
From mathcomp Require Import all_ssreflect all_algebra.
From Verif Require Import RStruct S_Mat.
Import Order.TTheory GRing.Theory Num.Theory.

Set Implicit Arguments.
Unset Strict Implicit.
Unset Printing Implicit Defensive.
Local Open Scope ring_scope.

(** average of coordinate i over the rows; average of f over the rows *)
Definition avg A (X : seq A) (f : A -> R) : R := (\sum_(x <- X) f x) / (size X)%:R.
(** covariance of coordinates i and j, about the sample mean or about zero *)
Definition cov_entry n (X : seq 'rV[R]_n) (centered : bool) (i j : 'I_n) : R :=
  let mu k := if centered then 0 else avg X (fun x => x 0 k) in
  avg X (fun x => (x 0 i - mu i) * (x 0 j - mu j)).
(** log-density at row x of the Gaussian with mean mu and precision K *)
Definition gauss_logpdf n (K : 'M[R]_n) (mu x : 'rV[R]_n) : R :=
  2%:R^-1 * (ln (\det K) - n%:R * ln (2%:R * PI) - quad K (x - mu)^T).
(** what is assumed of scipy.linalg.pinvh: the inverse of a symmetric invertible matrix *)
Definition pinvh_ok n (pinvh : 'M[R]_n -> 'M[R]_n) : Prop :=
  forall A, sym A -> A \in unitmx -> pinvh A = invmx A.
