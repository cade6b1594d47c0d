(** Specification vocabulary for the linear models. *)
From Coq Require Import Reals.
From mathcomp Require Import all_ssreflect all_algebra.
From Verif Require Import RStruct S_Mat.
Import Order.TTheory GRing.Theory Num.Theory.

Set Implicit Arguments.
Unset Strict Implicit.
Unset Printing Implicit Defensive.
Local Open Scope ring_scope.

(** 1/2 |Ax - b|^2 + lamda |x|_1 *)
Definition lasso_problem m n (A : 'M[R]_(m, n)) (b : 'cV[R]_m) (lamda : R) (x : 'cV[R]_n) : R :=
  fnorm2 (A *m x - b) / 2%:R + lamda * l1 x.
(** 1/2 |Ax - b|^2 + lamda sum_g |x_g|_2 *)
Definition group_problem m n (A : 'M[R]_(m, n)) (b : 'cV[R]_m) (lamda : R) (groups : seq (seq nat)) (x : 'cV[R]_n) : R :=
  fnorm2 (A *m x - b) / 2%:R + lamda * \sum_(g <- groups) sqrt (\sum_(i < n | (i : nat) \in g) x i 0 ^+ 2).
(** 1/2 |Ax - b|^2 + lamda sum_g |x_g|_1 *)
Definition group_l1_problem m n (A : 'M[R]_(m, n)) (b : 'cV[R]_m) (lamda : R) (groups : seq (seq nat)) (x : 'cV[R]_n) : R :=
  fnorm2 (A *m x - b) / 2%:R + lamda * \sum_(g <- groups) \sum_(i < n | (i : nat) \in g) `|x i 0|.
(** every variable is in exactly one group, once *)
Definition partition_of (n : nat) (groups : seq (seq nat)) : Prop := perm_eq (flatten groups) (iota 0 n).

(** one local value for each variable of each group *)
Definition same_shape (x : seq (seq R)) (groups : seq (seq nat)) : Prop := map size x = map size groups.
(** sum over the groups and their members of (local value - v(member))^2 *)
Definition disagreement (x : seq (seq R)) (groups : seq (seq nat)) (v : nat -> R) : R :=
  \sum_(xg <- zip x groups) \sum_(ae <- zip xg.1 xg.2) (ae.1 - v ae.2) ^+ 2.
