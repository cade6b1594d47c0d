(** Specification vocabulary for the forward-backward solver. *)
From Coq Require Import Reals.
From mathcomp Require Import all_ssreflect all_algebra.
From Verif Require Import RStruct S_Mat S_TGL.
Import Order.TTheory GRing.Theory Num.Theory.

Set Implicit Arguments.
Unset Strict Implicit.
Unset Printing Implicit Defensive.
Local Open Scope ring_scope.

(** the one-dimensional total variation solver is exact *)
Definition tv_ok T (tv : 'rV[R]_T -> R -> 'rV[R]_T) : Prop :=
  forall (s : 'rV[R]_T) beta, 0 <= beta ->
    minimiser (@everywhere _) (fun y => beta * tvar y + fnorm2 (y - s) / 2%:R) (tv s beta).

(** the Cholesky test is exact on symmetric matrices *)
Definition pos_def_ok n (is_pos_def : 'M[R]_n -> bool) : Prop := forall A, sym A -> (is_pos_def A <-> pd A).

(** the problem: time_obj with the off-diagonal l1 penalty and, between consecutive times, the sum of
    absolute values of the changes or (Laplacian) the sum of their squares; plus vareps/2 |K|^2 *)
Definition fb_problem n T (laplacian : bool) (ns : 'I_T -> R) (S : 'I_T -> 'M[R]_n)
    (alpha beta vareps : R) (K : 'I_T -> 'M[R]_n) : R :=
  time_obj (@l1od n) (if laplacian then @fnorm2 n n else @l1 n n) ns S alpha beta K
  + vareps / 2%:R * (\sum_t fnorm2 (K t)).

(** its differentiable part *)
Definition fb_smooth n T (laplacian : bool) (ns : 'I_T -> R) (S : 'I_T -> 'M[R]_n)
    (beta vareps : R) (K : 'I_T -> 'M[R]_n) : R :=
  (\sum_t ns t * (\tr (S t *m K t) - ln (\det (K t)))) + vareps / 2%:R * (\sum_t fnorm2 (K t))
  + (if laplacian then beta * (\sum_(s < T) \sum_(t < T | t == s.+1 :> nat) fnorm2 (K t - K s)) else 0).

Definition sdot n T (X Y : 'I_T -> 'M[R]_n) : R := \sum_t fdot (X t) (Y t).
Definition sdist2 n T (X Y : 'I_T -> 'M[R]_n) : R := \sum_t fnorm2 (X t - Y t).
