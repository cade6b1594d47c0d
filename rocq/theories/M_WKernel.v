(** Model of the kernels of the Wishart process, regain/bayesian/wishart_process_.py:212-221. *)
From Coq Require Import Reals.
From mathcomp Require Import all_ssreflect all_algebra.
From Verif Require Import RStruct S_Mat M_Utils.
Import Order.TTheory GRing.Theory Num.Theory.

Set Implicit Arguments.
Unset Strict Implicit.
Unset Printing Implicit Defensive.
Local Open Scope ring_scope.

(** sklearn.metrics.pairwise.rbf_kernel(X, Y, gamma) *)
Definition sk_rbf_kernel n m d (X : 'M[R]_(n, d)) (Y : 'M[R]_(m, d)) (gamma : R) : 'M[R]_(n, m) :=
  \matrix_(i, j) exp (- (gamma * fnorm2 (row i X - row j Y))).
(** lines 212-217; None * array is a TypeError, and so is 0.5 * None. Y=None means Y = X: see [self_kernel]. Simplified: the square root of
    a negative inverse width (nan) is that of Coq's reals *)
Definition rbf_kernel n m d (X : 'M[R]_(n, d)) (Y : 'M[R]_(m, d)) (var inverse_width : option R) (normalised : bool) : res 'M[R]_(n, m) :=
  if inverse_width is Some iw then
    let gamma := 1 / 2%:R * iw in
    if var is Some v then
      let k := v *: sk_rbf_kernel X Y gamma in
      Val (if normalised then sqrt (iw / (2%:R * PI)) *: k else k)
    else Raise TypeError
  else Raise TypeError.
(** sklearn.gaussian_process.kernels.ExpSineSquared(length_scale, periodicity=1)(X, Y) *)
Definition sk_exp_sine_squared n m d (length_scale periodicity : R) (X : 'M[R]_(n, d)) (Y : 'M[R]_(m, d)) : 'M[R]_(n, m) :=
  \matrix_(i, j) exp (- (2%:R * (sin (PI / periodicity * fnorm (row i X - row j Y)) / length_scale) ^+ 2)).
(** lines 220-221 *)
Definition periodic_kernel n m d (X : 'M[R]_(n, d)) (Y : 'M[R]_(m, d)) (inverse_width : R) : 'M[R]_(n, m) :=
  sk_exp_sine_squared inverse_width 1 X Y.
