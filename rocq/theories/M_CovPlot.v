(** Model of plot_cov_2d and plot_cov_ellipse (regain/plotting/covariance.py:37-111). Drawing itself is not modelled: the result is the
    set of points that is drawn. A negative eigenvalue (nan in numpy) is not modelled: the theorems are about positive
    (semi)definite covariances. *)
From Coq Require Import Reals.
From mathcomp Require Import all_ssreflect all_algebra.
From Verif Require Import RStruct S_Mat.
Import Order.TTheory GRing.Theory Num.Theory.

Set Implicit Arguments.
Unset Strict Implicit.
Unset Printing Implicit Defensive.
Local Open Scope ring_scope.

Definition vec2 (x y : R) : 'cV[R]_2 := \col_i (if i == 0 then x else y).
(** lines 53-59: the point of the curve for the value [tt] of the parameter *)
Definition cov_2d_point (eigh : 'M[R]_2 -> 'rV[R]_2 * 'M[R]_2) (means : 'cV[R]_2) (cov : 'M[R]_2) (sdwidth tt : R) : 'cV[R]_2 :=
  let: (d, v) := eigh cov in
  v *m diag_mx (\row_i (sdwidth * sqrt (d 0 i))) *m vec2 (cos tt) (sin tt) + means.
(** line 64 *)
Definition cov_2d_return (cov : 'M[R]_2) : R := cov 0 1.

(** lines 88-91: the order of vals.argsort()[::-1] *)
Definition eigsorted (eigh : 'M[R]_2 -> 'rV[R]_2 * 'M[R]_2) (cov : 'M[R]_2) : (R * R) * ('cV[R]_2 * 'cV[R]_2) :=
  let: (vals, vecs) := eigh cov in
  if vals 0 0 <= vals 0 1 then ((vals 0 1, vals 0 0), (col 1 vecs, col 0 vecs)) else ((vals 0 0, vals 0 1), (col 0 vecs, col 1 vecs)).
(** lines 93-102: center, full width, full height and angle in degrees of the Ellipse. [arctan2 y x] is np.arctan2 *)
Definition cov_ellipse (eigh : 'M[R]_2 -> 'rV[R]_2 * 'M[R]_2) (arctan2 : R -> R -> R) (cov : 'M[R]_2) (nstd : R) : (R * R) * R :=
  let: ((l0, l1), (v0, v1)) := eigsorted eigh cov in
  let theta := arctan2 (v0 1 0) (v0 0 0) * (180%:R / PI) in
  let width := 2%:R * nstd * sqrt l0 in
  let height := 2%:R * nstd * sqrt l1 in
  let width := if width == 0 then width + 1 / 10%:R else width in
  let height := if height == 0 then height + 1 / 10%:R else height in
  ((width, height), theta).
(** matplotlib.patches.Ellipse: its points, for the parameter tt *)
Definition ellipse_point (pos : 'cV[R]_2) (wh : R * R) (angle tt : R) : 'cV[R]_2 :=
  let a := angle * (PI / 180%:R) in
  let x := wh.1 / 2%:R * cos tt in
  let y := wh.2 / 2%:R * sin tt in
  pos + vec2 (cos a * x - sin a * y) (sin a * x + cos a * y).
(** lines 104-107: the limits of the two axes *)
Definition ellipse_limits (pos : 'cV[R]_2) (wh : R * R) : (R * R) * (R * R) :=
  ((- (wh.1 + pos 0 0 + 1 / 10%:R), wh.1 + pos 0 0 + 1 / 10%:R), (- (wh.2 + pos 1 0 + 1 / 10%:R), wh.2 + pos 1 0 + 1 / 10%:R)).
