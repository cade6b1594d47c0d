(** Model of score_blankets (regain/bayesian/gwishart_inference.py:87-114). *)
From Coq Require Import Reals.
From mathcomp Require Import all_ssreflect all_algebra.
From Verif Require Import RStruct M_GWishart.
Import Order.TTheory GRing.Theory Num.Theory.

Set Implicit Arguments.
Unset Strict Implicit.
Unset Printing Implicit Defensive.
Local Open Scope ring_scope.

Section Score.
(** [lars alpha X y]: the coefficients and the intercept of sklearn's LassoLars(alpha).fit(X, y) *)
Variables (n : nat) (lars : forall q, R -> 'M[R]_(n, q) -> 'cV[R]_n -> 'cV[R]_q * R).
(** sklearn's r2_score(y, pred), on which .score is based; a constant y is treated apart *)
Definition rss (y pred : 'cV[R]_n) : R := \sum_i (y i 0 - pred i 0) ^+ 2.
Definition mean_of (y : 'cV[R]_n) : R := (\sum_i y i 0) / n%:R.
Definition tss (y : 'cV[R]_n) : R := \sum_i (y i 0 - mean_of y) ^+ 2.
Definition r2_score (y pred : 'cV[R]_n) : R :=
  if tss y == 0 then (if rss y pred == 0 then 1 else 0) else 1 - rss y pred / tss y.
(** the predictions of the fitted model *)
Definition predictions q (X : 'M[R]_(n, q)) (wb : 'cV[R]_q * R) : 'cV[R]_n := X *m wb.1 + const_mx wb.2.
(** LassoLars(alpha=alpha).fit(X_mb, y_mb).score(X_mb, y_mb), summed over alphas, lines 101-106 *)
Definition fit_score q (X : 'M[R]_(n, q)) (y : 'cV[R]_n) (alphas : seq R) : R :=
  \sum_(alpha <- alphas) r2_score y (predictions X (lars alpha X y)).
(** X[:, mb] *)
Definition columns p (X : 'M[R]_(n, p)) (mb : seq 'I_p) : 'M[R]_(n, size mb) := \matrix_(i, j) X i (tnth (in_tuple mb) j).
(** lines 96-106: one blanket [mb], as a row of booleans, of variable i *)
Definition score_blanket p (X : 'M[R]_(n, p)) (i : 'I_p) (mb : 'I_p -> bool) (alphas : seq R) : R :=
  let cols := [seq j <- enum 'I_p | mb j] in
  let y := col i X in
  if cols is [::] then fit_score (0 : 'M[R]_(n, 1)) y alphas else fit_score (columns X cols) y alphas.
(** lines 93-114; [blankets] as in markov_blankets: one matrix for each blanket number *)
Definition score_blankets p (blankets : seq 'M[bool]_p) (X : 'M[R]_(n, p)) (alphas : seq R) : 'M[R]_(p, size blankets) :=
  normalized_scores (\matrix_(i, j) score_blanket X i (fun l => tnth (in_tuple blankets) j i l) alphas).
End Score.
