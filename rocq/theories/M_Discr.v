(** Model of the decision function of DiscriminantAnalysis (regain/discriminant_analysis.py:145-169) with the methods it inherits from scikit-learn's
    QuadraticDiscriminantAnalysis (_decision_function, predict, predict_proba), and of its use with PrecomputedDiscriminantAnalysis. *)
From Coq Require Import Reals.
From mathcomp Require Import all_ssreflect all_algebra.
From Verif Require Import RStruct M_Utils.
Import Order.TTheory GRing.Theory Num.Theory.

Set Implicit Arguments.
Unset Strict Implicit.
Unset Printing Implicit Defensive.
Local Open Scope ring_scope.

(** a fitted class: priors_[k], means_[k], covariance_[k] *)
Record fitted_class n := FittedClass { prior : R; mean : 'rV[R]_n; cov : 'M[R]_n }.

Section Decision.
Variable n : nat.
(** np.linalg.svd(p, full_matrices=False) of a square matrix: R, S, Rt *)
Variable svd : 'M[R]_n -> 'M[R]_n * 'rV[R]_n * 'M[R]_n.

(** discriminant_analysis.py:160-169: rotations Rt.T, scalings S; then, in scikit-learn, for one row x of X:
    Xm = x - means_[k]; X2 = Xm . (R * S ** (-0.5)); norm2 = sum(X2 ** 2); u = sum(log(S)); -0.5 * (norm2 + u) + log(priors_[k]) *)
Definition decision (c : fitted_class n) (x : 'rV[R]_n) : R :=
  let: (_, s, Rt) := svd (cov c) in
  let rotation := Rt^T in
  let Xm := x - mean c in
  let X2 := Xm *m (\matrix_(i, j) (rotation i j * (sqrt (s 0 j))^-1)) in
  let norm2 := \sum_j X2 0 j ^+ 2 in
  let u := \sum_j ln (s 0 j) in
  - (1 / 2%:R) * (norm2 + u) + ln (prior c).
(** predict: classes_.take(decision.argmax(1)), the first of the largest *)
Definition predict (cs : seq (fitted_class n)) (x : 'rV[R]_n) : nat :=
  let values := [seq decision c x | c <- cs] in
  find (fun v => all (fun w => w <= v) values) values.
(** predict_proba: exp(values - max), normalised *)
Definition predict_proba (cs : seq (fitted_class n)) (x : 'rV[R]_n) : seq R :=
  let values := [seq decision c x | c <- cs] in
  let top := nth 0 values (predict cs x) in
  let likelihood := [seq exp (v - top) | v <- values] in
  [seq l / (\sum_(l' <- likelihood) l') | l <- likelihood].
End Decision.

(** discriminant_analysis.py:129-142: the attributes read from the fitted estimator, each of which it may not have. [pinvh] is scipy.linalg.pinvh *)
Record estimator_attrs n := Attrs { a_precision : option (seq 'M[R]_n); a_covariance : option (seq 'M[R]_n); a_location : option (seq 'rV[R]_n) }.
Definition read_attrs n (pinvh : 'M[R]_n -> 'M[R]_n) (fix_posdef : seq 'M[R]_n -> seq 'M[R]_n) (ensure_posdef : bool) (e : estimator_attrs n) :
    res (seq 'M[R]_n * seq 'M[R]_n * seq 'rV[R]_n) :=
  if a_precision e is Some p then
    let p' := if ensure_posdef then fix_posdef p else p in
    let c := if ensure_posdef then [seq pinvh k | k <- p'] else if a_covariance e is Some c then c else [seq pinvh k | k <- p'] in
    if a_location e is Some l then Val (p', c, l) else Raise AttributeError
  else Raise AttributeError.
(** PrecomputedDiscriminantAnalysis, lines 197-204: only precision_ *)
Definition precomputed n (precision : seq 'M[R]_n) : estimator_attrs n := Attrs (Some precision) None None.
