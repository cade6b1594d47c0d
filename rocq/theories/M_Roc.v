(** Model of the curves drawn by plot_roc_curves (regain/plotting/results.py:39-96). *)
From Coq Require Import Reals.
From mathcomp Require Import all_ssreflect all_algebra.
From Verif Require Import RStruct M_Utils.
Import Order.TTheory GRing.Theory Num.Theory.

Set Implicit Arguments.
Unset Strict Implicit.
Unset Printing Implicit Defensive.
Local Open Scope ring_scope.

(** a curve: its points, false positive rate first *)
Definition curve := seq (R * R).
(** np.interp for x at or after the first abscissa: j is the last index with xp[j] <= x; after the last point its ordinate *)
Fixpoint interp_from (p : R * R) (pts : curve) (x : R) : R :=
  if pts is q :: pts' then
    if q.1 <= x then interp_from q pts' x else (q.2 - p.2) / (q.1 - p.1) * (x - p.1) + p.2
  else p.2.
Definition np_interp (x : R) (pts : curve) : R :=
  if pts is p :: pts' then if x < p.1 then p.2 else interp_from p pts' x else 0.
(** np.trapz *)
Fixpoint trapz (pts : curve) : R :=
  if pts is p :: ((q :: _) as pts') then (q.1 - p.1) * ((p.2 + q.2) / 2%:R) + trapz pts' else 0.
(** sklearn.metrics.auc *)
Definition auc (pts : curve) : res R :=
  let xs := unzip1 pts in
  if (size pts < 2)%N then Raise ValueError
  else if sorted <=%O xs then Val (trapz pts)
  else if sorted >=%O xs then Val (- trapz pts) else Raise ValueError.
(** line 44: np.linspace(0, 1, 100) *)
Definition mean_fpr (k : nat) : R := k%:R / 99%:R.
(** lines 57-59: the curve of a fold on the grid *)
Definition fold_tpr (pts : curve) (k : nat) : R := if k == 0%N then 0 else np_interp (mean_fpr k) pts.
Definition np_mean (s : seq R) : R := (\sum_(x <- s) x) / (size s)%:R.
Definition np_std (s : seq R) : R := sqrt (np_mean [seq (x - np_mean s) ^+ 2 | x <- s]).
(** lines 66-67 *)
Definition mean_tpr (folds : seq curve) (k : nat) : R := if k == 99%N then 1 else np_mean [seq fold_tpr c k | c <- folds].
(** lines 79-81 *)
Definition std_tpr (folds : seq curve) (k : nat) : R := np_std [seq fold_tpr c k | c <- folds].
Definition tprs_upper folds k : R := Num.min (mean_tpr folds k + std_tpr folds k) 1.
Definition tprs_lower folds k : R := Num.max (mean_tpr folds k - std_tpr folds k) 0.
(** line 68 *)
Definition mean_auc (folds : seq curve) : res R := auc [seq (mean_fpr k, mean_tpr folds k) | k <- iota 0 100].
(** lines 49-56: an array of two dimensions (with two or more columns) is given to sklearn's roc_curve as it is, which refuses it; any other is
    made a vector of zeros and ones. [roc] is roc_curve on vectors; the folds' curves and their areas (line 60) *)
Fixpoint fold_curves (roc : seq bool -> seq R -> res curve) (true : seq bool) (preds : seq (seq R)) : res (seq (curve * R)) :=
  if preds is p :: preds' then
    match roc true p with
    | Raise e => Raise e
    | Val c => match auc c with
      | Raise e => Raise e
      | Val a => match fold_curves roc true preds' with Raise e => Raise e | Val l => Val ((c, a) :: l) end
      end
    end
  else Val [::].
Definition plot_roc_curves (roc : seq bool -> seq R -> res curve) (ndim : nat) (true : seq R) (preds : seq (seq R)) : res (seq (curve * R)) :=
  if ndim == 2%N then (if preds is [::] then Val [::] else Raise ValueError)
  else fold_curves roc [seq x != 0 | x <- true] preds.
