(** Model of plot_curve (regain/plotting/results.py:99-216): the curves drawn and their areas, key by key. *)
From Coq Require Import Reals.
From mathcomp Require Import all_ssreflect all_algebra.
From Verif Require Import RStruct M_Utils M_Roc.
Import Order.TTheory GRing.Theory Num.Theory.

Set Implicit Arguments.
Unset Strict Implicit.
Unset Printing Implicit Defensive.
Local Open Scope ring_scope.

(** ~np.isclose(x, 0, rtol=1e-7): the absolute tolerance is 1e-8, the relative one is multiplied by 0 *)
Definition binarise (l : seq R) : seq R := [seq if `|x| <= (10%:R ^+ 8)^-1 then 0 else 1 | x <- l].
(** the variable true: an array, as its dimension and its slices along the first axis, or a list of arrays (all raveled) *)
Inductive truth := Arr (ndim : nat) (rows : seq (seq R)) | Lst (rows : seq (seq R)).
Definition rows_of (t : truth) : seq (seq R) := match t with Arr _ r => r | Lst r => r end.
Definition vector (l : seq R) : truth := Arr 1 [seq [:: x] | x <- l].
(** what is drawn for a key: a curve with its area (lines 130-154), or a mean curve on the grid of 100 points with its area and the areas of the folds
    (lines 155-200; the band is as in M_Roc) *)
Inductive drawing := Single (pts : curve) (area : R) | Mean (pts : curve) (area : R) (areas : seq R).

Section PlotCurve.
(** [curve_func]: roc_curve (false and true positive rates) or precision_recall_curve (precision and recall), on vectors. [interp]: np.interp, whose
    result means nothing unless the abscissae are sorted *)
Variables (curve_func : seq R -> seq R -> res curve) (interp : R -> curve -> R) (roc multiple_true : bool).

Definition swap (c : curve) : curve := [seq (p.2, p.1) | p <- c].
(** line 181: auc(fpr, tpr) if mode == "roc" else auc(tpr, fpr) *)
Definition area_of (c : curve) : res R := auc (if roc then c else swap c).
(** lines 178-179 *)
Definition fold_y (c : curve) (k : nat) : R := if k == 0%N then (~~ roc)%:R else interp (mean_fpr k) c.
(** lines 173-182, fold [i] *)
Fixpoint folds (t : truth) (i : nat) (preds : seq (seq R)) : res (seq (curve * R)) :=
  if preds is p :: preds' then
    if multiple_true && (size (rows_of t) <= i)%N then Raise IndexError
    else match curve_func (if multiple_true then nth [::] (rows_of t) i else flatten (rows_of t)) p with
    | Raise e => Raise e
    | Val c => match area_of c with
      | Raise e => Raise e
      | Val a => match folds t i.+1 preds' with Raise e => Raise e | Val l => Val ((c, a) :: l) end
      end
    end
  else Val [::].
(** lines 187-189: mean_tpr, with its last entry replaced *)
Definition mean_y (cs : seq curve) (k : nat) : R := if k == 99%N then roc%:R else np_mean [seq fold_y c k | c <- cs].
(** lines 129-200 for one key: the variable true is assigned in the loop, and the next key sees the new value *)
Definition plot_key (t : truth) (preds : seq (seq R)) : res (drawing * truth) :=
  if preds is [:: p] then
    match t with
    | Lst _ => Raise AttributeError (* a list has no ndim *)
    | Arr nd rows =>
      if nd == 2%N then Raise ValueError (* sklearn refuses a matrix *)
      else
        let b := binarise (flatten rows) in
        match curve_func b p with
        | Raise e => Raise e
        | Val c => match area_of c with Raise e => Raise e | Val a => Val (Single (if roc then c else swap c) a, vector b) end
        end
    end
  else
    let t := if multiple_true then Lst [seq binarise r | r <- rows_of t] else vector (binarise (flatten (rows_of t))) in
    match folds t 0 preds with
    | Raise e => Raise e
    | Val l =>
      if l is [::] then Raise TypeError (* np.mean of no row is a number: mean_tpr[-1] = 1 *)
      else let pts := [seq (mean_fpr k, mean_y (unzip1 l) k) | k <- iota 0 100] in
        match auc pts with Raise e => Raise e | Val a => Val (Mean pts a (unzip2 l), t) end
    end.
Fixpoint plot_curve (t : truth) (keys : seq (seq (seq R))) : res (seq drawing) :=
  if keys is preds :: keys' then
    match plot_key t preds with
    | Raise e => Raise e
    | Val (d, t') => match plot_curve t' keys' with Raise e => Raise e | Val ds => Val (d :: ds) end
    end
  else Val [::].
(** lines 203-208: (xlabel, ylabel) *)
Inductive axis := FalsePositiveRate | TruePositiveRate | Precision | Recall.
Definition axes : axis * axis := if roc then (FalsePositiveRate, TruePositiveRate) else (Precision, Recall).
End PlotCurve.
