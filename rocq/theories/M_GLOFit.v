(** Model of GroupLassoOverlap.fit (regain/linear_model/group_lasso_overlap_.py:239-430) and GroupLassoOverlapClassifier (lines 469-491), with the
    methods of scikit-learn they call: _pre_fit, _set_intercept, LinearModel._decision_function, LabelBinarizer, LinearClassifierMixin.predict.
    The solvers (group_lasso_overlap, group_lasso_overlap_paspal, glopridu_algorithm) with alpha, groups and tolerances are one argument. *)
From Coq Require Import Reals.
From mathcomp Require Import all_ssreflect all_algebra.
From Verif Require Import RStruct M_Utils.
Import Order.TTheory GRing.Theory Num.Theory.

Set Implicit Arguments.
Unset Strict Implicit.
Unset Printing Implicit Defensive.
Local Open Scope ring_scope.

Inductive glo_mode := Admm | PaspalMatlab | Paspal | OtherMode.
Inductive glo_selection := Cyclic | Random | OtherSelection.
(** the constructor, lines 206-237; random_state and history are not used for the coefficients *)
Record glo_params := GLOParams { fit_intercept : bool; normalize : bool; precompute_string : bool; precompute : bool; warm_start : bool;
  positive : bool; selection : glo_selection; n_jobs : nat; mode : glo_mode }.
(** coef_ (one row for each target), intercept_ and dual_gap_ *)
Record glo_fitted n := GLOFitted { coef : seq 'rV[R]_n; intercept : seq R; dual_gap : seq R }.

Section Fit.
Variables m n : nat.
Implicit Types (X : 'M[R]_(m, n)) (y : 'cV[R]_m).
(** the solver of a mode, called with the preprocessed samples and one target *)
Variable solver : glo_mode -> 'M[R]_(m, n) -> 'cV[R]_m -> 'rV[R]_n.

(** scikit-learn, _preprocess_data: np.average, f_normalize with the Euclidean norm of the centred columns (1 for a zero norm) *)
Definition x_offset (b : bool) X : 'rV[R]_n := if b then \row_j ((\sum_i X i j) / m%:R) else 0.
Definition y_offset (b : bool) y : R := if b then (\sum_i y i 0) / m%:R else 0.
Definition x_centred (b : bool) X : 'M[R]_(m, n) := \matrix_(i, j) (X i j - x_offset b X 0 j).
Definition x_scale (b nrm : bool) X : 'rV[R]_n :=
  \row_j (if b && nrm then let s := sqrt (\sum_i x_centred b X i j ^+ 2) in if s == 0 then 1 else s else 1).
Definition x_pre (b nrm : bool) X : 'M[R]_(m, n) := \matrix_(i, j) (x_centred b X i j / x_scale b nrm X 0 j).
Definition y_pre (b : bool) y : 'cV[R]_m := \col_i (y i 0 - y_offset b y).

(** coef_[k] = this_coef *)
Definition assign_row (c : seq 'rV[R]_n) (k : nat) (r : 'rV[R]_n) : res (seq 'rV[R]_n) :=
  if (k < size c)%N then Val (set_nth 0 c k r) else Raise IndexError.
(** lines 313-356: the loop over the targets with n_jobs = 1 *)
Fixpoint loop_targets (md : glo_mode) X (k : nat) (ys : seq 'cV[R]_m) (c : seq 'rV[R]_n) : res (seq 'rV[R]_n) :=
  if ys is y :: ys' then
    if md is OtherMode then Raise ValueError
    else match assign_row c k (solver md X y) with Val c' => loop_targets md X k.+1 ys' c' | Raise e => Raise e end
  else Val c.

(** lines 272-407. [prev]: coef_ of an earlier fit with the same number of features (more than one), as rows; [ys]: the columns of y.
    np.squeeze turns the coefficients of one feature and several targets into a vector, which np.dot(X_offset, coef_.T) rejects *)
Definition glo_fit (p : glo_params) (prev : option (seq 'rV[R]_n)) X (ys : seq 'cV[R]_m) : res (glo_fitted n) :=
  let b := fit_intercept p in
  if precompute_string p then Raise ValueError
  else if (m == 0)%N || (n == 0)%N then Raise ValueError
  else
    let Xp := x_pre b (normalize p) X in
    let yp := [seq y_pre b y | y <- ys] in
    if selection p is OtherSelection then Raise ValueError
    else
      let c0 := if warm_start p then (if prev is Some c then c else nseq (size ys) 0) else nseq (size ys) 0 in
      let c := if n_jobs p == 1%N then loop_targets (mode p) Xp 0 yp c0
               else if mode p is OtherMode then Raise ValueError else Val [seq solver (mode p) Xp y | y <- yp] in
      match c with
      | Raise e => Raise e
      | Val c =>
        let gaps := nseq (size ys) 0 in
        if b then
          if (n == 1)%N && (1 < size c)%N then Raise ValueError
          else
            let c' := [seq \row_j (r 0 j / x_scale b (normalize p) X 0 j) | r : ('rV[R]_n) <- c] in
            let dots := [seq \sum_j x_offset b X 0 j * r 0 j | r : ('rV[R]_n) <- c'] in
            let offs := [seq y_offset b y | y <- ys] in
            (* y_offset - dots, with broadcasting of a single offset *)
            if size offs == size dots then Val (GLOFitted c' [seq od.1 - od.2 | od <- zip offs dots] gaps)
            else if size offs == 1%N then Val (GLOFitted c' [seq head 0 offs - d | d <- dots] gaps)
            else Raise ValueError
        else Val (GLOFitted c (nseq (size c) 0) gaps)
      end.

(** the value of one row of coef_ with its intercept *)
Definition linear_value (x : 'rV[R]_n) (ci : 'rV[R]_n * R) : R := (\sum_j x 0 j * ci.1 0 j) + ci.2.
(** LinearModel._decision_function for one sample: one value for each row of coef_ *)
Definition glo_predict (f : glo_fitted n) (x : 'rV[R]_n) : res (seq R) :=
  if (n == 1)%N && (1 < size (coef f))%N then Raise ValueError
  else Val [seq linear_value x ci | ci <- zip (coef f) (intercept f)].

(** LabelBinarizer(pos_label=1, neg_label=-1).fit_transform: [K] sorted classes, labels as their positions; one column for at most two classes *)
Definition binarize (K : nat) (labels : m.-tuple nat) : seq 'cV[R]_m :=
  if (K <= 2)%N then [:: \col_i (if tnth labels i == 1%N then 1 else -1)]
  else [seq \col_i (if tnth labels i == k then 1 else -1) | k <- iota 0 K].
(** GroupLassoOverlapClassifier.fit, lines 472-486 *)
Definition glo_classifier_fit (p : glo_params) (prev : option (seq 'rV[R]_n)) X (K : nat) (labels : m.-tuple nat) : res (glo_fitted n) :=
  glo_fit p prev X (binarize K labels).
(** LinearClassifierMixin.predict: positive score, or the first of the largest scores *)
Definition glo_classify (f : glo_fitted n) (x : 'rV[R]_n) : nat :=
  let scores := [seq linear_value x ci | ci <- zip (coef f) (intercept f)] in
  if size scores == 1%N then (if 0 < head 0 scores then 1%N else 0%N)
  else find (fun v => all (fun w => w <= v) scores) scores.
End Fit.
