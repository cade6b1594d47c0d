(** Model of the remaining numeric helpers of regain/utils.py: logentropy_normalize, top_n_indexes, retain_top_n, error_rank, error_norm_time
    and alpha_heuristic. *)
From Coq Require Import Reals.
From mathcomp Require Import all_ssreflect all_algebra.
From Verif Require Import RStruct NP M_Utils.
Import Order.TTheory GRing.Theory Num.Theory.

Set Implicit Arguments.
Unset Strict Implicit.
Unset Printing Implicit Defensive.
Local Open Scope ring_scope.

(** a two-dimensional array: its entries; the shape is given apart *)
Definition grid := nat -> nat -> R.

(** utils.py:83-88. [argpartition] is bottleneck.argpartition of the flattened array (row-major), which raises ValueError when the position
    is negative or not smaller than the size. [n] is a non-negative integer; divmod(i, width) *)
Definition top_n_indexes (argpartition : seq R -> nat -> seq nat) (height width : nat) (arr : grid) (n : nat) : res (seq (nat * nat)) :=
  let flat := [seq arr (p %/ width)%N (p %% width)%N | p <- iota 0 (height * width)] in
  if (n == 0)%N || (height * width < n)%N then Raise ValueError
  else let idx := argpartition flat (size flat - n)%N in
       Val [seq (i %/ width, i %% width)%N | i <- drop (size idx - n) idx].
(** utils.py:91-96 *)
Definition put (mask_array : grid) (idx : nat * nat) (x : R) : grid := fun i j => if (i == idx.1) && (j == idx.2) then x else mask_array i j.
Definition retain_top_n (argpartition : seq R -> nat -> seq nat) (height width : nat) (arr : grid) (n : nat) : res grid :=
  match top_n_indexes argpartition height width (fun i j => `|arr i j|) n with
  | Val idxs => Val (foldl (fun mask_array idx => put mask_array idx (arr idx.1 idx.2)) (fun _ _ => 0) idxs)
  | Raise e => Raise e
  end.

(** utils.py:74-80, a frame without negative entries: P is nan in a column of zeros, P * log(P) is nan where P is 0 or nan, fillna(0) *)
Definition entropy_weight (rows cols : nat) (X : 'M[R]_(rows, cols)) (j : 'I_cols) : R :=
  let s := \sum_i X i j in
  1 + (\sum_i (if (s == 0) || (X i j == 0) then 0 else X i j / s * ln (X i j / s))) / ln (1 + rows%:R).
Definition logentropy_normalize (rows cols : nat) (X : 'M[R]_(rows, cols)) : 'M[R]_(rows, cols) :=
  \matrix_(i, j) (entropy_weight X j * ln (1 + X i j)).

(** utils.py:646-668. [pdf] is scipy.stats.t.pdf; n_samples > 2 *)
Definition heuristic_value (pdf : R -> R -> R) (m : R) (n_samples : nat) (gamma : R) : R :=
  let t := pdf gamma (n_samples - 2)%N%:R * 2%:R in
  t * m / sqrt ((n_samples - 2)%N%:R + t * t).
(** lines 658-660: two dimensions *)
Definition alpha_heuristic (pdf : R -> R -> R) d (emp_cov : 'M[R]_d.+1) (n_samples : nat) (gamma : R) : R :=
  let m := \big[Num.max/emp_cov 0 0 * emp_cov 0 0]_(ij : 'I_d.+1 * 'I_d.+1) (emp_cov ij.1 ij.1 * emp_cov ij.2 ij.2) in
  heuristic_value pdf m n_samples gamma.
(** lines 655-657: three dimensions *)
Definition alpha_heuristic_3d (pdf : R -> R -> R) d T (emp_cov : 'I_T.+1 -> 'M[R]_d.+1) (n_samples : nat) (gamma : R) : R :=
  let m := \big[Num.max/emp_cov 0 0 0 * emp_cov 0 0 0]_(tij : 'I_T.+1 * ('I_d.+1 * 'I_d.+1))
    (emp_cov tij.1 tij.2.1 tij.2.1 * emp_cov tij.1 tij.2.2 tij.2.2) in
  heuristic_value pdf m n_samples gamma.

(** np.mean of a list *)
Definition xmean (l : seq xR) : xR :=
  match foldr xadd (Fin 0) l with Fin s => xdiv s (size l)%:R | x => x end.
(** utils.py:425-432, norm = 'frobenius' *)
Definition error_norm_time n (cov comp_cov : seq 'M[R]_n) (scaling squared : bool) : xR :=
  xmean [seq error_norm xy.1 xy.2 scaling squared false false | xy <- zip cov comp_cov].
(** utils.py:295-306. [matrix_rank] is np.linalg.matrix_rank. Two arrays of different lengths are subtracted only if one of them has length 1 *)
Definition broadcast (a b : seq nat) : option (seq (nat * nat)) :=
  if size a == size b then Some (zip a b)
  else if a is [:: x] then Some [seq (x, y) | y <- b]
  else if b is [:: y] then Some [seq (x, y) | x <- a]
  else None.
Definition error_rank n (matrix_rank : 'M[R]_n -> nat) (ells_true ells_pred : seq 'M[R]_n) : res xR :=
  match broadcast [seq matrix_rank l | l <- ells_true] [seq matrix_rank l | l <- ells_pred] with
  | Some ab => Val (xmean [seq Fin `|xy.1%:R - xy.2%:R| | xy <- ab])
  | None => Raise ValueError
  end.
