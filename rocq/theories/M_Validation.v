(** Model of check_array_dimensions, check_input_3d and check_input (regain/validation.py:71-117). *)
From Coq Require Import Reals String.
From mathcomp Require Import all_ssreflect all_algebra.
From Verif Require Import RStruct M_Utils.
Import Order.TTheory GRing.Theory Num.Theory.

Set Implicit Arguments.
Unset Strict Implicit.
Unset Printing Implicit Defensive.
Local Open Scope ring_scope.

(** a two-dimensional array: shape and entries *)
Record table := Table { n_rows : nat; n_cols : nat; entry : nat -> nat -> R }.
(** what a caller may pass: a list of two-dimensional arrays, an array with 2, 3 or another number of dimensions, a sparse matrix. *)
Inductive data :=
| DList of seq table
| DArray2 of table
| DArray3 (n0 n1 n2 : nat) of (nat -> nat -> nat -> R)
| DArrayN (ndim : nat)
| DSparse.

(** validation.py:71-92 with n_dimensions = 3; warnings are not modelled. The result is a list of two-dimensional arrays, with [true] if it is a
    python list. X.transpose(2, 0, 1) has entry [i, j, k] equal to X[j, k, i] *)
Definition check_array_dimensions (X : data) (time_on_axis : string) : res (bool * seq table) :=
  match X with
  | DList l => Val (true, l)
  | DArray2 x => Val (false, [:: x])
  | DArray3 n0 n1 n2 x =>
    if String.eqb time_on_axis "last"
    then Val (false, [seq Table n0 n1 (fun j k => x j k i) | i <- iota 0 n2])
    else Val (false, [seq Table n1 n2 (fun j k => x i j k) | i <- iota 0 n0])
  | DArrayN _ => Raise ValueError
  | DSparse => Raise AttributeError
  end.
(** sklearn.utils.check_array(x, ensure_min_features=2, ensure_min_samples=2) of a two-dimensional array of finite numbers *)
Definition check_array (x : table) : bool := (2 <= n_rows x)%N && (2 <= n_cols x)%N.

(** validation.py:95-113. [ragged]: whether np.array makes an array of objects of arrays with different numbers of rows and the same number of
    columns (numpy before 1.24) or raises ValueError. With different numbers of columns the outcome is ValueError in both cases: np.array raises
    it, or line 105 does. *)
Definition check_input_3d (ragged : bool) (X : data) (time_on_axis : string) : res (seq table * seq nat * nat * nat) :=
  match check_array_dimensions X time_on_axis with
  | Raise e => Raise e
  | Val (is_list, l) =>
    if ~~ all check_array l then Raise ValueError
    else if ~~ ragged && (size (undup [seq n_rows x | x <- l]) > 1)%N then Raise ValueError
    else if is_list then
      if size (undup [seq n_cols x | x <- l]) != 1%N then Raise ValueError
      else Val (l, [seq n_rows x | x <- l], head 0%N [seq n_cols x | x <- l], size l)
    else if l is x :: _ then Val (l, [seq n_rows x | x <- l], n_cols x, size l)
    else Raise IndexError (* np.array([]).shape[2] *)
  end.

(** validation.py:108-117. [y]: whether labels are given *)
Definition check_input (ragged : bool) (X : data) (y : bool) (time_on_axis : string) : res (seq table * seq nat * nat * nat) :=
  if X is DSparse then Raise TypeError
  else if ~~ y then check_input_3d ragged X time_on_axis
  else Raise ValueError.
