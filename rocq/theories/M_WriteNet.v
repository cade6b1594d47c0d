(** Model of write_network (regain/utils.py:188-190) and of reading its file back with read_network (regain/utils.py:193-249). *)
From Coq Require Import Reals.
From mathcomp Require Import all_ssreflect all_algebra.
From Verif Require Import RStruct M_Utils M_Network.
Import Order.TTheory GRing.Theory Num.Theory.

Set Implicit Arguments.
Unset Strict Implicit.
Unset Printing Implicit Defensive.
Local Open Scope ring_scope.

(** a line of the text: an empty cell is None, which pandas.read_csv reads as nan *)
Definition line := (option nat * option nat * R)%type.
(** utils.py:190: dataframe.stack() lists the entries row by row (there is no nan here); to_csv writes a header unless pandas is older than
    1.0, when the default for a Series was not to: empty cells for the two index levels and the name of the series, 0 *)
Definition write_network (header : bool) (index columns : seq nat) (W : frame) : seq line :=
  (if header then [:: (None, None, 0)] else [::]) ++ [seq (Some i, Some j, W i j) | i <- index, j <- columns].
(** the rows of a text without empty cells *)
Definition to_row (l : line) : option row := if l is (Some i, Some j, w) then Some (i, j, w) else None.
(** utils.py:233-249 on a text: sorted(nn[0].unique(), key=lambda x: int(x[1:])) is a TypeError when a label is nan. An empty cell in the second
    column only does not occur in what write_network writes: it is not distinguished. [None]: see M_Network *)
Definition read_lines (sort_values : seq row -> seq row) (text : seq line) (threshold : R) (full_network fill_diagonal : bool) :
    res (option (seq nat * frame)) :=
  if all (fun l => to_row l != None) text
  then Val (read_network sort_values (pmap to_row text) threshold full_network fill_diagonal)
  else Raise TypeError.
