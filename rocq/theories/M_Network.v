(** Model of read_network (regain/utils.py:193-249). The text file is given as its rows; a gene is identified by its number (the code supposes
    names of the form G1, G2, ...). pandas.DataFrame.sort_values is an argument. *)
From Coq Require Import Reals ZArith.
From mathcomp Require Import all_ssreflect all_algebra.
From Verif Require Import RStruct.
Import Order.TTheory GRing.Theory Num.Theory.

Set Implicit Arguments.
Unset Strict Implicit.
Unset Printing Implicit Defensive.
Local Open Scope ring_scope.

(** two genes and the weight of their interaction *)
Definition row := (nat * nat * R)%type.
(** the frame: a value for each pair of genes *)
Definition frame := nat -> nat -> R.

(** line 235 *)
Definition genes (nn : seq row) : seq nat := sort leq (undup [seq r.1.1 | r <- nn]).
(** lines 236, 238: how many rows are kept, for a threshold that is not negative *)
Definition n_kept (nn : seq row) (threshold : R) (full_network : bool) : nat :=
  let d := if full_network then 2%N else 1%N in
  (d * Z.to_nat (Int_part ((size nn)%:R * threshold / d%:R)))%N.
(** net.loc[i, j] = net.loc[j, i] = w, for two genes of the frame *)
Definition set_both (net : frame) (i j : nat) (w : R) : frame :=
  fun a b => if ((a == i) && (b == j)) || ((a == j) && (b == i)) then w else net a b.
(** lines 242-244. [None]: a gene is not among the labels, the frame is enlarged by a row and a column of nan *)
Fixpoint add_rows (columns : seq nat) (nn : seq row) (net : frame) : option frame :=
  match nn with
  | [::] => Some net
  | (i, j, w) :: nn' =>
    if 0 < w then if (i \in columns) && (j \in columns) then add_rows columns nn' (set_both net i j w) else None
    else add_rows columns nn' net
  end.
(** lines 246-247 *)
Definition fill_diag (columns : seq nat) (net : frame) : frame :=
  fun a b => if a == b then \sum_(j <- columns) net a j else net a b.
(** lines 234-249 *)
Definition read_network (sort_values : seq row -> seq row) (nn : seq row) (threshold : R) (full_network fill_diagonal : bool) :
    option (seq nat * frame) :=
  let columns := genes nn in
  let nn := take (n_kept nn threshold full_network) (sort_values nn) in
  match add_rows columns nn (fun _ _ => 0) with
  | None => None
  | Some net => Some (columns, if fill_diagonal then fill_diag columns net else net)
  end.
