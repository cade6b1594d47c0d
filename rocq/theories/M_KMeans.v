(** Model of graph_k_means (regain/clustering.py:61-79). *)
From Coq Require Import Reals.
From mathcomp Require Import all_ssreflect all_algebra.
From Verif Require Import RStruct NP M_Utils M_Scores.
Import Order.TTheory GRing.Theory Num.Theory.

Set Implicit Arguments.
Unset Strict Implicit.
Unset Printing Implicit Defensive.
Local Open Scope ring_scope.

Section KMeans.
Variable n : nat.
Implicit Types graphs reps : seq 'M[R]_n.

(** line 68: one row for each graph *)
Definition distance_rows graphs reps : seq (seq R) := [seq [seq graph_distance g r | r <- reps] | g <- graphs].
(** lines 69-71; the quotient is nan in a row of zeros *)
Definition similarity_row (row : seq R) : seq xR := let m := foldl np_max (head 0 row) row in [seq xsub (Fin 1) (xdiv x m) | x <- row].
Definition xdot (a b : seq xR) : xR := foldl xadd (Fin 0) [seq xmul xy.1 xy.2 | xy <- zip a b].
Definition kernel_of (distances : seq (seq R)) : seq (seq xR) :=
  let similarities := [seq similarity_row row | row <- distances] in
  [seq [seq xdot a b | b <- similarities] | a <- similarities].
(** line 72, np.argmin: the first smallest entry *)
Definition np_argmin (row : seq R) : nat := find (fun x => all (fun y => x <= y) row) row.
Definition assign (distances : seq (seq R)) : seq nat := [seq np_argmin row | row <- distances].
(** line 73; the graphs with a given label are never an empty list *)
Definition representative_of graphs : 'M[R]_n := match get_representative graphs with Val m => map_mx intr m | Raise _ => 0 end.
Definition update graphs (labels : seq nat) : seq 'M[R]_n :=
  [seq representative_of [seq gl.1 | gl <- zip graphs labels & gl.2 == v] | v <- sort leq (undup labels)].
(** one round *)
Definition step graphs reps : seq 'M[R]_n := update graphs (assign (distance_rows graphs reps)).

(** lines 66-79, for at least one graph. [labels_prev] is [None] for [-1] * len(graphs); [kernel] is [None] before it is bound.
    The result carries whether the warning is given *)
Fixpoint rounds (max_iter : nat) graphs reps (labels_prev : option (seq nat)) (kernel : option (seq (seq xR))) : res (seq (seq xR) * bool) :=
  match max_iter with
  | 0 => if kernel is Some k then Val (k, true) else Raise UnboundLocal
  | max_iter'.+1 =>
    if reps is [::] then Raise ValueError (* np.max over an empty axis *)
    else
      let distances := distance_rows graphs reps in
      let kernel := kernel_of distances in
      let labels := assign distances in
      if Some labels == labels_prev then Val (kernel, false)
      else rounds max_iter' graphs (update graphs labels) (Some labels) (Some kernel)
  end.
(** [ixs]: the shuffled indexes *)
Definition graph_k_means (ixs : seq nat) graphs (k max_iter : nat) : res (seq (seq xR) * bool) :=
  rounds max_iter graphs [seq nth 0 graphs i | i <- take k ixs] None None.
End KMeans.
