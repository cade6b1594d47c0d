(** Specification vocabulary for the helpers of utils.py, scores.py, clustering.py. *)
From Coq Require Import Reals.
From mathcomp Require Import all_ssreflect all_algebra.
From Verif Require Import RStruct NP M_Utils S_Mat.
Import Order.TTheory GRing.Theory Num.Theory.

Set Implicit Arguments.
Unset Strict Implicit.
Unset Printing Implicit Defensive.
Local Open Scope ring_scope.

(** [leaves v l]: reading the atoms of the nested list [v] from left to right gives [l] *)
Inductive leaves A : pyval A -> list A -> Prop :=
| leaf_atom a : leaves (Atom a) [:: a]
| leaf_nil : leaves (PyList [::]) [::]
| leaf_cons x l r s : leaves x r -> leaves (PyList l) s -> leaves (PyList (x :: l)) (r ++ s).

(** [s] ends with [e] *)
Definition ends_with (C : eqType) (s e : seq C) : Prop := exists p, s = p ++ e.

(** the upper triangle (with diagonal), row by row *)
Definition triangle n (A : nat -> nat -> R) : seq R := [seq A i j | i <- iota 0 n, j <- iota i (n - i)].

(** rows of [X] whose label is [k], in order *)
Definition rows_of T (X : seq T) (y : seq nat) (k : nat) : seq T :=
  [seq xy.1 | xy <- zip X y & xy.2 == k].

(** np.linalg.cholesky succeeds on a symmetric matrix exactly when it is positive definite *)
Definition chol_ok n (chol : 'M[R]_n -> bool) : Prop := forall A, sym A -> (chol A <-> pd A).

(** number of positions satisfying [P] *)
Definition count_pos (I : finType) (P : I -> bool) : nat := #|[pred e | P e]|.

(** which positions structure_error looks at, and what it calls an edge there *)
Definition considered (I : finType) (dg : pred I) (no_diagonal : bool) (e : I) : bool :=
  ~~ (no_diagonal && dg e).
Definition is_edge (x : R) : bool := x != 0.
Definition is_pred_edge (thresholding : bool) (eps x : R) : bool :=
  (x != 0) && (thresholding ==> (eps <= `|x|)).

(** two weighted graphs have the same edges *)
Definition same_support n (g r : 'M[R]_n) : Prop := forall i j, (g i j == 0) = (r i j == 0).
(** number of ordered pairs of distinct nodes joined by an edge *)
Definition n_edges2 n (g : 'M[R]_n) : nat := #|[pred e : 'I_n * 'I_n | (e.1 != e.2) && (g e.1 e.2 != 0)]|.
(** number of unordered pairs of nodes joined in exactly one of the graphs *)
Definition edge_diff n (g r : 'M[R]_n) : nat :=
  #|[pred e : 'I_n * 'I_n | (e.1 < e.2)%N && ((g e.1 e.2 != 0) != (r e.1 e.2 != 0))]|.
(** the coefficient of node j in the regression of node i on the other nodes *)
Definition coef n (nb : 'I_n -> 'rV[R]_n.-1) (i j : 'I_n) : R :=
  if unlift i j is Some k then nb i 0 k else 0.
