(** Model of the second versions of the derivatives in regain/bayesian/_laplace_approximation.py:48-95 and of objective_similarity
    (regain/covariance/kernel_time_graphical_lasso_.py:335-346). *)
From Coq Require Import Reals.
From mathcomp Require Import all_ssreflect all_algebra.
From Verif Require Import RStruct M_Utils.
Import Order.TTheory GRing.Theory Num.Theory.

Set Implicit Arguments.
Unset Strict Implicit.
Unset Printing Implicit Defensive.
Local Open Scope ring_scope.

Section V2.
Variable p : nat.
(** lines 52-53: ones[i, j] = ones[j, i] = 1 *)
Definition ones (i j : 'I_p.+1) : 'M[R]_p.+1 := \matrix_(a, b) (((a == i) && (b == j)) || ((a == j) && (b == i)))%:R.
(** lines 48-56, for an array of floats (np.empty_like of an array of integers would truncate) *)
Definition first_derivative_h_version2 (pinvh : 'M[R]_p.+1 -> 'M[R]_p.+1) (D K : 'M[R]_p.+1) (delta : R) : 'M[R]_p.+1 :=
  \matrix_(i, j) (- \tr ((D - (delta - 2%:R) *: pinvh K) *m ones i j) / 2%:R).

(** line 65: np.nonzero(np.triu(K != 0)), row by row *)
Definition nonzero_triu (K : 'M[R]_p.+1) : seq ('I_p.+1 * 'I_p.+1) :=
  filter (fun ij : 'I_p.+1 * 'I_p.+1 => (ij.1 <= ij.2)%N && (K ij.1 ij.2 != 0)) [seq (i, j) | i <- enum 'I_p.+1, j <- enum 'I_p.+1].
(** line 61: np.triu(K != 0, 1).sum() *)
Definition num_edges (K : 'M[R]_p.+1) : nat :=
  size (filter (fun ij : 'I_p.+1 * 'I_p.+1 => (ij.1 < ij.2)%N && (K ij.1 ij.2 != 0)) [seq (i, j) | i <- enum 'I_p.+1, j <- enum 'I_p.+1]).
(** line 89: (A * B.T).sum() of the two by two blocks of lines 79-80 *)
Definition block_sum (Kinv : 'M[R]_p.+1) (i j l m : 'I_p.+1) : R :=
  let A : 'M[R]_2 := \matrix_(r, c) Kinv (if r == 0 then l else m) (if c == 0 then j else i) in
  let B : 'M[R]_2 := \matrix_(r, c) Kinv (if r == 0 then i else j) (if c == 0 then m else l) in
  \sum_r \sum_c A r c * B c r.
(** lines 58-91. [argsort]: np.argsort (not stable). With fewer entries than dof the index Vi[ei] raises IndexError; the size of H is the
    number of entries: the theorems show that it is dof whenever nothing is raised. The result keeps the entries in their order. *)
Definition second_derivative_h_version2 (pinvh : 'M[R]_p.+1 -> 'M[R]_p.+1) (argsort : seq nat -> seq nat) (D K : 'M[R]_p.+1) (delta : R) :
    res {V : seq ('I_p.+1 * 'I_p.+1) & 'M[R]_(size V)} :=
  let K_inv := pinvh K in
  let dof := (num_edges K + p.+1)%N in
  let nz := nonzero_triu K in
  let idx := argsort [seq val (ij : 'I_p.+1 * 'I_p.+1).2 | ij <- nz] in
  let V := [seq nth (ord0, ord0) nz k | k <- idx] in
  if (size V < dof)%N then Raise IndexError
  else
    let at_ (e : nat) := nth (ord0, ord0) V e in
    let h (e f : nat) := block_sum K_inv (at_ e).1 (at_ e).2 (at_ f).1 (at_ f).2 in
    Val (existT _ V (\matrix_(e, f) (- (if (e <= f)%N then h e f else h f e) * (delta - 2%:R) / 2%:R))).
End V2.

(** np.triu_indices(n, 1), row by row *)
Definition strict_triu (n : nat) : seq (nat * nat) := flatten [seq [seq (i, j) | j <- iota i.+1 (n - i.+1)] | i <- iota 0 n].
(** lines 335-346: theta an array (an array of another length does not fit: ValueError; with one entry it is broadcast). np.diag(kernel, m)
    has the entries (i, i + m). The assignment to idx[::-1] fills the lower triangle, which is not read. *)
Definition objective_similarity n (theta : seq R) (T : nat) (K : nat -> 'M[R]_n) (psi : 'M[R]_n -> R) : res R :=
  let idx := strict_triu T in
  if (size theta != size idx) && (size theta != 1%N) then Raise ValueError
  else
    let th k := if size theta == 1%N then nth 0 theta 0 else nth 0 theta k in
    let kernel i j : R := if (i, j) \in idx then th (index (i, j) idx) else if (j, i) \in idx then th (index (j, i) idx) else (i == j)%:R in
    Val (\sum_(1 <= m < T) \sum_(0 <= i < T - m) psi (K (i + m)%N - K i) * kernel i (i + m)%N).
