(** Model of make_cluster_representative (regain/datasets/kernels.py:594-690).

    Random numbers are arguments: the graphs of nx.random_regular_graph, the numbers of np.random.rand, and what
    np.random.shuffle does to a list. Numbers are exact reals. The samples, the distances and the agglomerative clustering
    of lines 671-678 are not modelled. *)
From Coq Require Import Reals.
From mathcomp Require Import all_ssreflect all_algebra.
From Verif Require Import RStruct NP.
Import Order.TTheory GRing.Theory Num.Theory.

Set Implicit Arguments.
Unset Strict Implicit.
Unset Printing Implicit Defensive.
Local Open Scope ring_scope.

(** the exceptions *)
Inductive cerr := CZeroDivisionError | CAssertionError | CIndexError.
Inductive cres (T : Type) := COk of T | CRaise of cerr.
Arguments CRaise {T} _.

(** lines 620-621: np.arange(0, T, step) and the last time; arange raises ZeroDivisionError on a step of zero *)
Definition positions (T n_clusters : nat) : cres (seq nat) :=
  let step := (T %/ n_clusters.+1)%N in
  if step is 0 then CRaise CZeroDivisionError
  else COk ([seq (i * step)%N | i <- iota 0 ((T + step).-1 %/ step)] ++ [:: T.-1]).
(** lines 623-632 without shuffle; [given] is the parameter cluster_series. np.tile(range(k), m)[:len] *)
Definition tile (k m : nat) : seq nat := flatten (nseq m (iota 0 k)).
Definition series_of (given : option (seq nat)) (k len : nat) : cres (seq nat) :=
  match given with
  | None => if k is 0 then CRaise CZeroDivisionError else COk (take len (tile k (len %/ k).+1))
  | Some s => if size s == len then COk s else CRaise CAssertionError
  end.
(** line 606 *)
Definition n_clusters_of (given : option (seq nat)) (k : nat) : nat := if given is Some s then size (undup s) else k.

Section Rep.
Variable n : nat.
Notation M := 'M[R]_n.
Notation ij := ('I_n * 'I_n)%type.

(** all the entries of a matrix, row by row *)
Definition entries : seq ij := [seq (i, j) | i <- enum 'I_n, j <- enum 'I_n].
(** lines 613-616: the adjacency matrix of [edge], whose non-zero entries are overwritten, row by row, by the numbers drawn *)
Definition weight_ix (edge : rel 'I_n) (i j : 'I_n) : nat := index (i, j) [seq x <- entries | edge x.1 x.2].
Definition rep_matrix (edge : rel 'I_n) (rand : nat -> R) : M :=
  \matrix_(i, j) if i == j then 1 else if edge i j then rand (weight_ix edge i j) * (45%:R / 100%:R) else 0.

(** lines 646-647: the non-zero entries of diffs, row by row *)
Definition differs (new target : M) : seq ij := [seq x <- entries | (new x.1 x.2 != 0) != (target x.1 x.2 != 0)].
(** M[x, y] = v *)
Definition set_at (A : M) (x y : 'I_n) (v : R) : M := \matrix_(i, j) if (i == x) && (j == y) then v else A i j.
(** lines 659-665: one of the entries drawn. [old] is the matrix before the step; diffs[x, y] == -1 is [old x y = 0] and
    [target x y <> 0] *)
Definition change (old target : M) (new : M) (xy : ij) (v : R) : M :=
  let: (x, y) := xy in
  let w := if (old x y == 0) && (target x y != 0) then v * (20%:R / 100%:R) else 0 in
  let new := set_at new x y w in set_at new y x (new x y).
(** lines 645-666. [shuffled]: the list of the entries that differ, shuffled; [rand j]: the number drawn for the j-th of them *)
Definition one_step (epc : nat) (shuffle : seq ij -> seq ij) (rand : nat -> R) (target old : M) : M :=
  let picks := take epc (shuffle (differs old target)) in
  foldl (fun new (xj : ij * nat) => change old target new xj.1 (rand xj.2)) old (zip picks (iota 0 (size picks))).
(** lines 650-653: int((number of differing entries / 2) // (how_many + 1)), at least one *)
Definition edges_per_change (start target : M) (how_many : nat) : nat :=
  let e := (size (differs start target) %/ (2 * how_many.+1))%N in if e == 0%N then 1%N else e.
(** lines 641-666; [i] counts the steps. The test [diff == ()] of line 648 is never true: np.where of a matrix is a pair *)
Fixpoint path_from (epc : nat) (shuffle : nat -> seq ij -> seq ij) (rand : nat -> nat -> R) (target cur : M) (i steps : nat) : seq M :=
  match steps with
  | 0 => [::]
  | steps'.+1 => let new := one_step epc (shuffle i) (rand i) target cur in new :: path_from epc shuffle rand target new i.+1 steps'
  end.
Definition segment (shuffle : nat -> seq ij -> seq ij) (rand : nat -> nat -> R) (start target : M) (how_many : nat) : seq M :=
  start :: path_from (edges_per_change start target how_many) shuffle rand target start 0 how_many.

(** lines 637-668: [pos] and [series] have the same length; range(how_many) is empty when how_many is -1. A label that is not an
    index of [adjacencies] raises IndexError *)
Fixpoint segments (adj : seq M) (shuffle : nat -> nat -> seq ij -> seq ij) (rand : nat -> nat -> nat -> R)
    (pos series : seq nat) (k : nat) : cres (seq M) :=
  match pos, series with
  | p :: ((q :: _) as pos'), a :: ((b :: _) as series') =>
    if (a < size adj)%N && (b < size adj)%N then
      match segments adj shuffle rand pos' series' k.+1 with
      | COk rest => COk (segment (shuffle k) (rand k) (nth 0 adj a) (nth 0 adj b) (q - p).-1 ++ rest)
      | CRaise e => CRaise e
      end
    else CRaise CIndexError
  | _, _ => COk [::]
  end.
(** lines 604-669: the list of precision matrices and the series of clusters. [adj]: the matrices of lines 610-618; line 669 appends
    the last target *)
Definition make_cluster_representative (adj : nat -> seq M) shuffle rand (T k : nat) (given : option (seq nat)) : cres (seq M * seq nat) :=
  let k := n_clusters_of given k in
  match positions T k with
  | CRaise e => CRaise e
  | COk pos =>
    match series_of given k (size pos) with
    | CRaise e => CRaise e
    | COk series =>
      match segments (adj k) shuffle rand pos series 0 with
      | CRaise e => CRaise e
      | COk thetas => COk (rcons thetas (nth 0 (adj k) (last 0%N series)), series)
      end
    end
  end.
(** line 672: np.repeat(np.arange(len(covs)), n_samples) *)
Definition time_labels (thetas : seq M) (n_samples : nat) : seq nat := flatten [seq nseq n_samples t | t <- iota 0 (size thetas)].

(** scipy.linalg.pinvh reads the lower triangle only (line 670): the matrix whose inverse is the covariance of the samples *)
Definition lower_sym (A : M) : M := \matrix_(i, j) if (j <= i)%N then A i j else A j i.
End Rep.
