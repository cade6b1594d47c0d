(** Model of regain/model_selection/stability_optimization.py: graphlet_instability, the sampling size and the order of the fits
    in GraphicalModelStabilitySelection.fit, and the table built by _format_results. *)
From Coq Require Import Reals String.
From mathcomp Require Import all_ssreflect all_algebra.
From Verif Require Import RStruct NP Str M_Utils M_Stab.
Import Order.TTheory GRing.Theory Num.Theory.

Set Implicit Arguments.
Unset Strict Implicit.
Unset Printing Implicit Defensive.
Local Open Scope ring_scope.

(** * graphlet_instability *)

(** lines 117, 132: the edges of nx.from_numpy_array(p - diag(diag(p))): pairs i < j with a nonzero entry at (i, j) or (j, i).
    No loops: the diagonal is zero. networkx lists the same pairs, in an order of its own. *)
Definition graph_edges n (p : 'M[R]_n) : seq ('I_n * 'I_n) :=
  let q := p - diag_mx (\row_i p i i) in
  filter (fun e : 'I_n * 'I_n => (e.1 < e.2)%N && ((q e.1 e.2 != 0) || (q e.2 e.1 != 0))) (enum [finType of 'I_n * 'I_n]).

(** what the get_precision methods return: matrices, or arrays of [T] matrices *)
Inductive precisions_of n := Flat of seq 'M[R]_n | Timed (T : nat) of seq ('I_T -> 'M[R]_n).

(** lines 121-124, 144-150: the list of the distances of the pairs i < j *)
Definition pair_distances A (d : A -> A -> R) (x0 : A) (l : seq A) : seq R :=
  flatten [seq [seq d (nth x0 l i) (nth x0 l j) | j <- iota i.+1 (size l - i.+1)] | i <- iota 0 (size l)].
(** line 151: 2 / (n * (n - 1)) * np.sum(distances) *)
Definition pair_mean (n : nat) (distances : seq R) : res R :=
  if (n * (n - 1) == 0)%N then Raise ZeroDivisionError
  else Val (2%:R / (n * (n - 1))%N%:R * \sum_(x <- distances) x).
(** lines 89-151. [gdv] is netanalytics' graphlet_degree_vectors (the nodes are 0, ..., n - 1), [gcd] the second component of
    its GCD. precisions[0] raises without estimators; line 150 divides by n_times. *)
Definition graphlet_instability n G (gdv : seq ('I_n * 'I_n) -> G) (gcd : G -> G -> R) (estimators : precisions_of n) : res R :=
  match estimators with
  | Flat [::] | Timed _ [::] => Raise IndexError
  | Flat precisions =>
    let gdvs := [seq gdv (graph_edges p) | p <- precisions] in
    pair_mean (size precisions) (pair_distances gcd (gdv [::]) gdvs)
  | Timed T precisions =>
    let gdvs := [seq (fun t => gdv (graph_edges (p t))) | p <- precisions] in
    if (T == 0%N) && (1 < size precisions)%N then Raise ZeroDivisionError
    else pair_mean (size precisions)
           (pair_distances (fun g h => (\sum_t gcd (g t) (h t)) / T%:R) (fun=> gdv [::]) gdvs)
  end.

(** * fit: the size of the subsamples *)

(** line 319: int(min(10 * np.sqrt(n), n - 10)); the integer part of 10 sqrt(n) is that of sqrt(100 n) (exact arithmetic) *)
Definition default_size (n : nat) : int := Num.min (Nat.sqrt (100 * n)%N)%:Z (n%:Z - 10%:Z).
(** lines 318-338: [stored] is self.sampling_size before the call (None: never set), [classes] the number of distinct labels
    when y is given. Returns self.sampling_size after, which is the train_size of the splits. *)
Definition fit_size (stored : option int) (n : nat) (classes : option nat) : int :=
  let s := if stored is Some s then s else default_size n in
  match classes with
  | Some k => if (s %% k%:Z)%Z != 0 then (s %/ k%:Z)%Z * k%:Z else s
  | None => s
  end.

(** * fit: the order of the fits *)

(** lines 396-431: one result for each pair of itertools.product(candidates, splits); [run c s]: the result of _fit_and_score.
    cv.split is evaluated once by product, so that the splits are the same for all the candidates. *)
Definition all_out C S O (run : C -> S -> O) (candidates : seq C) (splits : seq S) : res (seq O) :=
  let out := [seq run c s | c <- candidates, s <- splits] in
  if (size out < 1)%N then Raise ValueError else Val out.

(** * _format_results *)

(** line 523: np.array(array).reshape(n_candidates, n_splits)[c, s] *)
Definition reshaped O (x0 : O) (n_splits : nat) (out : seq O) (c s : nat) : O := nth x0 out (c * n_splits + s)%N.
(** np.average of a row: [None]: the weights are equal. np.average raises when the weights sum to zero. *)
Definition np_average (w : option (seq R)) (row : seq R) : res R :=
  match w with
  | None => Val ((\sum_(x <- row) x) / (size row)%:R)
  | Some w =>
    if \sum_(x <- w) x == 0 then Raise ZeroDivisionError
    else Val ((\sum_(i <- iota 0 (size row)) nth 0 w i * nth 0 row i) / (\sum_(x <- w) x))
  end.
(** lines 519-545: the columns that _store writes: the splits, the means, the standard deviations and the ranks *)
Record table := Table { tb_splits : seq (seq R); tb_mean : seq R; tb_std : seq R; tb_rank : seq nat }.
Fixpoint res_all A (l : seq (res A)) : res (seq A) :=
  match l with
  | [::] => Val [::]
  | Raise e :: _ => Raise e
  | Val x :: l' => match res_all l' with Val xs => Val (x :: xs) | Raise e => Raise e end
  end.
Definition store (n_candidates n_splits : nat) (array : seq R) (weights : option (seq R)) : res table :=
  let row c := [seq reshaped 0 n_splits array c s | s <- iota 0 n_splits] in
  match res_all [seq np_average weights (row c) | c <- iota 0 n_candidates] with
  | Raise e => Raise e
  | Val means =>
    match res_all [seq np_average weights [seq (x - nth 0 means c) ^+ 2 | x <- row c] | c <- iota 0 n_candidates] with
    | Raise e => Raise e
    | Val vars =>
      Val (Table [seq [seq reshaped 0 n_splits array c s | c <- iota 0 n_candidates] | s <- iota 0 n_splits]
             means [seq sqrt v | v <- vars] (rank_min [seq Fin (- m) | m <- means]))
    end
  end.

(** lines 552-568: the masked arrays of the parameters; [None]: masked. The first occurrence of a name makes an all-masked
    array; setting an entry unmasks it. *)
Definition dict_get V (d : pydict V) (k : string) : option V := if [seq kv.2 | kv <- d & kv.1 == k] is v :: _ then Some v else None.
Definition set_cell V (row : seq (option V)) (i : nat) (v : V) : seq (option V) := set_nth None row i (Some v).
Definition param_results V (candidates : seq (pydict V)) : pydict (seq (option V)) :=
  let n := size candidates in
  foldl (fun d (ci : pydict V * nat) =>
    foldl (fun d (kv : string * V) =>
      let key := ("param_" ++ kv.1)%string in
      let row := odflt (nseq n None) (dict_get d key) in
      dict_set d key (set_cell row ci.2 kv.2)) d ci.1) [::] (zip candidates (iota 0 n)).

(** * fit: the selection *)

(** lines 444-461: [multi]: self.multimetric_; [refit]: a callable's answer, a scorer name, or a flag. [rank name]: the column
    rank_test_<name>. Returns best_index_ (None: not set). *)
Inductive refit_arg := RefitCall of option int | RefitName of string | RefitFlag of bool.
Definition refit_true (r : refit_arg) : bool := if r is RefitFlag b then b else if r is RefitName s then s != ""%string else true.
Definition best_index (multi : bool) (scorers : seq string) (refit : refit_arg) (rank : string -> seq nat) (n_candidates : nat) :
    res (option int) :=
  let bad := match refit with
             | RefitFlag false => false
             | RefitCall _ => false
             | RefitName s => s \notin scorers
             | RefitFlag true => true
             end in
  if multi && bad then Raise ValueError
  else if refit_true refit || ~~ multi then
    match refit with
    | RefitCall None => Raise TypeError
    | RefitCall (Some i) => if (i < 0) || (i >= n_candidates%:Z) then Raise IndexError else Val (Some i)
    | RefitName s => Val (Some (argmin (rank (if multi then s else "instability"%string)))%:Z)
    | RefitFlag _ => Val (Some (argmin (rank "instability"%string))%:Z)
    end
  else Val None.
