(** Model of regain/model_selection/stability_optimization.py (instability and selection) and of
    build_adjacency_matrix (generalized_linear_model/base.py). *)
From Coq Require Import Reals String.
From mathcomp Require Import all_ssreflect all_algebra.
From Verif Require Import RStruct NP Str M_Utils.
Import Order.TTheory GRing.Theory Num.Theory.

Set Implicit Arguments.
Unset Strict Implicit.
Unset Printing Implicit Defensive.
Local Open Scope ring_scope.

(** scipy.special.binom(p, 2) *)
Definition binom2 (p : nat) : R := 'C(p, 2)%:R.

(** stability_optimization.py:71-87: for each entry above the diagonal, the fraction of the
    estimators in which it is nonzero. A two-dimensional precision is one slice (T = 1): that
    branch of the code is the same computation with n_times = 1. *)
Definition mean_connectivity n T (precisions : seq ('I_T -> 'M[R]_n)) (t : 'I_T) (i j : 'I_n) : R :=
  foldl (fun acc (c : 'I_T -> 'M[R]_n) => acc + (if c t i j != 0 then 1 else 0)) 0 precisions
  / (size precisions)%:R.
Definition xi_sum n T (precisions : seq ('I_T -> 'M[R]_n)) : R :=
  \sum_(t < T) \sum_(i < n) \sum_(j < n | (i < j)%N)
    2%:R * mean_connectivity precisions t i j * (1 - mean_connectivity precisions t i j).
(** stability_optimization.py:54-92; precisions[0] of an empty list raises IndexError *)
Definition global_instability n T (precisions : seq ('I_T -> 'M[R]_n)) : res xR :=
  if size precisions == 0%N then Raise IndexError
  else Val (xdiv (xi_sum precisions) (binom2 n * T%:R)).
(** stability_optimization.py:154-182; [theta_hat] is a numpy scalar, so the quotient may be nan *)
Definition upper_bound n T (precisions : seq ('I_T -> 'M[R]_n)) : res xR :=
  if size precisions == 0%N then Raise IndexError
  else let theta := xdiv (xi_sum precisions) (T%:R * n%:R * (n%:R - 1) / 2%:R) in
       Val (xmul (xmul (Fin 4%:R) theta) (xsub (Fin 1) theta)).

(** stability_optimization.py:185-198. A dict is an association list with distinct keys in
    insertion order; dict(pairs) keeps the first position and the last value of each key. *)
Definition pydict (V : Type) := seq (string * V).
Fixpoint dict_set V (d : pydict V) (k : string) (v : V) : pydict V :=
  match d with
  | [::] => [:: (k, v)]
  | kv :: d' => if kv.1 == k then (k, v) :: d' else kv :: dict_set d' k v
  end.
Definition dict_of V (pairs : seq (string * V)) : pydict V :=
  foldl (fun d kv => dict_set d kv.1 kv.2) [::] pairs.
Inductive param_grid_arg := OneGrid of pydict (seq R) | Grids of seq (pydict (seq R)).
(** np.sort(v)[::-1] *)
Definition sort_desc (v : seq R) : seq R := rev (sort (fun x y : R => x <= y) v).
Definition check_param_order (param_grid : param_grid_arg) : pydict (seq R) :=
  let grids := match param_grid with OneGrid g => [:: g] | Grids l => l end in
  let pg := flatten [seq [seq (nv.1, sort_desc nv.2) | nv <- p] | p <- grids] in
  dict_of pg.

(** np.max of a non-empty list of finite numbers *)
Definition np_amax (x : R) (l : seq R) : R := foldl np_max x l.
(** stability_optimization.py:591-594: [array_means[0]] + [np.max(array_means[:i]) for i in range(1, size)] *)
Definition monotonize (raw : seq R) : seq R :=
  head 0 raw :: [seq np_amax (head 0 raw) (take i raw) | i <- iota 1 (size raw).-1].

(** x < y on extended numbers without NaN *)
Definition xltb (x y : xR) : bool :=
  match x, y with
  | Fin a, Fin b => a < b
  | NInf, Fin _ | NInf, PInf | Fin _, PInf => true
  | _, _ => false
  end.
(** scipy.stats.rankdata(xs, method="min") *)
Definition rank_min (xs : seq xR) : seq nat := [seq (count (fun y => xltb y x) xs).+1 | x <- xs].
(** np.argmin: first index of the smallest value *)
Fixpoint argmin_from (best besti i : nat) (l : seq nat) : nat :=
  match l with
  | [::] => besti
  | x :: l' => if (x < best)%N then argmin_from x i i.+1 l' else argmin_from best besti i.+1 l'
  end.
Definition argmin (l : seq nat) : nat := argmin_from (head 0%N l) 0 1 (behead l).
(** stability_optimization.py:622-631 (mode "stars") followed by 455-459: the selected index and the
    stored score. 0.05 is 1/20. *)
Definition discard (m : R) : xR := if m > 1 / 20%:R then NInf else Fin m.
Definition stars_select (raw : seq R) : nat * xR :=
  let mono := [seq discard m | m <- monotonize raw] in
  let best := argmin (rank_min [seq xneg m | m <- mono]) in
  (best, nth NaN mono best).

(** last index satisfying a test, if any: np.where(cond)[0][-1] *)
Definition last_where (P : pred R) (l : seq R) : option nat :=
  let w := [seq i <- iota 0 (size l) | P (nth 0 l i)] in
  if size w == 0%N then None else Some (last 0%N w).
(** stability_optimization.py:597-621 (mode "gstars"): [graphlets], [raw], [ubs] are the arrays of
    graphlet instabilities, global instabilities and upper bounds, one entry per candidate *)
Definition gstars_bounds (raw ubs : seq R) : nat * nat :=
  let mono := monotonize raw in
  let lb := if last_where (fun m => m <= 1 / 20%:R) mono is Some i then i else size mono in
  let ub := if last_where (fun m => m <= 1 / 20%:R) (monotonize ubs) is Some i then i else 0%N in
  (lb, ub).
Definition gstars_select (graphlets raw ubs : seq R) : nat :=
  let: (lb, ub) := gstars_bounds raw ubs in
  let masked := [seq if ((i < ub) || (lb < i))%N then PInf else Fin (nth 0 graphlets i)
                | i <- iota 0 (size graphlets)] in
  argmin (rank_min masked).

(** generalized_linear_model/base.py:19-36. [neighbours i] is the coefficient vector of node i: its
    k-th entry belongs to the k-th other node. *)
Inductive how := Union | Intersection | OtherHow.
(** out[i, where] = arr *)
Definition set_row n (out : 'M[R]_n) (i : 'I_n) (arr : 'rV[R]_n.-1) : 'M[R]_n :=
  \matrix_(i', j) if i' == i then (if unlift i j is Some k then arr 0 k else out i' j) else out i' j.
(** (out + out.T) / 2 *)
Definition half_sum n (out : 'M[R]_n) : 'M[R]_n := map_mx (fun x => x / 2%:R) (out + out^T).
Definition build_adjacency_matrix n (neighbours : 'I_n -> 'rV[R]_n.-1) (h : how) : 'M[R]_n :=
  match h with
  | Union => foldl (fun out i => half_sum (set_row out i (neighbours i))) 1%:M (enum 'I_n)
  | Intersection =>
    let out := foldl (fun out i => set_row out i (neighbours i)) 1%:M (enum 'I_n) in
    let binarized : 'M[R]_n := map_mx (fun x => if x != 0 then 1 else 0) out in
    let binarized := half_sum binarized in
    let binarized := map_mx (fun x => if x < 1 then 0 else x) binarized in
    let out := half_sum out in
    \matrix_(i, j) if binarized i j == 0 then 0 else out i j
  | OtherHow => 1%:M
  end.
