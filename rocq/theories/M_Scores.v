(** Model of regain/scores.py and regain/clustering.py. *)
From Coq Require Import Reals.
From mathcomp Require Import all_ssreflect all_algebra.
From Verif Require Import RStruct NP M_Prox M_Loop M_GL M_Utils.
Import Order.TTheory GRing.Theory Num.Theory.

Set Implicit Arguments.
Unset Strict Implicit.
Unset Printing Implicit Defensive.
Local Open Scope ring_scope.

(** math.py:4-9 on one matrix: log|det| where the sign is positive, -inf elsewhere *)
Definition batch_logdet n (A : 'M[R]_n) : xR := if 0 < \det A then Fin (ln `|\det A|) else NInf.
(** scores.py:36-38 *)
Definition log_likelihood n (emp_cov precision : 'M[R]_n) : xR :=
  xsub (batch_logdet precision) (Fin (np_sum_mul emp_cov precision)).
(** np.sum(precision != 0) *)
Definition n_nonzero n (precision : 'M[R]_n) : nat := #|[pred e : 'I_n * 'I_n | precision e.1 e.2 != 0]|.
(** np.sum(precision != 0) - precision.shape[0]; can be negative *)
Definition of_nonzero n (precision : 'M[R]_n) : R := (n_nonzero precision)%:R - n%:R.
(** scores.py:46-50 *)
Definition BIC n (emp_cov precision : 'M[R]_n) : xR :=
  xsub (log_likelihood emp_cov precision) (Fin (of_nonzero precision)).
(** np.log *)
Definition np_log (x : R) : xR := if x < 0 then NaN else if x == 0 then NInf else Fin (ln x).
(** the penalty of scores.py:53-67, 70-84, 98-112, 115-130: [np.log(n) / n * k + 4 * epsilon *
    np.log(q) / n * k]. A zero [n] is a python ZeroDivisionError, not modelled (n > 0 in the theorems). *)
Definition ebic_penalty (n epsilon q k : R) : xR :=
  xadd (xmul (xmul (np_log n) (Fin (1 / n))) (Fin k))
       (xmul (xmul (xmul (Fin (4%:R * epsilon)) (np_log q)) (Fin (1 / n))) (Fin k)).
(** scores.py:53-67 *)
Definition EBIC p (emp_cov precision : 'M[R]_p) (n epsilon : R) : xR :=
  xsub (log_likelihood emp_cov precision) (ebic_penalty n epsilon p%:R (of_nonzero precision)).
(** scores.py:70-84 *)
Definition EBIC_m p (emp_cov precision : 'M[R]_p) (n epsilon : R) : xR :=
  xsub (log_likelihood emp_cov precision)
       (ebic_penalty n epsilon (p%:R * (p%:R - 1) / 2%:R) (of_nonzero precision)).
(** scores.py:41-43: sum over the batch (numpy order) *)
Definition log_likelihood_t n T (emp_cov precision : 'I_T -> 'M[R]_n) : xR :=
  foldl xadd (Fin 0) [seq log_likelihood (emp_cov t) (precision t) | t <- enum 'I_T].
(** np.sum(precision != 0) - precision.shape[1] * precision.shape[0] *)
Definition of_nonzero_t n T (precision : 'I_T -> 'M[R]_n) : R :=
  (\sum_t (n_nonzero (precision t))%:R) - n%:R * T%:R.
(** scores.py:87-95 *)
Definition BIC_t n T (emp_cov precision : 'I_T -> 'M[R]_n) : xR :=
  xsub (log_likelihood_t emp_cov precision) (Fin (of_nonzero_t precision)).
(** scores.py:98-112 *)
Definition EBIC_t p T (emp_cov precision : 'I_T -> 'M[R]_p) (n epsilon : R) : xR :=
  xsub (log_likelihood_t emp_cov precision)
       (ebic_penalty n epsilon (p%:R * T%:R) (of_nonzero_t precision)).
(** scores.py:115-130 *)
Definition EBIC_m_t p T (emp_cov precision : 'I_T -> 'M[R]_p) (n epsilon : R) : xR :=
  let q : R := p%:R * T%:R in
  xsub (log_likelihood_t emp_cov precision)
       (ebic_penalty n epsilon (q * (q - 1) / 2%:R) (of_nonzero_t precision)).

(** (g != 0).astype(int) *)
Definition binarise n (g : 'M[R]_n) : 'M[int]_n := map_mx (fun x => (x != 0 : int)) g.
(** clustering.py:36-44; an empty list raises UnboundLocalError (g_bin is not bound) *)
Definition get_representative n (graphs : seq 'M[R]_n) : res 'M[int]_n :=
  if size graphs == 0%N then Raise UnboundLocal else
  let bin_graphs := [seq binarise g | g <- graphs] in
  let sum_graph : 'M[int]_n := foldl (fun s g => s + g) 0 bin_graphs in
  Val (map_mx (fun x => (x == Posz (size graphs) : int)) sum_graph).
(** clustering.py:47-58, entry (i, j) of the table *)
Definition graph_distance n (g r : 'M[R]_n) : R :=
  let b_g := binarise g in
  let b_r := binarise r in
  let diff := b_r - b_g in
  let plus : R := (#|[pred e : 'I_n * 'I_n | diff e.1 e.2 == - 1]|)%:R / 2%:R in
  let less : R := (#|[pred e : 'I_n * 'I_n | diff e.1 e.2 == 1]|)%:R / 2%:R in
  plus + less.
Definition compute_distances n k l (graphs : 'I_k -> 'M[R]_n) (reps : 'I_l -> 'M[R]_n) : 'M[R]_(k, l) :=
  \matrix_(i, j) graph_distance (graphs i) (reps j).
(** clustering.py:69-72: similarities and kernel of one iteration (l > 0 representatives).
    np.max over an axis; the quotient may be nan *)
Definition row_max k l (d : 'M[R]_(k, l.+1)) (i : 'I_k) : R := foldl np_max (d i ord0) [seq d i j | j <- enum 'I_l.+1].
Definition similarities k l (d : 'M[R]_(k, l.+1)) (i : 'I_k) (j : 'I_l.+1) : xR :=
  xsub (Fin 1) (xdiv (d i j) (row_max d i)).
Definition kernel_entry k l (d : 'M[R]_(k, l.+1)) (i i' : 'I_k) : xR :=
  foldl xadd (Fin 0) [seq xmul (similarities d i j) (similarities d i' j) | j <- enum 'I_l.+1].
