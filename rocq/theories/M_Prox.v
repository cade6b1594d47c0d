(** Model of regain/prox.py, regain/norm.py, regain/math.py and regain/update_rules.py. *)
From Coq Require Import Reals String.
From mathcomp Require Import all_ssreflect all_algebra.
From Verif Require Import RStruct NP Str.
Import Order.TTheory GRing.Theory Num.Theory.

Set Implicit Arguments.
Unset Strict Implicit.
Unset Printing Implicit Defensive.
Local Open Scope ring_scope.

(** * prox.py *)

(** prox.py:49-51, one entry: [np.sign(a) * np.maximum(np.abs(a) - lamda, 0)] *)
Definition soft1 (a lamda : R) : R := np_sign a * np_max (`|a| - lamda) 0.

(** prox.py:49-51 on a 2-d array; scalar [lamda] *)
Definition soft_thresholding m n (a : 'M[R]_(m, n)) (lamda : R) : 'M[R]_(m, n) :=
  \matrix_(i, j) soft1 (a i j) lamda.

(** math.py:12-18 [fill_diagonal]/[get_diagonal] specialised to their use in prox.py:57:
    write the diagonal of [a] into [s] *)
Definition fill_diagonal_from n (s a : 'M[R]_n) : 'M[R]_n :=
  \matrix_(i, j) if i == j then a i j else s i j.

(** prox.py:54-58 *)
Definition soft_thresholding_off_diagonal n (a : 'M[R]_n) (lamda : R) : 'M[R]_n :=
  let soft := soft_thresholding a lamda in
  fill_diagonal_from soft a.

(** prox.py:61-63, one row: [np.maximum(1 - lamda / np.linalg.norm(a), 0) * a], with IEEE division *)
Definition row_norm n (a : 'rV[R]_n) : R := sqrt (\sum_i a 0 i ^+ 2).
Definition soft_thresholding_vector n (a : 'rV[R]_n) (lamda : R) : 'I_n -> xR :=
  let f := xmax (xsub (Fin 1) (xdiv lamda (row_norm a))) (Fin 0) in
  fun i => xmul f (Fin (a 0 i)).

(** prox.py:66-69: soft_thresholding_vector on the rows of the transpose, transposed back *)
Definition blockwise_soft_thresholding m n (a : 'M[R]_(m, n)) (lamda : R) : 'I_m -> 'I_n -> xR :=
  fun i j => soft_thresholding_vector (row j a^T) lamda i.

(** prox.py:72-78: [a @ diag((1 - lamda/col_norms) * (col_norms > lamda))]. Entry (i,j) of the
    product: the off-diagonal zeros contribute a*0 = 0 only when every factor is finite; the model
    follows np.matmul and sums over k, so that inf/nan propagate along the row. *)
Definition col_norm m n (a : 'M[R]_(m, n)) (j : 'I_n) : R := sqrt (\sum_i a i j ^+ 2).
Definition bsts_factor m n (a : 'M[R]_(m, n)) (lamda : R) (j : 'I_n) : xR :=
  xmul (xsub (Fin 1) (xdiv lamda (col_norm a j))) (Fin (if lamda < col_norm a j then 1 else 0)).
Definition xsum (n : nat) (F : 'I_n -> xR) : xR := foldr (fun i s => xadd (F i) s) (Fin 0) (enum 'I_n).
Definition blockwise_soft_thresholding_symmetric n (a : 'M[R]_n) (lamda : R) : 'I_n -> 'I_n -> xR :=
  fun i j => xsum (fun k => xmul (Fin (a i k)) (if k == j then bsts_factor a lamda j else Fin 0)).

(** [np.linalg.eigh]: eigenvalues (as a row) and matrix of eigenvectors (as columns) *)
Definition eigh_t n := 'M[R]_n -> 'rV[R]_n * 'M[R]_n.

(** prox.py:127-136; [4.0 / lamda], [* lamda / 2.0]. Batched arrays: applied slice by slice. *)
Definition prox_logdet n (eigh : eigh_t n) (a : 'M[R]_n) (lamda : R) : 'M[R]_n :=
  let: (es, Q) := eigh a in
  let xi := \row_i ((- es 0 i + sqrt (es 0 i ^+ 2 + 4%:R / lamda)) * lamda / 2%:R) in
  Q *m diag_mx xi *m Q^T.

(** prox.py:139-147 *)
Definition prox_logdet_ala_ma n (eigh : eigh_t n) (a : 'M[R]_n) (lamda : R) : 'M[R]_n :=
  let: (es, Q) := eigh a in
  let xi := \row_i ((- es 0 i + sqrt (es 0 i ^+ 2 + 4%:R * lamda)) / 2%:R) in
  Q *m diag_mx xi *m Q^T.

(** prox.py:150-159 *)
Definition prox_trace_indicator n (eigh : eigh_t n) (a : 'M[R]_n) (lamda : R) : 'M[R]_n :=
  let: (es, Q) := eigh a in
  let xi := \row_i np_max (es 0 i - lamda) 0 in
  Q *m diag_mx xi *m Q^T.

(** prox.py:162-164: [a / (1 + 2.0 * lamda)] *)
Definition prox_laplacian m n (a : 'M[R]_(m, n)) (lamda : R) : 'M[R]_(m, n) :=
  (1 + 2%:R * lamda)^-1 *: a.

(** prox.py:242-285 [prox_FL] for p = 1 on an array of T slices of size n x n. [tv] is the external
    one-dimensional total variation solver ([tv1_1d], or [tvgen] along the first axis).
    Both non-symmetric paths (optimize=True: line 253; optimize=False, symmetric=False: lines 276-278)
    apply it to the series of every entry. *)
Definition series T n (a : 'I_T -> 'M[R]_n) (i j : 'I_n) : 'rV[R]_T := \row_t a t i j.
Definition tv_entries T n (tv : 'rV[R]_T -> R -> 'rV[R]_T) (a : 'I_T -> 'M[R]_n) (beta : R) :
  'I_T -> 'M[R]_n := fun t => \matrix_(i, j) tv (series a i j) beta 0 t.
(** prox.py:263-275, symmetric=True, optimize=False: only the upper triangle is solved, then
    [Y = (e + e.T) / (eye + 1)] *)
Definition tv_entries_sym T n (tv : 'rV[R]_T -> R -> 'rV[R]_T) (a : 'I_T -> 'M[R]_n) (beta : R) :
  'I_T -> 'M[R]_n :=
  let e t : 'M[R]_n := \matrix_(i, j) if (i <= j)%N then tv (series a i j) beta 0 t else 0 in
  fun t => \matrix_(i, j) ((e t i j + e t j i) / ((if i == j then 1 else 0) + 1)).
(** prox.py:280-285: soft-threshold, then restore the diagonal *)
Definition prox_FL T n (tv : 'rV[R]_T -> R -> 'rV[R]_T) (a : 'I_T -> 'M[R]_n) (beta lamda : R)
    (symmetric optimize : bool) : 'I_T -> 'M[R]_n :=
  let Y := if optimize then tv_entries tv a beta
           else if symmetric then tv_entries_sym tv a beta else tv_entries tv a beta in
  fun t => fill_diagonal_from (soft_thresholding (Y t) lamda) (Y t).

(** the (Z_1, Z_2) update shared by the time-varying solvers, one time slice
    (covariance/time_graphical_lasso_.py:206-212) *)
Definition pair_update m n (prox_psi : 'M[R]_(m, n) -> R -> 'M[R]_(m, n))
    (A1 A2 : 'M[R]_(m, n)) (beta rho : R) : 'M[R]_(m, n) * 'M[R]_(m, n) :=
  let prox_e := prox_psi (A2 - A1) (2%:R * beta / rho) in
  (2%:R^-1 *: (A1 + A2 - prox_e), 2%:R^-1 *: (A1 + A2 + prox_e)).

(** * norm.py *)

(** norm.py:42-44 *)
Definition l1_norm m n (precision : 'M[R]_(m, n)) : R := \sum_i \sum_j `|precision i j|.
(** norm.py:47-49 *)
Definition matrix_l1_norm m n (matrix : 'M[R]_(m, n)) : R := \sum_i \sum_j `|matrix i j|.
(** norm.py:52-55 *)
Definition l1_od_norm n (precision : 'M[R]_n) : R :=
  let diagonal_sum := \sum_i `|precision i i| in
  matrix_l1_norm precision - diagonal_sum.
(** sklearn.utils.extmath.squared_norm *)
Definition squared_norm m n (x : 'M[R]_(m, n)) : R := \sum_i \sum_j x i j * x i j.
(** np.linalg.norm(x) (Frobenius) *)
Definition np_norm m n (x : 'M[R]_(m, n)) : R := sqrt (squared_norm x).

(** np.linalg.norm(x, ord=np.inf) of a 2-d array: largest absolute row sum *)
Definition np_norm_inf m n (x : 'M[R]_(m, n)) : R := \big[np_max/0]_i \sum_j `|x i j|.

(** * validation.py *)

(** prox.py:119-124 [prox_linf], one slice: scipy's minimiser [linf_1d] (prox.py:81-116) applied to
    the columns. (The code ranges over [a.shape[1]] columns, the number of rows: arrays are square.) *)
Definition prox_linf n (linf_1d : 'cV[R]_n -> R -> 'cV[R]_n) (a : 'M[R]_n) (lamda : R) : 'M[R]_n :=
  \matrix_(i, j) linf_1d (col j a) lamda i 0.

(** validation.py:44-63 [check_norm_prox]: returns (norm, prox, is_node). The node penalty and its
    prox (both iterative) are parameters. ['ValueError] is the [None] of the model. *)
Definition finite_mx m n (x : 'M[R]_(m, n)) : 'I_m -> 'I_n -> xR := fun i j => Fin (x i j).
Definition check_norm_prox n (linf_1d : 'cV[R]_n -> R -> 'cV[R]_n)
    (node_penalty : 'M[R]_n -> R) (prox_node : 'M[R]_n -> R -> 'I_n -> 'I_n -> xR)
    (function : string) :
    option (('M[R]_n -> R) * ('M[R]_n -> R -> 'I_n -> 'I_n -> xR) * bool) :=
  if function == "laplacian"%string then
    Some (@squared_norm n n, fun a l => finite_mx (prox_laplacian a l), function == "node"%string)
  else if function == "l1"%string then
    Some (@l1_norm n n, fun a l => finite_mx (soft_thresholding a l), function == "node"%string)
  else if function == "l2"%string then
    Some (@np_norm n n, @blockwise_soft_thresholding n n, function == "node"%string)
  else if function == "linf"%string then
    Some (@np_norm_inf n n, fun a l => finite_mx (prox_linf linf_1d a l), function == "node"%string)
  else if function == "node"%string then
    Some (node_penalty, prox_node, function == "node"%string)
  else None.

(** * update_rules.py *)

(** update_rules.py:35: keyword arguments (defaults mu=10, tau_inc=2, tau_dec=2) *)
Record rho_options := RhoOptions { mu : R; tau_inc : R; tau_dec : R }.
Definition default_rho_options := RhoOptions 10%:R 2%:R 2%:R.

(** update_rules.py:35-46; the [iteration] argument is unused by the code *)
Definition update_rho (o : rho_options) (rho rnorm snorm : R) : R :=
  if mu o * snorm < rnorm then tau_inc o * rho
  else if mu o * rnorm < snorm then rho / tau_dec o
  else rho.

(** update_rules.py:49-53; default eps=1e-4 *)
Definition update_gamma (gamma : R) (iteration : nat) (eps : R) : R :=
  let gamma := if (iteration %% 20 == 0)%N then gamma / 2%:R else gamma in
  np_max gamma eps.
