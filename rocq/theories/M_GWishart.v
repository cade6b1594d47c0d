(** Model of regain/bayesian/gwishart_inference.py and _laplace_approximation.py. *)
From Coq Require Import Reals.
From mathcomp Require Import all_ssreflect all_algebra.
From Verif Require Import RStruct NP M_Utils M_GL.
Import Order.TTheory GRing.Theory Num.Theory.

Set Implicit Arguments.
Unset Strict Implicit.
Unset Printing Implicit Defensive.
Local Open Scope ring_scope.

(** * graphs *)
(** np.binary_repr(x, width=w) for x < 2^w, as booleans *)
Fixpoint bits (w x : nat) : seq bool :=
  if w is k.+1 then rcons (bits k (x./2)) (odd x) else [::].
(** the True positions of np.triu(np.ones((n, n)), 1) > 0, row by row *)
Definition triu_positions n : seq ('I_n * 'I_n) :=
  filter (fun ij : 'I_n * 'I_n => (ij.1 < ij.2)%N) [seq (i, j) | i <- enum 'I_n, j <- enum 'I_n].
(** lines 62-68, one pass: G[ut] = row; G = (G + G.T) > 0 *)
Definition graph_of n (row : seq bool) : 'M[bool]_n :=
  let G : 'M[bool]_n := \matrix_(i, j) ((i < j)%N && nth false row (index (i, j) (triu_positions n))) in
  \matrix_(i, j) (G i j || G j i).
(** lines 50-69. [ord] is what np.argsort returns: the order of equal elements is not specified. The width of
    binary_repr(m - 1) is the number of edges, or 1 if there are none. *)
Definition mk_all_ugs n (ord : seq nat) : seq 'M[bool]_n :=
  let nedges := 'C(n, 2) in
  let m := (2 ^ nedges)%N in
  let ind := [seq bits (maxn 1 nedges) x | x <- iota 0 m] in
  [seq graph_of n (nth [::] ind k) | k <- ord].
(** what np.argsort is applied to: ind.sum(axis=1) *)
Definition ug_sums n : seq nat :=
  let nedges := 'C(n, 2) in
  [seq count id (bits (maxn 1 nedges) x) | x <- iota 0 (2 ^ nedges)%N].

(** lines 72-84, boolean=True. The result has one n x n matrix for each graph (axis 1 of the array); its row i
    is a blanket of variable i. [unique]: line 83 is np.unique over axis 1: the distinct matrices in some
    order, given by the argument [np_unique]. *)
Definition markov_blankets n (graphs : seq 'M[R]_n) (tol : R) (np_unique : option (seq 'M[bool]_n -> seq 'M[bool]_n)) :
    seq 'M[bool]_n :=
  let mb := [seq \matrix_(i, j) [&& j != i, ~~ (`|G i j| < tol) & G i j != 0] | G : 'M[R]_n <- graphs] in
  if np_unique is Some f then f mb else mb.

(** lines 112-114: the normalisation of the scores of the k blankets of each variable *)
Definition normalized_scores n k (scores_all : 'M[R]_(n, k)) : 'M[R]_(n, k) :=
  let ss := map_mx exp scores_all in
  \matrix_(i, j) (ss i j / \sum_l ss i l).

(** lines 117-128: [idx i r] is the r-th random choice for variable i *)
Definition get_graphs n (blankets : seq 'M[bool]_n) (idx : 'I_n -> nat -> nat) (n_resampling : nat) : seq 'M[bool]_n :=
  [seq (let g : 'M[bool]_n := \matrix_(i, j) (nth (const_mx false) blankets (idx i r)) i j in
        \matrix_(i, j) (g i j && g j i)) | r <- iota 0 n_resampling].
(** line 380 *)
Definition nonzeros_of n (g : 'M[bool]_n) : 'M[bool]_n := \matrix_(i, j) (((i < j)%N && g i j) || (i == j)).

(** * maximum likelihood for a given graph *)
(** the coordinates: an array over the True positions of the mask [N], here a matrix read at these positions *)
Section Covsel.
Variables (p : nat).
Implicit Types (N : 'M[bool]_p) (x C : 'M[R]_p).
(** np.triu(X, 1), np.tril(X, -1) *)
Definition triu1 (X : 'M[R]_p) : 'M[R]_p := \matrix_(i, j) if (i < j)%N then X i j else 0.
Definition trilm1 (X : 'M[R]_p) : 'M[R]_p := \matrix_(i, j) if (j < i)%N then X i j else 0.
(** lines 137-139 and 161-164: zeros, X[nonZero] = x, X += np.triu(X, 1).T *)
Definition fill N x : 'M[R]_p :=
  let X : 'M[R]_p := \matrix_(i, j) if N i j then x i j else 0 in
  X + (triu1 X)^T.
(** lines 131-151 *)
Definition covsel (pinvh : 'M[R]_p -> 'M[R]_p) N C x : xR * 'M[R]_p :=
  let X := fill N x in
  let f := xadd (xneg (fast_logdet X)) (Fin (np_sum_mul C X)) in
  let g :=
    if (if f is Fin _ then true else if f is NInf then true else false) then
      let g := C - pinvh X in
      let g := g + (trilm1 g)^T in
      \matrix_(i, j) if N i j then g i j else 0
    else 0 in
  (f, g).
(** lines 154-165: [x] is the result of scipy.optimize.minimize *)
Definition precision_selection N x : 'M[R]_p := fill N x.
End Covsel.

(** lines 168-179 and 323-345: the shapes. np.cov(X, bias=True) takes the rows of X as variables, so the default S0
    has n_samples rows; [S0_dim] is the size of a given S0. The rest of the function is not modelled here:
    [Val tt] means that the checks pass. *)
Definition gwishart_checks (n_samples n_dim : nat) (G_dim : nat) (S0_dim : option nat) : res unit :=
  let S0 := if S0_dim is Some k then k else n_samples in
  if G_dim != n_dim then Raise ValueError
  else if S0 != n_dim then Raise ValueError
  else Val tt.

(** * Laplace approximation *)
Section Laplace.
Variables (p : nat) (invP : 'M[R]_p) (dn : R) (dof : nat) (V : 'I_dof -> 'I_p * 'I_p).
(** lines 289-306: V e = (Vi[e], Vj[e]) *)
Definition laplace_tmp2 (e1 e2 : 'I_dof) : R :=
  let i := (V e1).1 in let j := (V e1).2 in let l := (V e2).1 in let m := (V e2).2 in
  invP l j * invP i m + invP l i * invP j m + (invP m j * invP i l + invP m i * invP j l).
Definition laplace_H : 'M[R]_dof := \matrix_(e1, e2)
  if (e1 <= e2)%N then - (dn - 2%:R) * laplace_tmp2 e1 e2 / 2%:R else - (dn - 2%:R) * laplace_tmp2 e2 e1 / 2%:R.
(** lines 256-279: M1[:, [i, j]] = invP[:, [j, i]]; A = M1[[i, j]][:, [i, j]] (for i = j the two columns are the same) *)
Definition laplace_M1 (e : 'I_dof) : 'M[R]_p :=
  let i := (V e).1 in let j := (V e).2 in
  \matrix_(a, b) if b == j then invP a i else if b == i then invP a j else 0.
Definition laplace_diag (e : 'I_dof) : R :=
  let i := (V e).1 in let j := (V e).2 in
  let M1 := laplace_M1 e in
  let tmp2 := (M1 i i * M1 i i + M1 i j * M1 j i) + (M1 j i * M1 i j + M1 j j * M1 j j) in
  - (dn - 2%:R) * tmp2 / 2%:R.
End Laplace.

(** _laplace_approximation.py lines 35-40 *)
Definition laplace_h p (D K : 'M[R]_p) (delta : R) : xR :=
  xmul (Fin (- (1 / 2%:R))) (xsub (Fin (\tr (K^T *m D))) (xmul (Fin (delta - 2%:R)) (fast_logdet K))).
Definition first_derivative_h p (pinvh : 'M[R]_p -> 'M[R]_p) (D K : 'M[R]_p) (delta : R) : 'M[R]_p :=
  - (1 / 2%:R) *: (D - (delta - 2%:R) *: pinvh K).

(** lines 394-395: each result is (score, P) *)
Definition top_mean p (res : seq (R * 'M[R]_p)) (top_n : nat) : 'M[R]_p :=
  let top := take top_n (rev (sort (fun a b : R * 'M[R]_p => a.1 <= b.1) res)) in
  (size top)%:R^-1 *: \sum_(x <- top) x.2.

(** * the scores, lines 205-320 *)
Section Score.
Variables (p : nat).
(** lines 218-222. [U], [s], [Vh]: what scipy.linalg.svd(P) returns *)
Definition gw_invP (U : 'M[R]_p) (s : 'rV[R]_p) (Vh : 'M[R]_p) : 'M[R]_p :=
  Vh^T *m diag_mx (\row_i (1 / s 0 i)) *m U^T.
(** np.log of a positive number (the theorems are about positive s) *)
Definition gw_logdetP (s : 'rV[R]_p) : R := \sum_i ln (s 0 i).
(** line 234 *)
Definition gw_logh (dn logdetP : R) : R := (dn - 2%:R) / 2%:R * (p%:R + logdetP).
(** lines 281 and 311; [ld]: logdetHdiag or logdetH *)
Definition gw_lognormconst (dof : nat) (logh ld : R) : R := dof%:R * ln (2%:R * PI) / 2%:R + logh - ld / 2%:R.
(** line 280: sum(np.log(-diagH)) *)
Definition gw_logdetHdiag (dof : nat) (diagH : 'I_dof -> R) : R := \sum_e ln (- diagH e).
(** line 310: [L] is linalg.cholesky(-H) (the upper factor) *)
Definition gw_logdetH (dof : nat) (L : 'M[R]_dof) : R := 2%:R * \sum_e ln (L e e).
(** lines 282-286 and 312-316 *)
Definition gw_score (lognormconst prior : R) (n_samples : nat) : R :=
  lognormconst - prior - n_samples%:R * p%:R * ln (2%:R * PI) / 2%:R.
(** sklearn.covariance.log_likelihood *)
Definition sk_log_likelihood (S P : 'M[R]_p) : xR :=
  xmul (Fin (1 / 2%:R)) (xsub (xadd (Fin (- np_sum_mul S P)) (fast_logdet P)) (Fin (p%:R * ln (2%:R * PI)))).
(** lines 225 and 253-254, for n_samples > 0 *)
Definition gw_bic (n_samples : nat) (S P : 'M[R]_p) (dof : nat) : xR :=
  xsub (xmul (Fin n_samples%:R) (sk_log_likelihood (n_samples%:R^-1 *: S) P)) (Fin (dof%:R * ln n_samples%:R / 2%:R)).
End Score.
