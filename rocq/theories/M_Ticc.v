(** Model of genInvCov, genRandInv, make_ticc_dataset, make_ticc_dataset_new and make_ticc_dataset_v3
    (regain/datasets/kernels.py:135-160, 210-591).

    Random numbers are arguments: the blocks drawn by genInvCov and genRandInv, and what np.random.multivariate_normal returns.
    Numbers are exact reals; scipy.linalg.pinvh of an invertible matrix is its inverse [invmx]. make_ticc is in M_Gauss. *)
From Coq Require Import Reals.
From mathcomp Require Import all_ssreflect all_algebra.
From Verif Require Import RStruct NP M_Utils M_Ising M_Gauss.
Import Order.TTheory GRing.Theory Num.Theory.

Set Implicit Arguments.
Unset Strict Implicit.
Unset Printing Implicit Defensive.
Local Open Scope ring_scope.

(** * the blocks *)
(** lines 141-143: n_edges = int(size * (size - 1) * (portion / 2)), for portion = num / den *)
Definition n_edges (size num den : nat) : nat := (size * size.-1 * num %/ (2 * den))%N.
(** line 145: sign and magnitude of an entry; [bit] is np.random.randint(2), [u] np.random.rand *)
Definition entry_value (low upper : R) (bit : bool) (u : R) : R :=
  ((if bit then 1 else 0) - 1 / 2%:R) * 2%:R * (low + (upper - low) * u).
(** lines 140-150; [edges]: the edges of nx.gnm_random_graph(size, n_edges), [v]: the value drawn for each *)
Definition genInvCov n (edges : seq ('I_n * 'I_n)) (v : 'I_n * 'I_n -> R) (symmetric : bool) : 'M[R]_n :=
  let S := \matrix_(i, j) if (i, j) \in edges then v (i, j) else 0 in
  if symmetric then S + S^T else S.
(** lines 154-160; [keep i j]: np.random.rand() < portion *)
Definition genRandInv n (keep : 'I_n -> 'I_n -> bool) (v : 'I_n -> 'I_n -> R) : 'M[R]_n :=
  \matrix_(i, j) if keep i j then v i j else 0.

(** * the labels *)
(** np.repeat *)
Definition np_repeat A (xs : seq A) (m : nat) : seq A := flatten [seq nseq m x | x <- xs].
(** lines 242-243 and 336-337 *)
Definition id_cluster_of (clusters : seq nat) (n_samples : nat) : seq nat := np_repeat clusters n_samples.
Definition y_of (clusters : seq nat) (n_samples T : nat) : seq nat := np_repeat (iota 0 T) (size clusters * n_samples %/ T).
(** lines 294-299 and 437-442: for c in np.unique(y) *)
Fixpoint groups (id y : seq nat) (cs : seq nat) : ires (seq nat) :=
  match cs with
  | [::] => IOk [::]
  | c :: cs' =>
    let l := [seq nth 0%N id i | i <- iota 0 (size y) & nth 0%N y i == c] in
    if size (undup l) == 1%N then
      match groups id y cs' with IOk g => IOk (head 0%N l :: g) | IRaise e => IRaise e end
    else IRaise IAssertionError
  end.
Definition group_labels (id y : seq nat) : ires (seq nat) := groups id y (sort leq (undup y)).
(** the labels of make_ticc_dataset (lines 235-243 and 294-299): (id_cluster, y, id_cluster_group), for 0 < T *)
Definition ticc_labels (clusters : seq nat) (n_samples T : nat) : ires (seq nat * seq nat * seq nat) :=
  if (size clusters * n_samples %% T != 0)%N then IRaise IValueError else
  let id := id_cluster_of clusters n_samples in let y := y_of clusters n_samples T in
  match group_labels id y with IOk g => IOk (id, y, g) | IRaise e => IRaise e end.
(** the labels of make_ticc_dataset_new (lines 336-337 and 437-442), which does not test the number of samples *)
Definition ticc_new_labels (clusters : seq nat) (n_samples T : nat) : ires (seq nat * seq nat * seq nat) :=
  let id := id_cluster_of clusters n_samples in let y := y_of clusters n_samples T in
  match group_labels id y with IOk g => IOk (id, y, g) | IRaise e => IRaise e end.

(** * conditional distributions *)
(** C[o : o + m, o : o + m], for o + m <= N + 1 *)
Definition sub N (C : 'M[R]_N.+1) (o m : nat) : 'M[R]_m := \matrix_(i, j) C (inord (o + i)) (inord (o + j)).
(** _block_matrix (lines 210-215) and lines 273-277: Sig21 Theta11 and the conditional covariance of the second part. S12 is S21.T *)
Definition cond_coef a b (S : 'M[R]_(a + b)) : 'M[R]_(b, a) := dlsubmx S *m invmx (ulsubmx S).
Definition cond_cov a b (S : 'M[R]_(a + b)) : 'M[R]_b := drsubmx S - cond_coef S *m (dlsubmx S)^T.
(** X[lo:i].flatten(), X given as the list of its rows *)
Definition flat n (X : seq 'cV[R]_n.+1) (lo r : nat) : 'cV[R]_(r * n.+1) :=
  \col_(z < r * n.+1) nth 0 X (lo + z %/ n.+1) (inord (z %% n.+1)) 0.

Section Series.
Variable n : nat.
Notation d := n.+1.
(** np.random.multivariate_normal, i-th call *)
Variable mvn : nat -> 'cV[R]_d -> 'M[R]_d -> 'cV[R]_d.

(** lines 262-291 and 403-434, one sample. [S]: the covariance of the window and the sample, of (r + 1) blocks *)
Definition sample_at (X : seq 'cV[R]_d) (lo r : nat) (S : 'M[R]_(r * d + d)) : 'cV[R]_d * 'M[R]_d :=
  (mvn (size X) (cond_coef S *m flat X lo r) (cond_cov S), invmx (cond_cov S)).

(** make_ticc_dataset, lines 259-291; [cov label]: covs[label]. Sample i conditions on min(i, w_size - 1) samples, with the leading blocks *)
Definition ticc_sample N (w : nat) (cov : nat -> 'M[R]_N.+1) (X : seq 'cV[R]_d) (label : nat) : 'cV[R]_d * 'M[R]_d :=
  let i := size X in
  let r := minn i w.-1 in
  if i == 0%N then (mvn 0 0 (sub (cov label) 0 d), invmx (sub (cov label) 0 d))
  else sample_at X (i - r) (sub (cov label) 0 (r * d + d)).
Fixpoint ticc_series N w (cov : nat -> 'M[R]_N.+1) (X : seq 'cV[R]_d) (id : seq nat) : seq ('cV[R]_d * 'M[R]_d) :=
  match id with
  | [::] => [::]
  | label :: id' => let s := ticc_sample w cov X label in s :: ticc_series w cov (rcons X s.1) id'
  end.

(** * make_ticc_dataset_new and make_ticc_dataset_v3 *)
(** lines 343-359 and 484-503: the dictionary of the blocks of a cluster, and its get with a default of zero *)
Definition bmc (nb w : nat) (blk : nat -> 'M[R]_d) (i : nat) : 'M[R]_d := if (i < nb)%N && (i < w.+1)%N then blk i else 0.
(** lines 361-370: row a of the reversed list is the one with j = num_blocks - a *)
Definition out_diag nb w blk (a b : nat) : 'M[R]_d :=
  let j := (nb - a)%N in let B := bmc nb w blk (j + b) in if (j < b)%N then B^T else B.
(** lines 375-384: the column col of row j has i = |j - col| *)
Definition diag nb w blk (a b : nat) : 'M[R]_d :=
  let B := bmc nb w blk (if (a < b)%N then b - a else a - b)%N in if (a < b)%N then B else B^T.
(** lines 386-395: block (g, h) of the matrix; [clusters k] is the k-th cluster *)
Definition inv_block nb w (blk : nat -> nat -> 'M[R]_d) (clusters : seq nat) (g h : nat) : 'M[R]_d :=
  let k := (g %/ nb)%N in let a := (g %% nb)%N in let l := (h %/ nb)%N in let b := (h %% nb)%N in
  let c := nth 0%N clusters in
  if l == k then diag nb w (blk (c k)) a b
  else if l == k.+1 then out_diag nb w (blk (c k)) a b
  else if k == l.+1 then (out_diag nb w (blk (c l)) b a)^T
  else 0.
(** lines 386-399; [K.+1] block rows in all; np.linalg.eig on a symmetric matrix *)
Definition inv_raw K nb w blk clusters : 'M[R]_((n + K * d).+1) :=
  \matrix_(x, y) inv_block nb w blk clusters (x %/ d) (y %/ d) (inord (x %% d)) (inord (y %% d)).
Definition inv_shifted (eigh : eigh_t) K nb w blk clusters : 'M[R]_((n + K * d).+1) :=
  let inv := inv_raw K nb w blk clusters in inv + (1 / 10%:R + `|min_eig eigh inv|)%:M.
(** lines 406-434: sample i conditions on min(i, w_size) samples. With r = 0 the conditional covariance is the block itself *)
Definition new_sample N (w : nat) (C : 'M[R]_N.+1) (X : seq 'cV[R]_d) : 'cV[R]_d * 'M[R]_d :=
  let i := size X in let r := minn i w in
  sample_at X (i - r) (sub C ((i - r) * d) (r * d + d)).
Fixpoint new_series N w (C : 'M[R]_N.+1) (X : seq 'cV[R]_d) (m : nat) : seq ('cV[R]_d * 'M[R]_d) :=
  match m with
  | 0 => [::]
  | m'.+1 => let s := new_sample w C X in s :: new_series w C (rcons X s.1) m'
  end.
(** sparse_precs: T22 of line 414, the last diagonal block of the window of inv *)
Definition sparse_prec N (inv : 'M[R]_N.+1) (i : nat) : 'M[R]_d := sub inv (i * d) d.
(** lines 336-434: num_blocks is n_samples; there are n_samples * len(clusters) = K.+1 samples *)
Definition ticc_new (eigh : eigh_t) K n_samples w blk clusters : seq ('cV[R]_d * 'M[R]_d) * 'M[R]_((n + K * d).+1) :=
  let inv := inv_shifted eigh K n_samples w blk clusters in (new_series w (invmx inv) [::] K.+1, inv).
(** make_ticc_dataset_v3, lines 484-591: num_blocks is 1; one distribution for each of the K.+1 clusters. The result lists the conditional
    coefficients, covariances and the two kinds of precisions *)
Definition v3_cluster N (w : nat) (inv : 'M[R]_N.+1) (i : nat) :=
  let r := minn i w in let S := sub (invmx inv) ((i - r) * d) (r * d + d) in
  (existT (fun r => 'M[R]_(d, r * d)) r (cond_coef S), cond_cov S, invmx (cond_cov S), sparse_prec inv i).
Definition v3_inv (eigh : eigh_t) K w blk clusters : 'M[R]_((n + K * d).+1) := inv_shifted eigh K 1 w blk clusters.
End Series.
