(** C164-C168: the TICC data sets (regain/datasets/kernels.py). *)
From Coq Require Import Reals.
From mathcomp Require Import all_ssreflect all_algebra.
From Verif Require Import RStruct RTac RMx NP S_Mat P_Utils2 M_Utils M_Ising M_Gauss P_Gauss6 P_Gauss7 M_Ticc P_Ticc P_Ticc2 P_Ticc3.
From Verif Require P_Fede.
Import Order.TTheory GRing.Theory Num.Theory.

Set Implicit Arguments.
Unset Strict Implicit.
Unset Printing Implicit Defensive.
Local Open Scope ring_scope.

(** C164: when make_ticc_dataset returns, sample i belongs to cluster [clusters[i // n_samples]], every time has the same
    number q of consecutive samples, and the label of a time is that of all its samples. *)
Theorem C164_labels clusters n_samples T id y g : (0 < T)%N -> (0 < size clusters * n_samples)%N ->
  ticc_labels clusters n_samples T = IOk (id, y, g) ->
  let q := (size clusters * n_samples %/ T)%N in
  [/\ size id = (size clusters * n_samples)%N, size y = size id, size g = T &
    forall i, (i < size id)%N -> [/\ nth 0%N id i = nth 0%N clusters (i %/ n_samples), nth 0%N y i = (i %/ q)%N & nth 0%N g (nth 0%N y i) = nth 0%N id i]].
Proof.
move=> T0 s0; rewrite /ticc_labels; case: eqP => // /eqP dv; set q := (_ %/ T)%N.
have Tq : (T * q = size clusters * n_samples)%N by rewrite mulnC divnK.
have q0 : (0 < q)%N by move: s0; rewrite -Tq muln_gt0 => /andP[].
rewrite /y_of -/q; case e: (group_labels _ _) => [g'|] // [<- <- <-] /=; have [sg gn] := group_ok q0 e.
rewrite /id_cluster_of !size_np_repeat size_iota Tq; split=> // i il.
by rewrite nth_np_repeat // nth_y ?Tq // gn ?Tq // nth_np_repeat.
Qed.
Print Assumptions C164_labels.

(** It returns exactly when T divides the number of samples and no time contains samples of two clusters; it does when, moreover,
    the number of clusters divides T. *)
Theorem C164_returns clusters n_samples T : (0 < T)%N -> (0 < size clusters * n_samples)%N ->
  let q := (size clusters * n_samples %/ T)%N in
  ((exists r, ticc_labels clusters n_samples T = IOk r) <->
   (T %| size clusters * n_samples)%N /\
   forall i j, (i < size clusters * n_samples)%N -> (j < size clusters * n_samples)%N -> (i %/ q = j %/ q)%N ->
     nth 0%N clusters (i %/ n_samples) = nth 0%N clusters (j %/ n_samples)) /\
  ((T %| size clusters * n_samples)%N -> (size clusters %| T)%N -> exists r, ticc_labels clusters n_samples T = IOk r).
Proof.
move=> T0 s0 q.
have iff : (exists r, ticc_labels clusters n_samples T = IOk r) <->
   (T %| size clusters * n_samples)%N /\
   forall i j, (i < size clusters * n_samples)%N -> (j < size clusters * n_samples)%N -> (i %/ q = j %/ q)%N ->
     nth 0%N clusters (i %/ n_samples) = nth 0%N clusters (j %/ n_samples).
  rewrite /ticc_labels /dvdn; case: eqP => [dv|] /=; last by move=> _; split=> [[r]|[]].
  have Tq : (T * q = size clusters * n_samples)%N by rewrite mulnC divnK // /dvdn dv.
  have q0 : (0 < q)%N by move: s0; rewrite -Tq muln_gt0 => /andP[].
  have := group_iff T q0 (id_cluster_of clusters n_samples); rewrite Tq /y_of -/q => gi.
  have nid i : (i < size clusters * n_samples)%N -> nth 0%N (id_cluster_of clusters n_samples) i = nth 0%N clusters (i %/ n_samples).
    by move=> il; rewrite nth_np_repeat.
  split=> [[r]|[_ h]].
    case e: (group_labels _ _) => [g|] // _; split=> // i j il jl ij; rewrite -!nid //.
    by move/gi: (ex_intro (fun g => _ = IOk g) g e); apply.
  have /gi[g ->] : forall i j, (i < size clusters * n_samples)%N -> (j < size clusters * n_samples)%N -> (i %/ q)%N = (j %/ q)%N ->
      nth 0%N (id_cluster_of clusters n_samples) i = nth 0%N (id_cluster_of clusters n_samples) j.
    by move=> i j il jl ij; rewrite !nid //; exact: h.
  by eexists.
split=> // dv dc; apply/iff; split=> // i j il jl ij; congr (nth _ _ _).
have [c0 n0] : (0 < size clusters)%N /\ (0 < n_samples)%N by apply/andP; rewrite -muln_gt0.
have Tq : (T * q = size clusters * n_samples)%N by rewrite mulnC divnK.
have q0 : (0 < q)%N by move: s0; rewrite -Tq muln_gt0 => /andP[].
have nE : n_samples = (q * (T %/ size clusters))%N.
  apply/eqP; rewrite -(eqn_pmul2l c0) -Tq -{1}(divnK dc); apply/eqP.
  by rewrite [RHS]mulnCA [RHS]mulnC [(size clusters * _)%N]mulnC.
by rewrite nE !divnMA ij.
Qed.
Print Assumptions C164_returns.

(** The error message says that a multiple of the number of times avoids times with two clusters: it does not, for
    three clusters of two samples and two times. *)
Theorem C164_check_refuted : exists clusters n_samples T, (T %| size clusters * n_samples)%N /\
  ticc_labels clusters n_samples T = IRaise IAssertionError.
Proof. by exists [:: 0; 1; 0]%N, 2%N, 2%N. Qed.
Print Assumptions C164_check_refuted.
(** make_ticc_dataset_new does not test it: y can be shorter than X. *)
Theorem C164_new_refuted : exists clusters n_samples T id y g, ticc_new_labels clusters n_samples T = IOk (id, y, g) /\
  (size y < size id)%N /\ size id = (size clusters * n_samples)%N.
Proof. by exists [:: 0]%N, 3%N, 2%N, [:: 0; 0; 0]%N, [:: 0; 1]%N, [:: 0; 0]%N. Qed.
Print Assumptions C164_new_refuted.
Example C164_case : ticc_labels [:: 0; 1; 0]%N 4 6 =
  IOk ([:: 0; 0; 0; 0; 1; 1; 1; 1; 0; 0; 0; 0], [:: 0; 0; 1; 1; 2; 2; 3; 3; 4; 4; 5; 5], [:: 0; 0; 1; 1; 0; 0])%N.
Proof. by []. Qed.

(** The distribution of the second part of a centred Gaussian vector with covariance S given the first: mean K x and covariance V, such
    that the residual is not correlated with the first part. *)
Definition conditional a b (S : 'M[R]_(a + b)) (K : 'M[R]_(b, a)) (V : 'M[R]_b) : Prop :=
  dlsubmx S = K *m ulsubmx S /\ drsubmx S = V + K *m ulsubmx S *m K^T.
Lemma cond_conditional a b (S : 'M[R]_(a + b)) : pd S -> conditional S (cond_coef S) (cond_cov S).
Proof.
move=> d; have u := pd_unit (ul_pd d); have [s _ _] := blocks_sym d; split; first by rewrite /cond_coef mulmxKV.
rewrite /cond_cov /cond_coef mulmxKV // trmx_mul (sym_inv s) !mulmxA.
by rewrite [X in _ = _ + X](_ : _ = dlsubmx S *m invmx (ulsubmx S) *m (dlsubmx S)^T) ?subrK.
Qed.

(** C165: make_ticc_dataset. From sample w_size - 1 on, the reported precision of a sample of cluster c is the diagonal block of the
    precision matrix of c, the same for all of them, and the sample is drawn from the normal distribution with that
    precision whose mean depends on the previous w_size - 1 samples; before that the reported precision is positive definite. *)
Theorem C165_samples eigh nb n (blocks : nat -> nat -> 'M[R]_n.+1) mvn id i :
  (forall m, eigh_ok (@eigh m)) -> (forall c, (blocks c 0%N)^T = blocks c 0%N) -> (0 < nb)%N -> (i < size id)%N ->
  let c := nth 0%N id i in
  let Th c : 'M[R]_((n + nb * n.+1).+1) := make_ticc eigh nb (blocks c) in
  let s := ticc_series mvn nb.+1 (fun c => invmx (Th c)) [::] id in
  let P := blocks c 0%N + (1 / 10%:R + `|min_eig eigh (ticc_blocks nb.+1 (blocks c) : 'M[R]_((n + nb * n.+1).+1))|)%:M in
  [/\ size s = size id, pd (nth (0, 0) s i).2 &
    (nb <= i)%N -> [/\ pd P, (nth (0, 0) s i).2 = P &
      (nth (0, 0) s i).1 = mvn i (- (invmx P *m dlsubmx (sub (Th c) 0 (nb * n.+1 + n.+1)) *m flat (unzip1 s) (i - nb) nb)) (invmx P)]].
Proof.
move=> eok bs nb0 il c Th s P; have dT c' : pd (Th c') by have [] := ticc_ok nb eok (bs c').
split; first exact: size_ticc_series.
  rewrite ticc_seriesP // cat0s -/c /ticc_sample; set X := unzip1 _.
  have dC : pd (invmx (Th c)) := pd_inv (dT c).
  case: ifP => _ /=; apply: pd_inv.
    by apply: sub_pd dC; rewrite add0n ltnS leq_addr.
  apply: cond_cov_pd; apply: sub_pd dC; rewrite add0n.
  have -> : ((n + nb * n.+1).+1 = nb * n.+1 + n.+1)%N by rewrite addnS addnC.
  by rewrite leq_add2r leq_mul2r geq_minr orbT.
move=> ni.
have eN : (nb * n.+1 + n.+1 = (n + nb * n.+1).+1)%N by rewrite addnS addnC.
have PE : drsubmx (sub (Th c) 0 (nb * n.+1 + n.+1)) = P.
  rewrite sub_dr add0n; apply/matrixP => u v.
  have lt' (z : 'I_n.+1) : (nb * n.+1 + z < (n + nb * n.+1).+1)%N by rewrite -eN ltn_add2l.
  rewrite mxE [LHS]mxE [RHS]mxE; congr (_ + _).
    rewrite mxE (inordK (lt' u)) (inordK (lt' v)) !divnMDl // !divn_small // !addn0 /= ltnn subnn !modnMDl !modn_small // !inord_val.
    by have := congr1 (fun M : 'M[R]_n.+1 => M u v) (bs c); rewrite mxE.
  rewrite mxE [RHS]mxE; congr (_ *+ nat_of_bool _); apply/eqP/eqP => [/(congr1 val)|->] //.
  by rewrite /= !inordK ?lt' // => /addnI /val_inj.
have dP : pd P by rewrite -PE; apply: dr_pd; exact: sub_pd_full eN (dT c).
have sX : size (unzip1 (take i s)) = i by rewrite size_map size_takel // size_ticc_series ltnW.
have ES : nth (0, 0) s i = (mvn i (- (invmx P *m dlsubmx (sub (Th c) 0 (nb * n.+1 + n.+1)) *m flat (unzip1 s) (i - nb) nb)) (invmx P), P).
  rewrite /s ticc_seriesP // cat0s -/c -/s /ticc_sample sX /sample_at sX (minn_idPr ni).
  rewrite ifF; last by apply/negbTE; rewrite -lt0n (leq_trans nb0).
  rewrite sub_full_inv //; have [k v] := cond_last (sub_pd_full eN (dT c)); rewrite k v PE invmxK mulNmx.
  congr (mvn _ (- (_ *m _)) _, _); apply/colP => z; rewrite !mxE; congr (fun_of_matrix _ _ _).
  rewrite /unzip1 map_take nth_take // -ltn_subRL subKn // ltn_divLR //; exact: ltn_ord.
by split=> //; rewrite ES.
Qed.
Print Assumptions C165_samples.

(** C166: make_ticc_dataset_new. The precision matrix of the whole series is positive definite and zero between samples more than
    w_size apart, and every sample is drawn from its distribution given ALL the previous samples. *)
Theorem C166_exact n eigh K n_samples w (blk : nat -> nat -> 'M[R]_n.+1) clusters mvn :
  (forall m, eigh_ok (@eigh m)) -> (0 < n_samples)%N -> (forall c, (blk c 0%N)^T = blk c 0%N) ->
  let s := (ticc_new mvn eigh K n_samples w blk clusters).1 in
  let inv := (ticc_new mvn eigh K n_samples w blk clusters).2 in
  [/\ size s = K.+1, pd inv,
    forall x y : 'I_((n + K * n.+1).+1), (y %/ n.+1 + w < x %/ n.+1)%N || (x %/ n.+1 + w < y %/ n.+1)%N -> inv x y = 0 &
    forall i, (i <= K)%N -> exists A V, [/\ conditional (sub (invmx inv) 0 (i * n.+1 + n.+1)) A V, pd V &
      nth (0, 0) s i = (mvn i (A *m flat (unzip1 s) 0 i) V, invmx V)]].
Proof.
move=> eok n0 bs s inv; have dI : pd inv by exact: inv_pd.
have band (x y : 'I_(n + K * n.+1).+1) : (y %/ n.+1 + w < x %/ n.+1)%N -> inv x y = 0 by exact: inv_band.
split=> //; first exact: size_new_series.
  move=> x y /orP[|h]; first exact: band.
  by have [sI _] := dI; rewrite -sI mxE; exact: band.
move=> i iK; have eN : ((n + K * n.+1).+1 = K.+1 * n.+1)%N by rewrite mulSn.
have iN : (i.+1 * n.+1 <= (n + K * n.+1).+1)%N by rewrite eN leq_mul2r ltnS iK orbT.
set S := sub (invmx inv) 0 _; have dS : pd S by apply: sub_pd (pd_inv dI); rewrite add0n addnC -mulSn.
exists (cond_coef S), (cond_cov S); split; [exact: cond_conditional | exact: cond_cov_pd |].
have sE : s = new_series mvn w (invmx inv) [::] K.+1 by [].
rewrite [in LHS]sE new_seriesP // cat0s -sE; set X := unzip1 (take i _).
have sX : size X = i by rewrite size_map size_takel // size_new_series; exact: leqW.
have br : (w <= minn i w)%N \/ minn i w = i by case: (leqP w i) => h; [left | right].
have wc := window_cov dI band (geq_minl i w) br iN.
have wm := window_mean dI band (geq_minl i w) br iN.
rewrite /new_sample sX /sample_at sX -/inv wc wm; congr (mvn _ (_ *m _) _, _); apply/colP => z.
rewrite !mxE; congr (fun_of_matrix _ _ _); rewrite /X /unzip1 map_take nth_take // add0n ltn_divLR //; exact: ltn_ord.
Qed.
Print Assumptions C166_exact.

(** C167: make_ticc_dataset_v3 makes no use of w_size: the matrix is the same for every window, and every cluster is drawn independently of
    what precedes it (zero coefficients), with the precision that is reported twice, as precs and as sparse_precs. *)
Theorem C167_window_refuted n eigh K (blk : nat -> nat -> 'M[R]_n.+1) clusters i w w' :
  (forall m, eigh_ok (@eigh m)) -> (forall c, (blk c 0%N)^T = blk c 0%N) -> (i <= K)%N ->
  let inv := v3_inv eigh K w blk clusters in
  let P := blk (nth 0%N clusters i) 0%N + (1 / 10%:R + `|min_eig eigh (inv_raw K 1 w blk clusters)|)%:M in
  [/\ v3_inv eigh K w' blk clusters = inv, pd P &
    v3_cluster n w inv i = (existT (fun r => 'M[R]_(n.+1, r * n.+1)) (minn i w) 0, invmx P, P, P)].
Proof.
move=> eok bs iK inv P; have dI : pd inv by exact: inv_pd.
have eN : ((n + K * n.+1).+1 = K.+1 * n.+1)%N by rewrite mulSn.
have iN : (i.+1 * n.+1 <= (n + K * n.+1).+1)%N by rewrite eN leq_mul2r ltnS iK orbT.
have PE : sub inv (i * n.+1) n.+1 = P by exact: inv_diag1.
have ww : inv_raw K 1 w' blk clusters = inv_raw K 1 w blk clusters.
  apply/matrixP => x y; rewrite !mxE /inv_block !divn1 !modn1 /diag /out_diag /bmc.
  by case: eqP => // _; case: eqP => // _; case: eqP.
split.
- by rewrite /inv /v3_inv /inv_shifted ww.
- by rewrite -PE; apply: sub_pd dI; rewrite addnC -mulSn.
have b1 (x y : 'I_(n + K * n.+1).+1) : (y %/ n.+1 < x %/ n.+1)%N -> inv x y = 0 by move=> h; apply: inv_band1.
have [k v] := diag_cond dI b1 (geq_minl i w) iN.
by rewrite /v3_cluster k v /sparse_prec PE invmxK.
Qed.
Print Assumptions C167_window_refuted.

(** C168: the random blocks. For a simple graph and non-zero values genInvCov is symmetric with zero diagonal and twice as many
    non-zero entries as the graph has edges; a value drawn has a modulus between low and upper; genRandInv has its
    non-zero entries where they were kept. *)
Theorem C168_blocks n (edges : seq ('I_n * 'I_n)) v :
  uniq edges -> (forall i j, (i, j) \in edges -> (j, i) \notin edges) -> (forall x, v x != 0) ->
  let S := genInvCov edges v true in
  [/\ S^T = S, forall i, S i i = 0, forall i j, (S i j != 0) = ((i, j) \in edges) || ((j, i) \in edges),
    #|[set x : 'I_n * 'I_n | S x.1 x.2 != 0]| = (2 * size edges)%N & forall x, x \in edges -> S x.1 x.2 = v x].
Proof.
move=> eu eo v0 S; split.
- exact: genInvCov_sym.
- by move=> i; rewrite genE // (negbTE (gen_noloop eo i)).
- by move=> i j; rewrite genE //; case: ((i, j) \in edges); [rewrite v0 | case: ((j, i) \in edges); [rewrite v0 | rewrite eqxx]].
- exact: gen_nnz.
- by move=> [i j] e; rewrite genE // e.
Qed.
Print Assumptions C168_blocks.
Theorem C168_values low upper bit u : 0 < low -> low <= upper -> 0 <= u -> u < 1 ->
  low <= `|entry_value low upper bit u| <= upper /\ (entry_value low upper bit u < 0 <-> bit = false).
Proof.
move=> h1 h2 h3 h4; have [a b] := entry_range bit h1 h2 h3 h4; split; first by rewrite a.
have p : 0 < low + (upper - low) * u.
  by apply: ltr_spaddl => //; rewrite mulr_ge0 // subr_ge0.
have num (z : R) : 0 < z -> (1 - 1 / 2%:R) * 2%:R * z = z /\ (0 - 1 / 2%:R) * 2%:R * z = - z by move=> _; split; mclra.
have [n1 n2] := num _ p; rewrite /entry_value; case: bit {a b}; rewrite ?n1 ?n2; split=> //.
  by rewrite ltNge ltW.
by move=> _; rewrite oppr_lt0.
Qed.
Print Assumptions C168_values.
Example C168_case : uniq [:: (ord0 : 'I_3, inord 1 : 'I_3); (inord 1, inord 2)] /\
  forall i j : 'I_3, (i, j) \in [:: (ord0 : 'I_3, inord 1 : 'I_3); (inord 1, inord 2)] -> (j, i) \notin [:: (ord0 : 'I_3, inord 1 : 'I_3); (inord 1, inord 2)].
Proof.
have ne (a b : nat) : (a < 3)%N -> (b < 3)%N -> a != b -> (inord a : 'I_3) == inord b = false.
  by move=> al bl ab; apply/negbTE; apply: contra ab => /eqP/(congr1 val); rewrite /= !inordK // => ->.
have z : (ord0 : 'I_3) = inord 0 by apply: val_inj; rewrite /= inordK.
split; first by rewrite /= inE xpair_eqE z ne.
by move=> i j; rewrite !inE !xpair_eqE z => /orP[] /andP[/eqP -> /eqP ->]; rewrite ?(ne 1%N 0%N) ?(ne 0%N 2%N) ?(ne 2%N 0%N) ?(ne 2%N 1%N) ?(ne 1%N 2%N) //= ?andbF.
Qed.
(** identity blocks meet the hypotheses of C165-C167 *)
Example C166_case : exists eigh : eigh_t, (forall m, eigh_ok (@eigh m)) /\ forall c : nat, ((1%:M : 'M[R]_3)^T = 1%:M).
Proof. by have [eigh h] := P_Fede.eigh_all; exists eigh; split=> // c; rewrite trmx1. Qed.
