(** C161-C163: the time series of make_cluster_representative. *)
From Coq Require Import Reals.
From mathcomp Require Import all_ssreflect all_algebra.
From Verif Require Import RStruct RTac NP S_Mat P_Utils2 M_ClusterRep P_ClusterRep P_ClusterRep2 P_ClusterRep3.
Import Order.TTheory GRing.Theory Num.Theory.

Set Implicit Arguments.
Unset Strict Implicit.
Unset Printing Implicit Defensive.
Local Open Scope ring_scope.

(** C161: with k clusters and k < T the function returns; the clusters follow each other cyclically every T // (k + 1) times, the
    matrix at each of these times is the representative of its cluster, and the last matrix is a representative too. *)
Theorem C161_times n (adj : nat -> seq 'M[R]_n) shuffle rand T k : (0 < k < T)%N -> size (adj k) = k ->
  let step := (T %/ k.+1)%N in
  exists thetas series, [/\ make_cluster_representative adj shuffle rand T k None = COk (thetas, series),
    size thetas = (if (step %| T.-1)%N then T.+1 else T),
    last 0 thetas = nth 0 (adj k) (last 0%N series),
    (forall i, (i < size series)%N -> nth 0%N series i = (i %% k)%N) &
    forall i, (i * step < T)%N -> nth 0 thetas (i * step) = nth 0 (adj k) (nth 0%N series i)].
Proof.
move=> kT ak step; have [thetas [series [e sz la [ss sn] nt]]] := make_times shuffle rand kT ak.
have T0 : (0 < T)%N by case/andP: kT => k0 kT; exact: ltn_trans kT.
have s0 : (0 < step)%N by case/andP: kT => k0 kT; rewrite divn_gt0.
exists thetas, series; split=> // i it; have im : (i <= T.-1 %/ step)%N by rewrite leq_divRL // -ltnS prednK.
rewrite sn; last by rewrite ss !ltnS ltnW.
by have := nt i 0%N im; rewrite addn0 => -> //; case: ifP.
Qed.
Print Assumptions C161_times.

(** There are T + 1 matrices, and so T + 1 different times in y, when T // (k + 1) divides T - 1: here for T = 10 and two clusters. *)
Theorem C161_count_refuted : exists n T k (adj : nat -> seq 'M[R]_n) shuffle rand thetas series,
  make_cluster_representative adj shuffle rand T k None = COk (thetas, series) /\ size thetas = T.+1 /\ T \in time_labels thetas 1.
Proof.
exists 1%N, 10%N, 2%N, (fun k => nseq k 1%:M), (fun _ _ l => l), (fun _ _ _ => 0).
have [//||thetas [series [e sz _ _ _]]] := @C161_times 1%N (fun k => nseq k 1%:M) (fun _ _ l => l) (fun _ _ _ => 0) 10 2; first by [].
exists thetas, series; split=> //; have {}sz : size thetas = 11%N := sz; split=> //.
by rewrite /time_labels sz.
Qed.
Print Assumptions C161_count_refuted.

(** The errors: as many clusters as times, a series of the wrong length, a label that is not below the number of labels. *)
Theorem C161_errors n (adj : nat -> seq 'M[R]_n) shuffle rand T :
  (forall k, (T <= k)%N -> make_cluster_representative adj shuffle rand T k None = CRaise CZeroDivisionError) /\
  (forall k s, let m := size (undup s) in (m < T)%N -> let len := (T.-1 %/ (T %/ m.+1)).+2 in
    (size s != len -> make_cluster_representative adj shuffle rand T k (Some s) = CRaise CAssertionError) /\
    (size s = len -> size (adj m) = m -> ~~ all (fun a => a < m)%N s -> make_cluster_representative adj shuffle rand T k (Some s) = CRaise CIndexError) /\
    (size s = len -> size (adj m) = m -> all (fun a => a < m)%N s ->
       exists thetas, make_cluster_representative adj shuffle rand T k (Some s) = COk (thetas, s))).
Proof.
split=> [k Tk|k s m mT len].
  by rewrite /make_cluster_representative /positions divn_small // ltnS.
have [s0 pE gE] := positionsE mT; rewrite /make_cluster_representative /n_clusters_of -/m pE /series_of size_rcons size_map size_iota -/len.
split; [|split].
- by move=> sl; rewrite (negbTE sl).
- by move=> sl am nl; rewrite sl eqxx segments_index ?am // size_rcons size_map size_iota.
- move=> sl am al; rewrite sl eqxx.
  have [||rest -> _] := @segmentsP n (adj m) shuffle rand (rcons [seq (i * (T %/ m.+1))%N | i <- iota 0 (T.-1 %/ (T %/ m.+1)).+1] T.-1) s 0; rewrite ?am //.
    by rewrite size_rcons size_map size_iota sl.
  by eexists.
Qed.
Print Assumptions C161_errors.

(** C162: between two representatives. [start] and [target] have symmetric supports (as the matrices of C163). Every matrix
    on the way differs from [start] only at entries that are zero in exactly one of [start] and [target]; there it has the
    support of [target], a value in [0, 0.2), the same on both sides of the diagonal; and the number of entries whose
    support is not yet that of [target] falls by at least [e] (as long as there are that many) and at most 2 [e] each time. *)
Definition wrong n (A B : 'M[R]_n) : nat := #|[set x : 'I_n * 'I_n | (A x.1 x.2 != 0) != (B x.1 x.2 != 0)]|.
Theorem C162_path n (start target : 'M[R]_n) shuffle rand h s :
  (forall i l, perm_eq (shuffle i l) l) -> (forall i k, 0 < rand i k < 1) ->
  (forall i j, (start i j != 0) = (start j i != 0)) -> (forall i j, (target i j != 0) = (target j i != 0)) -> (s <= h)%N ->
  let A := nth 0 (segment shuffle rand start target h) s in
  let e := maxn 1 (wrong start target %/ (2 * h.+1)) in
  [/\ size (segment shuffle rand start target h) = h.+1,
    forall i j, A i j <> start i j -> [/\ (start i j != 0) != (target i j != 0), (A i j != 0) = (target i j != 0), 0 <= A i j < 20%:R / 100%:R & A j i = A i j],
    forall i j, (A i j != 0) = (A j i != 0),
    (wrong A target + minn (s * e) (wrong start target) <= wrong start target)%N &
    (wrong start target <= wrong A target + 2 * (s * e))%N].
Proof.
move=> shP r0 sS sT sh A e; rewrite /wrong -!size_differs.
have ee : edges_per_change start target h = e.
  by rewrite /edges_per_change size_differs /e /wrong; case: eqP => [->|/eqP] //; rewrite -lt0n => h0; rewrite (maxn_idPr h0).
have [b sA c1 c2] : inv e start target s A.
  rewrite /A /segment ee; case: s sh {A} => [|s] sh /=; first exact: inv_start.
  exact: (path_inv shP r0 sT 0 (inv_start e target sS) sh).
split; [by rewrite size_segment | | exact: sA | exact: c1 | exact: c2].
by move=> i j ne; have [|[]] := b i j.
Qed.
Print Assumptions C162_path.

(** So no matrix before the target has its support, when at least 2 (h + 1) entries change. *)
Theorem C162_not_early n (start target : 'M[R]_n) shuffle rand h s :
  (forall i l, perm_eq (shuffle i l) l) -> (forall i k, 0 < rand i k < 1) ->
  (forall i j, (start i j != 0) = (start j i != 0)) -> (forall i j, (target i j != 0) = (target j i != 0)) -> (s <= h)%N ->
  (2 * h.+1 <= wrong start target)%N -> exists i j, (nth 0 (segment shuffle rand start target h) s i j != 0) != (target i j != 0).
Proof.
move=> shP r0 sS sT sh big; have [_ _ _ _] := C162_path shP r0 sS sT sh.
have q0 : (0 < wrong start target %/ (2 * h.+1))%N by rewrite divn_gt0.
rewrite (maxn_idPr q0) => up'; suff : (0 < wrong (nth 0%R (segment shuffle rand start target h) s) target)%N.
  by rewrite card_gt0 => /set0Pn[[i j]]; rewrite inE /=; exists i, j.
rewrite lt0n; apply: contraL up' => /eqP ->; rewrite add0n -ltnNge.
apply: (@leq_trans (2 * (h.+1 * (wrong start target %/ (2 * h.+1)))))%N; last by rewrite mulnA [X in (X <= _)%N]mulnC leq_trunc_div.
by rewrite ltn_mul2l /= ltn_mul2r q0 ltnS.
Qed.
Print Assumptions C162_not_early.

(** The same inside the result: time i * step + s, between the representatives of the clusters i mod k and i + 1 mod k. *)
Theorem C162_inside n (adj : nat -> seq 'M[R]_n) shuffle rand T k : (0 < k < T)%N -> size (adj k) = k ->
  let step := (T %/ k.+1)%N in
  exists thetas series, make_cluster_representative adj shuffle rand T k None = COk (thetas, series) /\
    forall i s, (i.+1 * step < T)%N -> (s < step)%N -> nth 0 thetas (i * step + s) =
      nth 0 (segment (shuffle i) (rand i) (nth 0 (adj k) (i %% k)) (nth 0 (adj k) (i.+1 %% k)) step.-1) s.
Proof.
move=> kT ak step; have [thetas [series [e sz la [ss sn] nt]]] := make_times shuffle rand kT ak.
have T0 : (0 < T)%N by case/andP: kT => k0 kT; exact: ltn_trans kT.
have s0 : (0 < step)%N by case/andP: kT => k0 kT; rewrite divn_gt0.
exists thetas, series; split=> // i s it sl; have im : (i < T.-1 %/ step)%N by rewrite leq_divRL // -ltnS prednK.
by have := nt i s (ltnW im); rewrite -/step im => ->.
Qed.
Print Assumptions C162_inside.

(** C163: the representatives have unit diagonal and the support of the graph; with degrees of at most two, what pinvh inverts
    (the lower triangle) is positive definite. But when the numbers drawn differ, no edge has the same weight in its two
    directions: the matrix is not symmetric and not the one the samples are drawn from. *)
Theorem C163_representative n (edge : rel 'I_n) (w : nat -> R) :
  symmetric edge -> irreflexive edge -> (forall k, 0 < w k < 1) ->
  let A := rep_matrix edge w in
  [/\ forall i, A i i = 1, forall i j, i != j -> (A i j != 0) = edge i j & forall i j, i != j -> 0 <= A i j < 45%:R / 100%:R] /\
  ((forall i, #|[set j | edge i j]| <= 2)%N -> pd (lower_sym A)) /\
  (injective w -> forall i j, edge i j -> A i j <> A j i) /\
  (injective w -> (exists i j, edge i j) -> ~ sym A /\ lower_sym A <> A).
Proof.
move=> es ei w0 A; have ns := @rep_not_sym n edge w es ei.
split; first split.
- by move=> i; rewrite mxE eqxx.
- by move=> i j ij; have := rep_supp edge w0 i j; rewrite /supp (negbTE ij) => ->.
- move=> i j ij; rewrite mxE (negbTE ij); case: (edge i j); last by rewrite lexx /= divr_gt0 ?ltr0n.
  have num (r : R) : 0 < r -> r < 1 -> 0 <= r * (45%:R / 100%:R) < 45%:R / 100%:R by move=> h1 h2; apply/andP; split; mclra.
  by case/andP: (w0 (weight_ix edge i j)) => a b; exact: num.
split; first exact: rep_pd.
split=> // wi [i [j e]]; have h := ns wi i j e; split=> c; apply: h.
  by have := congr1 (fun B : 'M[R]_n => B j i) c; rewrite mxE.
have s := congr1 (fun B : 'M[R]_n => B j i) (lower_sym_sym A); by rewrite c mxE in s.
Qed.
Print Assumptions C163_representative.

(** With degree three the matrix need not be positive semidefinite: the complete bipartite graph on three and three nodes. *)
Theorem C163_degree3_refuted : exists (edge : rel 'I_6) (w : nat -> R), [/\ symmetric edge, irreflexive edge, forall i, #|[set j | edge i j]| = 3%N,
  forall k, 0 < w k < 1 & ~ psd (lower_sym (rep_matrix edge w))].
Proof.
exists bip, (fun=> c99); split; [exact: bip_sym | exact: bip_irr | exact: bip_deg | by move=> _; exact: c99_range |].
by move=> [_ h]; have [v] := bip_not_psd; rewrite ltNge h.
Qed.
Print Assumptions C163_degree3_refuted.

(** With degree two (the default) a matrix between two representatives need not be positive semidefinite either. *)
Theorem C163_between_refuted : exists (edge edge' : rel 'I_6) (w : nat -> R) shuffle,
  [/\ symmetric edge /\ symmetric edge', irreflexive edge /\ irreflexive edge',
    forall i, #|[set j | edge i j]| = 2%N /\ #|[set j | edge' i j]| = 2%N, (forall k, 0 < w k < 1) /\ (forall l, perm_eq (shuffle l) l) &
    ~ psd (lower_sym (nth 0 (segment (fun=> shuffle) (fun=> w) (rep_matrix edge w) (rep_matrix edge' w) 1) 1))].
Proof.
exists e1, e2, (fun=> c99), sh6; split.
- by split; [exact: e1_sym | exact: e2_sym].
- by split; [exact: e1_irr | exact: e2_irr].
- by move=> i; rewrite e1_deg e2_deg.
- by split=> [_|]; [exact: c99_range | exact: sh6P].
move=> [_ h]; have [v] := mid6_not_psd; rewrite ltNge; apply/negP/negPn.
have -> : mid6 = nth 0 (segment (fun=> sh6) (fun=> fun=> c99) A6 B6 1) 1; last exact: h.
by rewrite /segment /edges_per_change size6 /mid6.
Qed.
Print Assumptions C163_between_refuted.

(** two graphs with six nodes meet the hypotheses of C162 *)
Example C162_case : (forall l, perm_eq (sh6 l) l) /\ (forall i j, (A6 i j != 0) = (A6 j i != 0)) /\ (forall i j, (B6 i j != 0) = (B6 j i != 0)) /\
  wrong A6 B6 = 12%N.
Proof.
split; first exact: sh6P.
split; first exact: (rep_supp_sym e1_sym (fun=> c99_range)).
by split; [exact: (rep_supp_sym e2_sym (fun=> c99_range)) | rewrite /wrong -size_differs size6].
Qed.
(** fifteen times and three clusters, the default: fifteen matrices *)
Example C161_case : (0 < 3 < 15)%N /\ ((15 %/ 4) %| 14)%N = false /\ ((10 %/ 3) %| 9)%N.
Proof. by []. Qed.
(** a graph and different weights *)
Example C163_case : symmetric (fun i j : 'I_3 => i != j) /\ (forall i : 'I_3, #|[set j | i != j]| <= 2)%N /\
  injective (fun k : nat => (k.+2%:R)^-1 : R) /\ forall k : nat, 0 < ((k.+2%:R)^-1 : R) < 1.
Proof.
split; first by move=> i j; rewrite eq_sym.
split.
  move=> i; have -> : [set j | i != j] = [set~ i] by apply/setP=> j; rewrite !inE eq_sym.
  by rewrite cardsC1 card_ord.
split; first by move=> i j /invr_inj /eqP; rewrite eqr_nat => /eqP [].
by move=> k; rewrite invr_gt0 ltr0n /= invf_lt1 ?ltr0n // ltr1n.
Qed.
