(** Property theorems C155: graph_k_means. *)
From Coq Require Import Reals.
From mathcomp Require Import all_ssreflect all_algebra.
From Verif Require Import RStruct RTac NP S_Utils M_Utils M_Scores M_KMeans P_Scores.
Import Order.TTheory GRing.Theory Num.Theory.

Set Implicit Arguments.
Unset Strict Implicit.
Unset Printing Implicit Defensive.
Local Open Scope ring_scope.

(** the total distance of the graphs to their nearest representatives *)
Definition cost n (graphs reps : seq 'M[R]_n) : R :=
  \sum_(g <- graphs) graph_distance g (nth 0 reps (np_argmin [seq graph_distance g r | r <- reps])).

Lemma np_argminP (row : seq R) : row != [::] -> (np_argmin row < size row)%N /\ forall y, y \in row -> nth 0 row (np_argmin row) <= y.
Proof.
move=> ne; have h : has (fun x => all (fun y => x <= y) row) row.
  have [x xr hx] : exists2 x, x \in row & forall y, y \in row -> x <= y.
    elim: row ne => // a [|b l] IH _; first by exists a; rewrite ?mem_head // => y; rewrite inE => /eqP ->.
    have [//|x xr hx] := IH; case: (leP a x) => ax.
      by exists a; rewrite ?mem_head // => y; rewrite inE => /orP[/eqP -> //|/hx]; exact: le_trans.
    by exists x; rewrite ?(in_cons a) ?xr ?orbT // => y; rewrite inE => /orP[/eqP ->|/hx //]; exact: ltW.
  by apply/hasP; exists x => //; apply/allP.
split; first by rewrite -has_find.
by have := nth_find 0 h => /allP hy y; exact: hy.
Qed.

(** the graphs are assigned to nearest representatives; when no warning is given, the representatives are those of the assignment: a further round
    changes nothing *)
Theorem C155_nearest : forall n (graphs reps : seq 'M[R]_n) i r, (i < size graphs)%N -> r \in reps ->
  graph_distance (nth 0 graphs i) (nth 0 reps (nth 0%N (assign (distance_rows graphs reps)) i)) <= graph_distance (nth 0 graphs i) r.
Proof.
move=> n gs rs i r ig rin; rewrite /assign /distance_rows -map_comp (nth_map 0) //=.
set row := map _ rs; have ne : row != [::] by rewrite /row; case: (rs) rin.
have [lt' h] := np_argminP ne; rewrite /row size_map in lt'.
by rewrite -(nth_map 0 0 (fun r => graph_distance (nth 0 gs i) r)) //; apply: h; apply: map_f.
Qed.
Print Assumptions C155_nearest.
Theorem C155_converged : forall n (graphs : seq 'M[R]_n) ixs k max_iter kernel, graph_k_means ixs graphs k max_iter = Val (kernel, false) ->
  exists reps, [/\ reps != [::], reps = step graphs reps & kernel = kernel_of (distance_rows graphs reps)].
Proof.
move=> n gs ixs k m K; rewrite /graph_k_means.
have : forall reps lp ko, (forall l, lp = Some l -> reps = update gs l) -> rounds m gs reps lp ko = Val (K, false) ->
  exists reps, [/\ reps != [::], reps = step gs reps & K = kernel_of (distance_rows gs reps)].
  elim: m => [|m IH] reps lp ko inv /=; first by case: ko.
  case: reps inv => [|r rs] // inv; case: eqP => [e|_].
    by move=> [<-]; exists (r :: rs); split=> //; apply: inv.
  by apply: IH => l [<-].
by apply.
Qed.
Print Assumptions C155_converged.
(** expected of k-means: a round does not increase the total distance. A representative is the intersection of its cluster: m equal graphs and one
    with fewer edges are at total distance d from the first and m d after the round *)
Theorem C155_cost_refuted : forall n (g g' : 'M[R]_n) m, (forall i j, g' i j != 0 -> g i j != 0) ->
  let graphs := rcons (nseq m g) g' in
  cost graphs [:: g] = graph_distance g g' /\ cost graphs (step graphs [:: g]) = m%:R * graph_distance g g'.
Proof.
move=> n g g' m sub graphs.
have c1 r : cost graphs [:: r] = m%:R * graph_distance g r + graph_distance g' r.
  rewrite /cost /graphs -cats1 big_cat big_seq1 /= /np_argmin /= lexx /=; congr (_ + _).
  by rewrite big_nseq iter_addr addr0 lexx /= mulr_natl.
have dz : graph_distance g g = 0 by apply/distance_eq0 => i j.
split; first by rewrite c1 dz mulr0 add0r distance_sym.
have al : assign (distance_rows graphs [:: g]) = nseq m.+1 0%N.
  rewrite /assign /distance_rows -map_comp (eq_map (f2 := fun=> 0%N)) => [|x] /=; last by rewrite /np_argmin /= lexx.
  by rewrite /graphs map_rcons; elim: (m) => //= k ->.
have us : sort leq (undup (nseq m.+1 0%N)) = [:: 0%N].
  by have -> : undup (nseq m.+1 0%N) = [:: 0%N] by elim: (m) => //= k; rewrite inE /= => ->.
rewrite /step al /update us /=.
have -> : [seq gl.1 | gl <- zip graphs (0%N :: nseq m 0%N) & gl.2 == 0%N] = graphs.
  have sz : size graphs = m.+1 by rewrite size_rcons size_nseq.
  by rewrite -[0%N :: _]/(nseq m.+1 0%N) -sz; elim: (graphs) => //= a l ->.
have ne : graphs <> [::] by rewrite /graphs; case: (m).
have [M [eM hM]] := representative ne; rewrite /representative_of eM c1.
have hs : same_support g' (map_mx intr M : 'M[R]_n).
  move=> i j; rewrite mxE; case: (eqVneq (g' i j) 0) => [z|nz].
    have h0 : exists2 x, x \in graphs & x i j = 0 by exists g'; rewrite // mem_rcons mem_head.
    by rewrite ((hM i j).2 h0) mulr0z eqxx.
  rewrite ((hM i j).1 _) ?oner_eq0 // => x; by rewrite mem_rcons inE => /orP[/eqP ->|/nseqP[-> _]]; apply/eqP => //; exact: sub.
have -> : graph_distance g' (map_mx intr M) = 0 by apply/distance_eq0.
by rewrite addr0 !distanceE; congr (_ * (_%:R / _)); apply: eq_card => e; rewrite !inE -hs.
Qed.
Print Assumptions C155_cost_refuted.
(** graphs with the same edges are in the same cluster, with the same row of the kernel *)
Theorem C155_same : forall n (graphs reps : seq 'M[R]_n) i j, (i < size graphs)%N -> (j < size graphs)%N ->
  same_support (nth 0 graphs i) (nth 0 graphs j) ->
  nth 0%N (assign (distance_rows graphs reps)) i = nth 0%N (assign (distance_rows graphs reps)) j /\
  nth [::] (kernel_of (distance_rows graphs reps)) i = nth [::] (kernel_of (distance_rows graphs reps)) j.
Proof.
move=> n gs rs i j ig jg ss; have e : nth [::] (distance_rows gs rs) i = nth [::] (distance_rows gs rs) j.
  rewrite !(nth_map 0) //; apply: eq_map => r; rewrite !distanceE; congr (_%:R / _); apply: eq_card => x.
  by rewrite !inE ss.
split; first by rewrite !(nth_map [::]) ?size_map // e.
by rewrite /kernel_of !(nth_map [::]) ?size_map // e.
Qed.
Print Assumptions C155_same.
(** one cluster: a kernel without information, all its entries are 0 or nan, nan for the graphs that have the edges of the representative *)
Theorem C155_single_refuted : forall n (graphs : seq 'M[R]_n) r i j, (i < size graphs)%N -> (j < size graphs)%N ->
  nth NaN (nth [::] (kernel_of (distance_rows graphs [:: r])) i) j =
  if (graph_distance (nth 0 graphs i) r == 0) || (graph_distance (nth 0 graphs j) r == 0) then NaN else Fin 0.
Proof.
move=> n gs r i j ig jg; rewrite /kernel_of (nth_map [::]) ?size_map // (nth_map [::]) ?size_map //.
have e k : (k < size gs)%N -> nth [::] [seq similarity_row row | row <- distance_rows gs [:: r]] k =
  [:: if graph_distance (nth 0 gs k) r == 0 then NaN else Fin 0].
  move=> kg; rewrite (nth_map [::]) ?size_map // (nth_map 0) //= /similarity_row /=.
  have -> : np_max (graph_distance (nth 0 gs k) r) (graph_distance (nth 0 gs k) r) = graph_distance (nth 0 gs k) r by rewrite /np_max ltxx.
  rewrite /xdiv; case: eqP => // /eqP h; by rewrite divff //= subrr.
rewrite !e // /xdot /=.
by case: (graph_distance _ r == 0); case: (graph_distance (nth 0 gs j) r == 0); rewrite //= mulr0 addr0.
Qed.
Print Assumptions C155_single_refuted.
(** no iterations: an unbound variable; no clusters: an empty maximum *)
Theorem C155_raises : forall n (graphs : seq 'M[R]_n) ixs k max_iter,
  graph_k_means ixs graphs k 0 = Raise UnboundLocal /\ graph_k_means ixs graphs 0 max_iter.+1 = Raise ValueError.
Proof. by move=> n gs ixs k m; rewrite /graph_k_means take0. Qed.
Print Assumptions C155_raises.
(** three graphs, two of which have the same edges, in one cluster: converged, the graph that is the representative has no finite similarity *)
Example C155_case : let g := (1%:M : 'M[R]_2) in
  cost [:: g; g; g; 0] [:: g] = 1 /\ cost [:: g; g; g; 0] (step [:: g; g; g; 0] [:: g]) = 3%:R.
Proof.
move=> g; have [|-> ->] := @C155_cost_refuted 2 g 0 3.
  by move=> i j; rewrite mxE eqxx.
have -> : graph_distance g 0 = 1; last by rewrite mulr1.
rewrite distanceE (_ : #|_| = 2%N) ?divff ?pnatr_eq0 //.
rewrite (_ : xsupp g 0 = [set (0, 0); (1, 1)]) ?cards2 //.
apply/setP => -[i j]; rewrite !inE !mxE eqxx !xpair_eqE /=.
case: i => [[|[|i]] hi] //; case: j => [[|[|j]] hj] //; by rewrite -!val_eqE /= ?oner_eq0 ?eqxx.
Qed.
