(** Property theorems on graphlet_instability, on the fits of GraphicalModelStabilitySelection and on its table of results:
    C169-C172. *)
From Coq Require Import Reals String Permutation.
From mathcomp Require Import all_ssreflect all_algebra.
From Verif Require Import RStruct RTac NP Str M_Utils M_Stab P_Stab2 M_StabFit S_StabFit P_StabFit P_StabFit2.
Import Order.TTheory GRing.Theory Num.Theory.

Set Implicit Arguments.
Unset Strict Implicit.
Unset Printing Implicit Defensive.
Local Open Scope ring_scope.

(** * C169: the graphlet instability *)

(** the graph of an estimator: an edge for each pair with a nonzero entry, and no loops *)
Theorem C169_graph n (p : 'M[R]_n) (i j : 'I_n) :
  ((i, j) \in graph_edges p) = (i < j)%N && ((p i j != 0) || (p j i != 0)).
Proof. exact: graph_edgesP. Qed.
Print Assumptions C169_graph.

(** the distance between the graphs of two estimators *)
Definition graph_distance n G (gdv : seq ('I_n * 'I_n) -> G) (gcd : G -> G -> R) (p q : 'M[R]_n) : R :=
  gcd (gdv (graph_edges p)) (gdv (graph_edges q)).

(** the mean over the pairs of estimators of the distance between their graphs *)
Theorem C169_flat n G (gdv : seq ('I_n * 'I_n) -> G) (gcd : G -> G -> R) (ps : seq 'M[R]_n) : (1 < size ps)%N ->
  graphlet_instability gdv gcd (Flat ps) =
  Val ((\sum_(i < size ps) \sum_(j < size ps | (i < j)%N) graph_distance gdv gcd (nth 0 ps i) (nth 0 ps j)) / 'C(size ps, 2)%:R).
Proof.
move=> s1; have -> : graphlet_instability gdv gcd (Flat ps) =
    pair_mean (size ps) (pair_distances gcd (gdv [::]) [seq gdv (graph_edges p) | p <- ps]) by case: ps s1.
rewrite pair_meanE //; congr (Val (_ / _)).
rewrite -/(pairs_sum _ _ _) pairs_sum_ord size_map; apply: eq_bigr => i _; apply: eq_bigr => j _.
by rewrite !(nth_map 0).
Qed.
Print Assumptions C169_flat.

(** with several times: the mean over the times of the instabilities of each time *)
Theorem C169_timed n G (gdv : seq ('I_n * 'I_n) -> G) (gcd : G -> G -> R) T (ps : seq ('I_T -> 'M[R]_n)) (v : 'I_T -> R) : (1 < size ps)%N -> (0 < T)%N ->
  (forall t, graphlet_instability gdv gcd (Flat [seq p t | p <- ps]) = Val (v t)) ->
  graphlet_instability gdv gcd (Timed ps) = Val ((\sum_t v t) / T%:R).
Proof.
move=> s1 T0 hv; have Tn : (T == 0%N) = false by rewrite gtn_eqF.
have -> : graphlet_instability gdv gcd (Timed ps) =
    pair_mean (size ps) (pair_distances (fun g h => (\sum_t gcd (g t) (h t)) / T%:R) (fun=> gdv [::])
      [seq (fun t => gdv (graph_edges (p t))) | p <- ps]) by rewrite /graphlet_instability Tn; case: ps s1 {hv}.
rewrite pair_meanE //; congr Val.
have ev t : v t = (\sum_(i < size ps) \sum_(j < size ps | (i < j)%N)
    graph_distance gdv gcd (nth (fun=> 0) ps i t) (nth (fun=> 0) ps j t)) / 'C(size ps, 2)%:R.
  have := hv t; rewrite C169_flat ?size_map // => -[<-]; congr (_ / _).
  by apply: eq_bigr => i _; apply: eq_bigr => j _; rewrite !(nth_map (fun=> 0)).
under [in RHS]eq_bigr do rewrite ev.
rewrite -mulr_suml mulrAC; congr (_ / _).
rewrite -/(pairs_sum _ _ _) pairs_sum_ord size_map exchange_big mulr_suml; apply: eq_bigr => i _ /=.
rewrite exchange_big mulr_suml; apply: eq_bigr => j _ /=; congr (_ / _).
by apply: eq_bigr => t _; rewrite !(nth_map (fun=> 0)).
Qed.
Print Assumptions C169_timed.

(** between the smallest and the greatest distance of a pair *)
Theorem C169_range n G (gdv : seq ('I_n * 'I_n) -> G) (gcd : G -> G -> R) (ps : seq 'M[R]_n) m M v : (1 < size ps)%N ->
  (forall i j, (i < j < size ps)%N -> m <= graph_distance gdv gcd (nth 0 ps i) (nth 0 ps j) <= M) ->
  graphlet_instability gdv gcd (Flat ps) = Val v -> m <= v <= M.
Proof.
move=> s1 h; rewrite C169_flat // => -[<-].
have b0 : 0 < 'C(size ps, 2)%:R :> R by rewrite ltr0n bin_gt0.
rewrite -(pairs_sum_ord (graph_distance gdv gcd) 0) ler_pdivl_mulr // ler_pdivr_mulr // ![_ * 'C(_, _)%:R]mulrC.
by apply/andP; split; [apply: pairs_ge => i j /h /andP[] | apply: pairs_le => i j /h /andP[]].
Qed.
Print Assumptions C169_range.

(** the entries only count through the graph *)
Theorem C169_pattern n G (gdv : seq ('I_n * 'I_n) -> G) (gcd : G -> G -> R) (ps qs : seq 'M[R]_n) : size ps = size qs ->
  (forall k i j, i != j -> ((nth 0 ps k i j != 0) || (nth 0 ps k j i != 0)) = ((nth 0 qs k i j != 0) || (nth 0 qs k j i != 0))) ->
  graphlet_instability gdv gcd (Flat ps) = graphlet_instability gdv gcd (Flat qs).
Proof.
move=> s h; have -> : graphlet_instability gdv gcd (Flat ps) = if size ps == 0%N then Raise IndexError else
    pair_mean (size ps) (pair_distances gcd (gdv [::]) [seq gdv (graph_edges p) | p <- ps]) by case: (ps).
have -> : graphlet_instability gdv gcd (Flat qs) = if size qs == 0%N then Raise IndexError else
    pair_mean (size qs) (pair_distances gcd (gdv [::]) [seq gdv (graph_edges p) | p <- qs]) by case: (qs).
have -> : [seq gdv (graph_edges p) | p <- ps] = [seq gdv (graph_edges p) | p <- qs]; last by rewrite s.
apply: (@eq_from_nth _ (gdv [::])); rewrite !size_map // => k hk; rewrite !(nth_map 0) -?s //.
by rewrite (graph_edgesE (h k)).
Qed.
Print Assumptions C169_pattern.

(** the order of the estimators does not count, for a symmetric distance *)
Theorem C169_order n G (gdv : seq ('I_n * 'I_n) -> G) (gcd : G -> G -> R) (ps qs : seq 'M[R]_n) : (forall g h, gcd g h = gcd h g) -> Permutation ps qs -> (1 < size ps)%N ->
  graphlet_instability gdv gcd (Flat ps) = graphlet_instability gdv gcd (Flat qs).
Proof.
move=> sy pe s1; have s : size ps = size qs by exact: Permutation_length.
have s2 : (1 < size qs)%N by rewrite -s.
rewrite !C169_flat // -!(pairs_sum_ord (graph_distance gdv gcd) 0) s; congr (Val (_ / _)).
have two : (2%:R : R) != 0 by rewrite pnatr_eq0.
apply: (mulfI two); rewrite !pairs_sum_sym //; try by move=> *; exact: sy.
have bp (f : 'M[R]_n -> R) : \sum_(x <- ps) f x = \sum_(x <- qs) f x.
  by elim: pe => [|x l l' _ IH|x y l|l l' l'' _ IH _ IH'] //; rewrite ?big_cons ?IH ?IH' // addrCA.
by rewrite !bp; congr (_ - _); apply: eq_bigr => x _; exact: bp.
Qed.
Print Assumptions C169_order.

(** Expected: a value for every number of estimators, as global_instability has. Refuted: one estimator raises. *)
Theorem C169_single_refuted n G (gdv : seq ('I_n * 'I_n) -> G) (gcd : G -> G -> R) (p : 'M[R]_n) T (q : 'I_T -> 'M[R]_n) :
  graphlet_instability gdv gcd (Flat [:: p]) = Raise ZeroDivisionError /\
  graphlet_instability gdv gcd (Timed [:: q]) = Raise ZeroDivisionError.
Proof. by rewrite /= andbF /pair_mean. Qed.
Print Assumptions C169_single_refuted.

(** on the complete and the empty graph with 2 nodes, with the comparison of the numbers of edges as a distance *)
Example C169_case : graphlet_instability (fun e : seq ('I_2 * 'I_2) => e) (fun g h => if size g == size h then 0 else 1)
  (Flat [:: (1%:M : 'M[R]_2); const_mx 1; 1%:M]) = Val (2%:R / 3%:R).
Proof.
have e1 : graph_edges (1%:M : 'M[R]_2) = [::].
  apply/eqP; rewrite -size_eq0 -leqn0 leqNgt; apply/negP => h.
  case E: (graph_edges _) h => [|[i j] l] // _; have : (i, j) \in graph_edges (1%:M : 'M[R]_2) by rewrite E mem_head.
  rewrite C169_graph !mxE; have [->|ij] := eqVneq i j; first by rewrite ltnn.
  by rewrite eqxx andbF.
have e2 : (0 < size (graph_edges (const_mx 1%R : 'M[R]_2)))%N.
  have : (0 : 'I_2, 1 : 'I_2) \in graph_edges (const_mx 1 : 'M[R]_2) by rewrite C169_graph !mxE /= oner_neq0.
  by case: graph_edges.
rewrite C169_flat // -(pairs_sum_ord (graph_distance _ _) 0) !pairs_sum_cons pairs_sum_nil !big_cons !big_nil.
rewrite /graph_distance e1 [size [::] == size _]eq_sym !(negbTE (lt0n_neq0 e2)) /=.
by congr (Val (_ / _)); mclra.
Qed.

(** * C170: the size of the subsamples *)

(** the largest integer not above 10 sqrt(n) and n - 10 *)
Theorem C170_default n (k : nat) :
  (k%:Z <= fit_size None n None) = (k%:R <= 10%:R * sqrt n%:R :> R) && (k%:Z <= n%:Z - 10%:Z).
Proof.
rewrite /fit_size default_size_max; congr andb; last by rewrite ler_subr_addr -PoszD lez_nat.
have s0 : 0 <= sqrt n%:R by apply/RleP; apply: sqrt_pos.
rewrite -[RHS](@ler_pexpn2r _ 2) ?nnegrE ?ler0n ?mulr_ge0 ?ler0n // exprMn.
have -> : sqrt n%:R ^+ 2 = n%:R by rewrite expr2; apply: sqrt_sqrt; apply/RleP; rewrite ler0n.
by rewrite -!natrX -natrM ler_nat.
Qed.
Print Assumptions C170_default.

(** with labels: the largest multiple of the number of classes that is not above the size asked *)
Theorem C170_classes stored n k : (0 < k)%N ->
  let s := fit_size stored n None in
  [/\ (k %| `|fit_size stored n (Some k)|)%N, fit_size stored n (Some k) <= s & s < fit_size stored n (Some k) + k%:Z].
Proof. exact: fit_size_classes. Qed.
Print Assumptions C170_classes.

(** Expected: a positive size smaller than the number of samples. Refuted: at most 10 samples give a size <= 0, and so do more
    classes than the size. *)
Theorem C170_positive_refuted :
  (forall n, (n <= 10)%N -> fit_size None n None <= 0) /\
  (forall s n k, (s < k)%N -> fit_size (Some s%:Z) n (Some k) = 0).
Proof.
split=> [n h|s n k h].
  rewrite leNgt -lez_addr1 add0r; apply/negP; rewrite (default_size_pos n) ltnNge h //.
have kz : k != 0%N by rewrite -lt0n (leq_ltn_trans _ h).
rewrite /fit_size; case: eqP => [|_].
  by rewrite modz_nat modn_small // => /eqP; rewrite eqz_nat => /eqP ->.
by rewrite divz_nat divn_small // mul0r.
Qed.
Print Assumptions C170_positive_refuted.
Theorem C170_positive n : (10 < n)%N -> 0 < fit_size None n None <= n%:Z - 10%:Z.
Proof.
move=> h; rewrite -lez_addr1 add0r (default_size_pos n) h /= /fit_size /default_size.
by rewrite le_minl lexx orbT.
Qed.
Print Assumptions C170_positive.

(** Expected: the size is chosen for the data of each fit. Refuted: the first fit stores its size in the parameter, and the
    later ones reuse it, even if it is larger than their number of samples. *)
Theorem C170_second_fit_refuted :
  (forall n n', fit_size (Some (fit_size None n None)) n' None = fit_size None n None) /\
  exists n n', (10 < n')%N /\ n'%:Z < fit_size (Some (fit_size None n None)) n' None.
Proof.
by split=> //; exists 200%N, 100%N.
Qed.
Print Assumptions C170_second_fit_refuted.
Example C170_case : fit_size None 100 None = 90%:Z /\ fit_size None 100 (Some 7%N) = 84%:Z.
Proof.
have e : default_size 100 = 90%:Z.
  apply/eqP; rewrite eq_le; apply/andP; split; last by rewrite default_size_max.
  by rewrite /default_size le_minl lexx orbT.
by rewrite /fit_size e.
Qed.

(** * C171: the table of the results *)

(** each candidate is evaluated on the same splits; the column of a split, the mean, the standard deviation and the rank of a
    candidate are those of its own scores. [w]: the weights of the splits ([None]: equal). *)
Theorem C171_table C D (run : C -> D -> R) (c0 : C) (d0 : D) cs ds w out : all_out run cs ds = Val out -> weights_ok w (size ds) ->
  exists tb, [/\ store (size cs) (size ds) out w = Val tb,
    forall c s, (c < size cs)%N -> (s < size ds)%N -> nth 0 (nth [::] (tb_splits tb) s) c = run (nth c0 cs c) (nth d0 ds s),
    forall c, (c < size cs)%N -> nth 0 (tb_mean tb) c =
      (\sum_(s < size ds) weight_of w s * run (nth c0 cs c) (nth d0 ds s)) / \sum_(s < size ds) weight_of w s,
    forall c, (c < size cs)%N -> nth 0 (tb_std tb) c =
      sqrt ((\sum_(s < size ds) weight_of w s * (run (nth c0 cs c) (nth d0 ds s) - nth 0 (tb_mean tb) c) ^+ 2) /
            \sum_(s < size ds) weight_of w s)
  & forall c, (c < size cs)%N -> nth 0%N (tb_rank tb) c = (count (fun m => nth 0 (tb_mean tb) c < m) (tb_mean tb)).+1].
Proof.
rewrite /all_out; case: ltnP => // _ [<-] wok.
have := storeE run c0 d0 cs wok; cbv zeta => e; eexists; split; first exact: e.
- by move=> c s hc hs; rewrite /= (nth_map 0%N) ?size_iota // nth_iota // (nth_map 0%N) ?size_iota // nth_iota.
- by move=> c hc; rewrite /= (nth_map 0%N) ?size_iota // nth_iota.
- by move=> c hc; rewrite /= !(nth_map 0%N) ?size_iota // !nth_iota.
move=> c hc; rewrite /rank_min /= (nth_map NaN) ?size_map ?size_iota //; congr _.+1.
rewrite !(nth_map 0%N) ?size_iota // nth_iota // !count_map; apply: eq_count => i /=.
by rewrite ltr_oppl opprK.
Qed.
Print Assumptions C171_table.

(** the weights may not sum to zero *)
Theorem C171_weights n_candidates n_splits array w : (0 < n_candidates)%N -> \sum_(x <- w) x = 0 ->
  store n_candidates n_splits array (Some w) = Raise ZeroDivisionError.
Proof. by case: n_candidates => // m _ w0; rewrite /store /= w0 eqxx. Qed.
Print Assumptions C171_weights.

(** no candidates or no splits *)
Theorem C171_empty C D O (run : C -> D -> O) cs ds : all_out run cs ds = Raise ValueError <-> (size cs == 0%N) || (size ds == 0%N).
Proof.
rewrite /all_out size_allpairs; case: ltnP => h; split=> //.
  by move: h; rewrite ltnS leqn0 muln_eq0.
by rewrite -muln_eq0 eqn0Ngt h.
Qed.
Print Assumptions C171_empty.

(** the array of a parameter: its value for the candidates that have it, masked for the others *)
Theorem C171_params V (cs : seq (pydict V)) name c : all (fun p => uniq [seq kv.1 | kv <- p]) cs -> (c < size cs)%N ->
  cell (param_results cs) ("param_" ++ name)%string c = dict_get (nth [::] cs c) name.
Proof.
move=> u hc; rewrite /param_results (cell_rows _ _ _ _ _ u) add0n leq0n hc subn0.
by case: (dict_get _ _).
Qed.
Print Assumptions C171_params.
Example C171_case : weights_ok (Some [:: 1; 2%:R]) 2 /\
  all_out (fun c d : nat => (c + d)%N) [:: 1%N; 2%N] [:: 0%N; 5%N] = Val [:: 1%N; 6%N; 2%N; 7%N].
Proof. by split=> //; split=> //; rewrite !big_cons big_nil; apply/eqP => h; mclra. Qed.

(** * C172: the candidate that is kept *)

(** with one scorer and no callable refit: the first rank of the instabilities, whatever refit is *)
Theorem C172_one scorers refit rank n : (if refit is RefitCall _ then False else True) ->
  best_index false scorers refit rank n = Val (Some (argmin (rank "instability"%string))%:Z).
Proof. by case: refit => // b _; rewrite /best_index /= orbT. Qed.
Print Assumptions C172_one.

(** Expected: the most stable candidate. Refuted with several scorers: the candidate with the highest mean of the scorer named
    by refit, and the instabilities are not read. *)
Theorem C172_several_refuted C D (run : string -> C -> D -> R) (c0 : C) (d0 : D) cs ds w rank scorers (name : string) tb : cs <> [::] ->
  name \in scorers -> name != ""%string -> weights_ok w (size ds) ->
  store (size cs) (size ds) [seq run name c d | c <- cs, d <- ds] w = Val tb -> rank name = tb_rank tb ->
  exists k : nat, [/\ best_index true scorers (RefitName name) rank (size cs) = Val (Some k%:Z), (k < size cs)%N,
    forall j, (j < size cs)%N -> nth 0 (tb_mean tb) j <= nth 0 (tb_mean tb) k
  & forall j, (j < k)%N -> nth 0 (tb_mean tb) j < nth 0 (tb_mean tb) k].
Proof.
move=> cs0 ns n0 wok; rewrite (storeE (run name) c0 d0 cs wok) => -[<-] /= er.
rewrite /best_index /refit_true ns n0 /= er; eexists; split; first reflexivity.
all: set xs := [seq Fin _ | c <- _].
all: have nn : all notnan xs by rewrite /xs all_map; apply/allP.
all: have xs0 : xs <> [::] by rewrite /xs; case: (cs) cs0.
all: have [h1 h2 h3] := argmin_rank nn xs0.
all: have sx : size xs = size cs by rewrite size_map size_iota.
all: rewrite sx in h1 h2 h3.
- by [].
- move=> j hj; have := h2 j hj; rewrite /xs !(nth_map 0%N) ?size_iota // !nth_iota //= -leNgt ler_opp2; exact.
- move=> j hj; have hj' := ltn_trans hj h1; have := h3 j hj; rewrite /xs !(nth_map 0%N) ?size_iota // !nth_iota //= ltr_opp2; exact.
Qed.
Print Assumptions C172_several_refuted.

(** with several scorers the default refit=True is an error, and refit=False keeps nothing *)
Theorem C172_flag scorers rank n :
  best_index true scorers (RefitFlag true) rank n = Raise ValueError /\
  best_index true scorers (RefitFlag false) rank n = Val None.
Proof. by []. Qed.
Print Assumptions C172_flag.

(** a callable must return an index of a candidate *)
Theorem C172_callable multi scorers rank n i :
  best_index multi scorers (RefitCall i) rank n =
  match i with None => Raise TypeError | Some i => if (0 <= i) && (i < n%:Z) then Val (Some i) else Raise IndexError end.
Proof.
case: i => [i|]; rewrite /best_index andbF //=.
by case: (ltP i 0) => h1 /=; case: (ltP i n%:Z).
Qed.
Print Assumptions C172_callable.
Example C172_case : best_index true [:: "a"%string; "b"%string] (RefitName "b"%string)
  (fun s => if s == "b"%string then [:: 2; 1]%N else [:: 1; 2]%N) 2 = Val (Some 1%:Z).
Proof. by []. Qed.
