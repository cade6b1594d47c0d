(** C126-C128: the generator of Poisson graphs and the Poisson samplers. *)
From Coq Require Import Reals String.
From mathcomp Require Import all_ssreflect all_algebra.
From Verif Require Import RStruct RTac NP Str M_Ising M_Poisson P_Ising7 P_Poisson.
Import Order.TTheory GRing.Theory Num.Theory.

Set Implicit Arguments.
Unset Strict Implicit.
Unset Printing Implicit Defensive.
Local Open Scope ring_scope.

(** * C126: the generator of graphs *)

(** for every stream of draws: max(1, T) matrices, each symmetric with zero diagonal; from one time to the next edges are
    only removed, never added or reweighted *)
Theorem C126_valid p (graph : 'M[R]_p) T mode n_to_change pairs keep fuel out : graph = graph^T ->
  poisson_theta_generator graph T mode n_to_change pairs keep fuel = Some out ->
  ((1 < T)%N /\ mode = "reshuffle"%string /\ out = IRaise IValueError) \/
  exists graphs, out = IOk graphs /\ size graphs = maxn 1 T /\
    (forall G, G \in graphs -> G = G^T /\ forall i, G i i = 0) /\
    (forall i j, nth 0 graphs 0 i j = 0 \/ nth 0 graphs 0 i j = graph i j) /\
    (forall t, (t.+1 < size graphs)%N -> forall i j,
       nth 0 graphs t.+1 i j = 0 \/ nth 0 graphs t.+1 i j = nth 0 graphs t i j).
Proof. exact: pgen_ok. Qed.
Print Assumptions C126_valid.

(** one update ends as soon as a pass draws no pair (r, r) *)
Theorem C126_ends p (G : 'M[R]_p) how_many pairs keep K : G = G^T ->
  (forall k, has (fun rc : 'I_p * 'I_p => rc.1 == rc.2) (pairs k) = (k < K)%N) ->
  exists H, forall fuel, (K < fuel)%N -> update_l1 G how_many pairs keep fuel = Some (IOk H).
Proof.
move=> s h; case: how_many => [|n]; first by exists G => fuel _; rewrite /update_l1 -s eqxx.
have [H hH] := ploop_ends keep G h; exists H => fuel kf; rewrite /update_l1 hH //.
by have [s' _] := ploop_ok s (hH _ kf); rewrite {1}s' eqxx.
Qed.
Print Assumptions C126_ends.

(** with a single variable it never ends *)
Theorem C126_one_variable (G : 'M[R]_1) n pairs keep fuel :
  (forall k, size (pairs k) = n.+1) -> update_l1 G n.+1 pairs keep fuel = None.
Proof.
move=> sz; rewrite /update_l1.
have -> // : forall k G, poisson_update_loop pairs keep fuel k G = None.
elim: fuel => [|fuel IH] k th //=; rewrite ifT ?IH //.
by have := sz k; case: (pairs k) => // rc l _ /=; rewrite !ord1 eqxx.
Qed.
Print Assumptions C126_one_variable.

(** more edges than asked can be removed: with two asked, a run removes the three edges of a triangle *)
Theorem C126_count_refuted : exists (G : 'M[R]_3) pairs keep H,
  G = G^T /\ (forall i j, i != j -> G i j = 1) /\ (forall k, size (pairs k) = 2%N) /\
  update_l1 G 2 pairs keep 2 = Some (IOk H) /\ H = 0.
Proof.
pose a : 'I_3 := ord0; pose b : 'I_3 := lift ord0 ord0; pose c : 'I_3 := ord_max.
pose G : 'M[R]_3 := \matrix_(i, j) (i != j)%:R.
pose pairs (k : nat) : seq ('I_3 * 'I_3) := if k == 0%N then [:: (a, a); (a, b)] else [:: (a, c); (b, c)].
have s : G = G^T by apply/matrixP => i j; rewrite !mxE eq_sym.
exists G, pairs, (fun _ _ => false).
set H := poisson_changes (poisson_changes G (pairs 0%N) (fun=> false)) (pairs 1%N) (fun=> false).
have e : poisson_update_loop pairs (fun _ _ => false) 2 0 G = Some H by [].
have [s' _] := ploop_ok s e.
exists H; split=> //; split; first by move=> i j ij; rewrite mxE ij.
split; first by case.
split; first by rewrite /update_l1 e {1}s' eqxx.
apply/matrixP => i j; rewrite /H /poisson_changes /= !set_symE !mxE.
by case: i => [[|[|[|i]]] hi] //; case: j => [[|[|[|j]]] hj].
Qed.
Print Assumptions C126_count_refuted.

Example C126_case : exists out,
  poisson_theta_generator (const_mx 1 : 'M[R]_2) 2 "l1" 1 (fun _ _ => [:: (ord0, ord_max)]) (fun _ _ _ => false) 1
  = Some (IOk out).
Proof.
rewrite /poisson_theta_generator /=.
set G := zero_diagonal _; have s : G = G^T by apply: zd_sym; apply/matrixP => i j; rewrite !mxE.
have [|H h] := C126_ends 1 (pairs := fun=> [:: (ord0, ord_max)]) (fun _ _ => false) (K := 0) s; first by [].
by have := h 1%N isT; rewrite /update_l1 /=; case: ifP => // _ _; eexists.
Qed.

(** * C127: the local Poisson sampler *)

(** for a symmetric 0/1 graph and lambda <> 0: each variable is its own count, plus one count per neighbour that it shares
    with that neighbour and with no other variable, plus noise; all the counts are drawn with rate lambda. [e i j] is the
    number of the call of np.random.poisson that draws the count shared by i and j. *)
Theorem C127_counts p (theta : 'M[R]_p) (lambda : R) pois noise : lambda != 0 -> theta = theta^T ->
  (forall i j, i != j -> theta i j = 0 \/ theta i j = 1) ->
  exists X (e : 'I_p -> 'I_p -> nat), lpgm_sampler theta lambda pois noise = IOk X /\
    (forall s i, X s i = (pois i s lambda)%:R + \sum_(j | (j != i) && (theta i j == 1)) (pois (e i j) s lambda)%:R +
                         (noise s i)%:R) /\
    (forall i j, e i j = e j i /\ (p <= e i j)%N) /\
    (forall i j k l, i != j -> theta i j = 1 -> k != l -> theta k l = 1 -> e i j = e k l ->
       (i = k /\ j = l) \/ (i = l /\ j = k)).
Proof.
move=> l0 s z1; rewrite /lpgm_sampler rateE size_cat size_nseq adj_size size_map eqn_add2l lp_sizes // ifT; last first.
  by apply/forallP => i; apply/forallP => j; apply/implyP => /z1 [] ->; rewrite eqxx ?orbT.
set A := adjacency_to_A _ _; set Y := nseq _ _ ++ _.
have Yl k : (k < size Y)%N -> nth 0 Y k = lambda.
  move=> kY; apply/eqP; have : all (fun y => y == lambda) Y; last by move/allP; apply; apply: mem_nth.
  rewrite all_cat all_nseq eqxx orbT /=; apply/allP => y /mapP [[a b]].
  rewrite mem_filter lo_mem /= mulf_eq0 (negbTE l0) /= => /andP [nz ba] ->.
  have ab : a != b by apply: contraL ba => /eqP ->; rewrite ltnn.
  by case: (z1 _ _ ab) nz => ->; rewrite ?eqxx ?mulr1.
have szA : size Y = size A.
  rewrite size_cat size_nseq adj_size size_map; congr (_ + _)%N; apply/eqP; rewrite lp_sizes //.
  by apply/forallP => i; apply/forallP => j; apply/implyP => /z1 [] ->; rewrite eqxx ?orbT.
eexists; exists (slot theta); split; first by [].
split; last by split; [move=> i j; split; [exact: slotC | exact: slot_ge] | move=> *; exact: (@slot_inj p theta)].
move=> st i /=; congr (_ + _); rewrite -(lp_sum s (fun k => (pois k st lambda)%:R) i).
rewrite -adj_size -/A.
by apply: eq_bigr => k _; rewrite Yl // szA.
Qed.
Print Assumptions C127_counts.

(** for a symmetric graph and lambda <> 0, a weight other than 0 and 1 raises ValueError, and nothing else does *)
Theorem C127_weights_refuted p (theta : 'M[R]_p) (lambda : R) pois noise : lambda != 0 -> theta = theta^T ->
  lpgm_sampler theta lambda pois noise = IRaise IValueError <-> exists i j, [/\ i != j, theta i j <> 0 & theta i j <> 1].
Proof.
move=> l0 s; rewrite /lpgm_sampler rateE size_cat size_nseq adj_size size_map eqn_add2l lp_sizes //.
case: ifP => [/forallP h|/negbT h]; split=> //.
- case=> i [j [ij n0 n1]]; have := forallP (h i) j; rewrite ij /=; by case/orP=> /eqP.
- move=> _; move: h; rewrite negb_forall => /existsP [i]; rewrite negb_forall => /existsP [j].
  by rewrite negb_imply negb_or => /and3P [ij /eqP n0 /eqP n1]; exists i, j.
Qed.
Print Assumptions C127_weights_refuted.

Example C127_case : exists X, lpgm_sampler (\matrix_(i < 3, j < 3) (i != j)%:R) 1 (fun _ _ _ => 1%N) (fun _ _ => 0%N) = IOk X.
Proof.
have [||i j ij|X [e [h _]]] := @C127_counts 3 (\matrix_(i < 3, j < 3) (i != j)%:R) 1 (fun _ _ _ => 1%N) (fun _ _ => 0%N).
- exact: oner_neq0.
- by apply/matrixP => i j; rewrite !mxE eq_sym.
- by right; rewrite mxE ij.
- by exists X.
Qed.

(** * C128: the Gibbs sampler *)

(** one sweep redraws each variable in turn from a Poisson law of rate exp(variance_i + sum of theta_ji x_j over the
    others), where x_j is already redrawn for j < i and not yet for j > i; the diagonal of theta plays no part *)
Theorem C128_sweep p (theta : 'M[R]_p) variances draw (x : {ffun 'I_p -> R}) i :
  let x' := gibbs_sweep theta variances draw x in
  x' i = (draw i (exp (variances i + (\sum_(j : 'I_p | (j < i)%N) x' j * theta j i +
                                      \sum_(j : 'I_p | (i < j)%N) x j * theta j i))))%:R.
Proof. exact: sweep_ok. Qed.
Print Assumptions C128_sweep.
(** every row is a vector of natural numbers; without sweeps it is the starting row *)
Theorem C128_counts p (theta : 'M[R]_p) variances max_iter start draw s i :
  exists n : nat, gibbs_sampler theta variances max_iter start draw s i = n%:R /\ (max_iter = 0%N -> n = start s i).
Proof.
rewrite /gibbs_sampler; set v := if variances is Some v then v else _.
case: max_iter => [|m]; first by exists (start s i); rewrite /= ffunE.
by rewrite -addn1 iotaD foldl_cat /= sweep_ok; eexists; split; first by []; rewrite addn1.
Qed.
Print Assumptions C128_counts.
Example C128_case : gibbs_sweep (1 : 'M[R]_1) (fun=> 0) (fun _ l => if l == 1 then 3%N else 5%N) [ffun=> 7%:R] ord0 = 3%:R.
Proof. rewrite sweep_ok !big_pred0 => [|j|j]; rewrite ?ord1 // !addr0; have -> : exp 0 = 1 := exp_0; by rewrite eqxx. Qed.
