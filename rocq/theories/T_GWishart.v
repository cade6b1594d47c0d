(** Property theorems C54, C93-C99: graph enumeration, Markov blankets, covariance selection, scores of graphs. *)
From Coq Require Import Reals.
From mathcomp Require Import all_ssreflect all_algebra.
From Verif Require Import RStruct RTac LinTac S_Mat S_Fit NP M_Utils M_GL M_Fit M_GWishart.
From Verif Require Import RMx P_Prox P_LGL P_Fit P_GWishart.
Import Order.TTheory GRing.Theory Num.Theory.

Set Implicit Arguments.
Unset Strict Implicit.
Unset Printing Implicit Defensive.
Local Open Scope ring_scope.

(** ** specification *)
(** an undirected graph: no self-loops, symmetric *)
Definition undirected n (G : 'M[bool]_n) : Prop := (forall i, G i i = false) /\ (forall i j, G i j = G j i).
Definition n_edges n (G : 'M[bool]_n) : nat := #|[pred ij : 'I_n * 'I_n | (ij.1 < ij.2)%N && G ij.1 ij.2]|.
(** what np.argsort returns: the positions in an order that sorts the keys *)
Definition sorts (keys ord : seq nat) : Prop :=
  perm_eq ord (iota 0 (size keys)) /\ sorted leq [seq nth 0%N keys k | k <- ord].
(** -log likelihood of a Gaussian with precision P, up to constants *)
Definition gauss_nll p (C P : 'M[R]_p) : R := \tr (C *m P) - ln (\det P).
(** positive definite and without edges outside the graph *)
Definition in_model p (N : 'M[bool]_p) (P : 'M[R]_p) : Prop :=
  pd P /\ forall i j, ~~ (N i j || N j i) -> P i j = 0.
(** an upper triangular mask with the whole diagonal *)
Definition mask_ok p (N : 'M[bool]_p) : Prop := (forall i, N i i) /\ forall i j : 'I_p, N i j -> (i <= j)%N.
(** the parameters of the model: the entries of the mask, each once *)
Definition lists p (N : 'M[bool]_p) dof (V : 'I_dof -> 'I_p * 'I_p) : Prop :=
  injective V /\ forall ij, (exists e, V e = ij) <-> N ij.1 ij.2.
(** direction of the parameter e: the derivative of the precision with respect to it *)
Definition direction p dof (V : 'I_dof -> 'I_p * 'I_p) (e : 'I_dof) : 'M[R]_p :=
  \matrix_(i, j) (((i, j) == V e) || ((j, i) == V e))%:R.
(** the second derivative of (dn-2)/2 log det K in two directions is -(dn-2)/2 tr(K^-1 A K^-1 B) *)
Definition hessian p (K : 'M[R]_p) (dn : R) dof (V : 'I_dof -> 'I_p * 'I_p) : 'M[R]_dof :=
  \matrix_(e, f) (- ((dn - 2%:R) / 2%:R) * \tr (invmx K *m direction V e *m invmx K *m direction V f)).
(** the log of the unnormalised G-Wishart density *)
Definition gw_logdensity p (D : 'M[R]_p) (dn : R) (K : 'M[R]_p) : R :=
  (dn - 2%:R) / 2%:R * ln (\det K) - \tr (K *m D) / 2%:R.
(** Laplace's approximation of the log of its integral *)
Definition laplace_approx (dof : nat) (logdensity logdet_hess : R) : R :=
  dof%:R / 2%:R * ln (2%:R * PI) + logdensity - logdet_hess / 2%:R.

Lemma edges_card n (G : 'M[bool]_n) : count id (edges_of G) = n_edges G.
Proof.
rewrite /edges_of count_map /n_edges -sum1_card -sum1_count /triu_positions big_filter_cond.
rewrite (eq_bigl (fun ij : 'I_n * 'I_n => (ij.1 < ij.2)%N && G ij.1 ij.2)) // big_mkcond [RHS]big_mkcond /=.
rewrite -(big_enum _ xpredT) /=; apply: perm_big; apply: uniq_perm; last 2 first.
- exact: enum_uniq.
- by move=> [a b]; rewrite (allpairs_f (fun i j : 'I_n => (i, j))) ?mem_enum.
by apply: allpairs_uniq => [||[a b] [c d] _ _] //; exact: enum_uniq.
Qed.
Lemma nllE p (C P : 'M[R]_p) : sym C -> gauss_nll C P = fdot C P - logdet P.
Proof. by move=> hC; rewrite /gauss_nll fdotE hC. Qed.
Lemma direction_par p dof (V : 'I_dof -> 'I_p * 'I_p) e : direction V e = par_mx V e.
Proof.
apply/matrixP=> i j; rewrite mxE /par_mx; case: (V e) => a b /=; rewrite !xpair_eqE.
case: (eqVneq a b) => [<-|hab]; rewrite !mxE; first by rewrite [(j == a) && _]andbC orbb.
rewrite -natrD; congr _%:R; rewrite [(j == a) && _]andbC.
case: (eqVneq i a) => [->|_]; case: (eqVneq j b) => [->|_] //=; rewrite ?orbF ?addn0 ?add0n //.
by rewrite (negbTE hab).
Qed.
Lemma hessianE p (K : 'M[R]_p) dn dof (V : 'I_dof -> 'I_p * 'I_p) : hessian K dn V = hess_true (invmx K) dn V.
Proof. by apply/matrixP=> e f; rewrite !mxE !direction_par. Qed.
Lemma diag_count p (N : 'M[bool]_p) dof (V : 'I_dof -> 'I_p * 'I_p) : mask_ok N -> lists N V ->
  #|[pred e | (V e).1 == (V e).2]| = p.
Proof.
move=> [hd _] [inj sur]; rewrite -[RHS](card_ord p) -(card_in_imset (f := fun e => (V e).1)); last first.
  move=> e f /eqP h1 /eqP h2 h; apply: inj; rewrite (surjective_pairing (V e)) (surjective_pairing (V f)).
  by rewrite -h1 -h2 h.
apply: eq_card => i; rewrite !inE; apply/imsetP.
have [e he] : exists e, V e = (i, i) by apply/sur.
by exists e; rewrite ?inE he //= eqxx.
Qed.

(** * C54: all undirected graphs are enumerated, once each, by number of edges *)
Theorem C54_all_graphs : forall n ord, sorts (ug_sums n) ord ->
  let Gs := mk_all_ugs n ord in
  [/\ size Gs = (2 ^ 'C(n, 2))%N, uniq Gs, forall G, G \in Gs <-> undirected G &
      sorted leq [seq n_edges G | G <- Gs]].
Proof.
move=> n ord h Gs; have [h1 h2 h3 h4] := ugs_spec h; split=> //.
by congr (is_true (sorted leq _)): h4; apply: eq_map => G; exact: edges_card.
Qed.
Print Assumptions C54_all_graphs.
Example C54_case : sorts (ug_sums 3) [:: 0; 1; 2; 4; 3; 5; 6; 7]%N /\ size (mk_all_ugs 3 [:: 0; 1; 2; 4; 3; 5; 6; 7]%N) = 8%N.
Proof. by split. Qed.

(** * C93: Markov blankets and graphs built from them *)
(** the blankets are the neighbourhoods, without the variable itself, in the given precision matrices *)
Theorem C93_blankets : forall n (graphs : seq 'M[R]_n) (tol : R) (unique : option (seq 'M[bool]_n -> seq 'M[bool]_n)) B,
  (forall f, unique = Some f -> forall s, f s =i s) -> 0 < tol ->
  B \in markov_blankets graphs tol unique <->
  exists2 G, G \in graphs & forall i j, B i j = (i != j) && (tol <= `|G i j|).
Proof. exact: blanketsP. Qed.
Print Assumptions C93_blankets.
(** the graphs drawn from them are undirected and have only edges seen from both ends *)
Theorem C93_sampled_graphs : forall n (graphs : seq 'M[R]_n) (tol : R) (unique : option (seq 'M[bool]_n -> seq 'M[bool]_n))
    idx n_resampling g,
  (forall f, unique = Some f -> forall s, f s =i s) -> 0 < tol ->
  let bl := markov_blankets graphs tol unique in
  (forall i r, (idx i r < size bl)%N) -> g \in get_graphs bl idx n_resampling ->
  [/\ undirected g,
      forall i j, g i j -> (exists2 G, G \in graphs & tol <= `|G i j|) /\ (exists2 G, G \in graphs & tol <= `|G j i|) &
      mask_ok (nonzeros_of g)].
Proof.
move=> n graphs tol u idx nr g hu ht bl hidx /get_graphsP [r hr e].
have hb i : exists2 G, G \in graphs & forall a b, nth (const_mx false) bl (idx i r) a b = (a != b) && (tol <= `|G a b|).
  by have [h _] := blanketsP graphs (nth (const_mx false) bl (idx i r)) hu ht; apply: h; apply: mem_nth.
split.
- split=> [i|i j]; last by rewrite !e andbC.
  by rewrite e; have [G _ ->] := hb i; rewrite eqxx.
- move=> i j; rewrite e => /andP [h1 h2]; split.
    by have [G hG E] := hb i; exists G => //; move: h1; rewrite E => /andP [].
  by have [G hG E] := hb j; exists G => //; move: h2; rewrite E => /andP [].
split=> [i|i j]; rewrite mxE; first by rewrite eqxx orbT.
by case/orP=> [/andP [/ltnW]|/eqP ->].
Qed.
Print Assumptions C93_sampled_graphs.
Theorem C93_scores : forall n k (scores : 'M[R]_(n, k)) i, (0 < k)%N ->
  (forall j, 0 < normalized_scores scores i j) /\ \sum_j normalized_scores scores i j = 1.
Proof. by move=> n k s i hk; split; [move=> j; exact: scores_pos | exact: scores_sum]. Qed.
Print Assumptions C93_scores.
Example C93_case :
  let G : 'M[R]_2 := const_mx 1 in let bl := markov_blankets [:: G; 1%:M] 1 None in
  let idx := fun (_ : 'I_2) (_ : nat) => 0%N in
  [/\ size bl = 2%N, forall i r, (idx i r < size bl)%N &
      exists2 g, g \in get_graphs bl idx 5 & g 0 1].
Proof.
split=> //; exists (nth (const_mx false) (get_graphs (markov_blankets [:: const_mx 1; 1%:M] 1 None) (fun _ _ => 0%N) 5) 0).
  exact: mem_nth.
rewrite /get_graphs [nth _ _ 0]/= !mxE normr1 ltxx oner_eq0 /= (_ : (1 : R) != 0 = true) ?oner_neq0 //.
Qed.

(** * C94: maximum likelihood given the graph *)
Theorem C94_pattern : forall p (N : 'M[bool]_p) (x : 'M[R]_p), mask_ok N ->
  let P := precision_selection N x in
  [/\ sym P, forall i j, ~~ (N i j || N j i) -> P i j = 0 & forall i j, N i j -> P i j = x i j].
Proof.
move=> p N x [_ hN] P; split; [exact: fill_sym | move=> i j | move=> i j h]; rewrite /P /precision_selection fillE.
  by case: (N i j) => //= /negbTE ->; rewrite andbF addr0.
by rewrite h; case: ifP; rewrite ?addr0 // => /andP [h1 _]; move: (hN _ _ h); rewrite leqNgt h1.
Qed.
Print Assumptions C94_pattern.
(** the objective is the likelihood and the gradient vanishes when the covariance agrees with C on the graph *)
Theorem C94_objective : forall p (pinvh : 'M[R]_p -> 'M[R]_p) (N : 'M[bool]_p) (C x : 'M[R]_p),
  pinvh_ok pinvh -> mask_ok N -> sym C -> pd (precision_selection N x) ->
  (covsel pinvh N C x).1 = Fin (gauss_nll C (precision_selection N x)) /\
  ((covsel pinvh N C x).2 = 0 <-> forall i j, N i j -> invmx (precision_selection N x) i j = C i j).
Proof.
move=> p pinvh N C x hv [_ hN] hC hp; split; last exact: covsel_stat.
by rewrite covselE // nllE.
Qed.
Print Assumptions C94_objective.
(** the returned gradient is the gradient: first-order bound from below, everywhere *)
Theorem C94_gradient : forall p (pinvh : 'M[R]_p -> 'M[R]_p) (N : 'M[bool]_p) (C x y : 'M[R]_p),
  pinvh_ok pinvh -> mask_ok N -> sym C -> pd (precision_selection N x) -> pd (precision_selection N y) ->
  gauss_nll C (precision_selection N x) + fdot (covsel pinvh N C x).2 (y - x) <= gauss_nll C (precision_selection N y).
Proof.
move=> p pinvh N C x y hv hN hC hx hy; have [fx [fy [e1 e2 h]]] := covsel_convex C hv hx hy.
have [q1 _] := C94_objective hv hN hC hx; have [q2 _] := C94_objective hv hN hC hy.
by move: e1 e2; rewrite q1 q2 => -[->] [->].
Qed.
Print Assumptions C94_gradient.
(** where the gradient vanishes is the only maximiser of the likelihood among the precisions with this graph *)
Theorem C94_stationary_is_mle : forall p (pinvh : 'M[R]_p -> 'M[R]_p) (N : 'M[bool]_p) (C x P : 'M[R]_p),
  pinvh_ok pinvh -> mask_ok N -> sym C -> pd (precision_selection N x) -> (covsel pinvh N C x).2 = 0 ->
  in_model N P -> P <> precision_selection N x -> gauss_nll C (precision_selection N x) < gauss_nll C P.
Proof.
move=> p pinvh N C x P hv hN hC hx h0 [hP z] hne; have [_ [/(_ h0) st _]] := C94_objective hv hN hC hx.
have eP : fill N P = P by apply: fill_pattern => //; [exact: hN.2 | exact: pd_sym].
have ht := logdet_tangent_lt hx hP hne; rewrite tr_fdot in ht; last by apply: sym_inv; exact: pd_sym.
have e0 : fdot (C - invmx (precision_selection N x)) (P - precision_selection N x) = 0.
  rewrite -eP /precision_selection fillB fill_fdot big1 // => i _; rewrite big1 // => j _; case: ifP => // hij.
  have sI : sym (invmx (fill N x)) by apply: sym_inv; exact: pd_sym.
  have e1 : C i j - invmx (fill N x) i j = 0 by rewrite st // subrr.
  have e2 : C j i - invmx (fill N x) j i = 0.
    by move: e1; rewrite -{1}hC -{1}sI !mxE.
  by rewrite !mxE e1 e2 if_same addr0 mul0r.
move: ht e0; rewrite !nllE // fdotBl !fdotBr; move: (precision_selection N x) => Q.
move: (fdot C P : R) (fdot C Q : R) (logdet P : R) (logdet Q : R) => a b c d.
move: (fdot (invmx Q) P : R) (fdot (invmx Q) Q : R) => e f h1 h2; mclra.
Qed.
Print Assumptions C94_stationary_is_mle.
(** with C = (S + S0) / (dn - 2) it is the mode of the G-Wishart posterior *)
Theorem C94_posterior_mode : forall p (S S0 K : 'M[R]_p) (dn : R), 2%:R < dn -> sym (S + S0) -> pd K ->
  gw_logdensity (S + S0) dn K = - ((dn - 2%:R) / 2%:R) * gauss_nll ((dn - 2%:R)^-1 *: (S + S0)) K /\
  laplace_h (S + S0) K dn = Fin (gw_logdensity (S + S0) dn K).
Proof.
move=> p S S0 K dn hd hS hK; have n0 : dn - 2%:R != 0 by rewrite subr_eq0 gt_eqF.
rewrite /gw_logdensity /gauss_nll -scalemxAl mxtraceZ [\tr (K *m _)]mxtrace_mulC; split.
  move: (\tr _ : R) (ln _ : R) n0 => a b; move: (dn - 2%:R) => z n0.
  rewrite mulrBr !mulNr opprK addrC; congr (_ + _); congr (- _).
  by rewrite [RHS]mulrA [z / _ / z]mulrAC divff // mul1r mulrC.
rewrite /laplace_h /fast_logdet pd_det_gt0 //= pd_sym //; congr Fin; rewrite mxtrace_mulC.
move: (\tr _ : R) (ln _ : R) => a b; move: (dn - 2%:R) => z; mcfield.
Qed.
Print Assumptions C94_posterior_mode.
Example C94_case : let N : 'M[bool]_2 := \matrix_(i, j) (i == j) in
  let C : 'M[R]_2 := \matrix_(i, j) if i == j then 1 else 2%:R^-1 in
  [/\ mask_ok N, sym C, pd (precision_selection N 1%:M), (covsel invmx N C 1%:M).2 = 0 &
      in_model N 2%:R%:M /\ 2%:R%:M <> precision_selection N 1%:M].
Proof.
move=> N C; have hN : mask_ok N by split=> [i|i j]; rewrite mxE ?eqxx // => /eqP ->.
have e1 c : fill N c%:M = c%:M by apply: fill_scalar; exact: hN.1.
have hC : sym C by apply/matrixP=> i j; rewrite !mxE eq_sym.
have hp : pd (precision_selection N 1%:M) by rewrite /precision_selection e1; exact: pd1.
split=> //.
  apply/(covsel_stat _ hN.2 hC hp) => // i j; rewrite e1 invmx1 !mxE => -> //.
split; last by rewrite /precision_selection e1 => /matrixP /(_ 0 0); rewrite !mxE => /eqP; rewrite eqr_nat.
split; first by rewrite -scalemx1; apply: pdZ; [rewrite ltr0n | exact: pd1].
by move=> i j; rewrite !mxE; case: (i == j).
Qed.

(** * C95: but over the matrices the optimiser can visit the objective has no lower bound, because fast_logdet only
    asks for a positive determinant *)
Theorem C95_unbounded_refuted : forall p (pinvh : 'M[R]_p -> 'M[R]_p) (N : 'M[bool]_p) (C : 'M[R]_p) (B : R),
  ~~ odd p -> mask_ok N -> 0 < \tr C ->
  exists (x : 'M[R]_p) (v : R), [/\ (covsel pinvh N C x).1 = Fin v, v < B & ~ psd (precision_selection N x)].
Proof.
move=> p pinvh N C B hp [hN _] hC; have [t [v [t0 e h]]] := covsel_unbounded pinvh B hp hN hC.
exists (- t)%:M, v; split=> //; rewrite /precision_selection fill_scalar //.
case: p pinvh N C hp hN hC e h => [|p] pinvh N C hp hN hC e h; first by move: hC; rewrite /mxtrace big_ord0 ltxx.
move=> [_ /(_ (delta_mx 0 0))]; rewrite /quad -scalemx1 -scalemxAr mulmx1 -scalemxAl trmx_delta mul_delta_mx !mxE !eqxx mulr1.
by rewrite oppr_ge0 leNgt t0.
Qed.
Print Assumptions C95_unbounded_refuted.
Example C95_case : ~~ odd 2 /\ mask_ok (\matrix_(i < 2, j < 2) (i <= j)%N) /\ 0 < \tr (1%:M : 'M[R]_2).
Proof. by split=> //; split; [split=> [i|i j]; rewrite mxE | rewrite mxtrace1 ltr0n]. Qed.

(** * C96: the Hessian of the Laplace approximation *)
(** the matrix given to the Cholesky factorisation is positive definite: it never fails; and diaglaplace uses its diagonal *)
Theorem C96_negative_definite : forall p (P : 'M[R]_p) (dn : R) dof (V : 'I_dof -> 'I_p * 'I_p),
  pd P -> 2%:R < dn -> injective V -> (forall e, ((V e).1 <= (V e).2)%N) ->
  pd (- laplace_H (invmx P) dn V) /\ forall e, laplace_diag (invmx P) dn V e = laplace_H (invmx P) dn V e e.
Proof. by move=> p P dn dof V hP hd inj ord; split; [apply: lapH_nd => //; exact: pd_inv | exact: diag_lap]. Qed.
Print Assumptions C96_negative_definite.
(** it is not the Hessian: the rows and columns of the diagonal parameters are doubled *)
Theorem C96_hessian_doubled : forall p (P : 'M[R]_p) (dn : R) dof (V : 'I_dof -> 'I_p * 'I_p),
  let c e : R := if (V e).1 == (V e).2 then 2%:R else 1 in
  forall e f, laplace_H (invmx P) dn V e f = c e * c f * hessian P dn V e f.
Proof.
move=> p P dn dof V c e f; rewrite hessianE lapH_hess mul_mx_diag mxE mul_diag_mx !mxE -/(c e) -/(c f).
by rewrite -!mulrA; congr (_ * _); rewrite [RHS]mulrC -mulrA.
Qed.
Print Assumptions C96_hessian_doubled.
Theorem C96_is_hessian_refuted : exists (P : 'M[R]_1) (dn : R) (V : 'I_1 -> 'I_1 * 'I_1),
  [/\ pd P, 2%:R < dn & laplace_H (invmx P) dn V <> hessian P dn V].
Proof.
exists 1%:M, 3%:R, (fun _ => (0, 0)); split; [exact: pd1 | by rewrite ltr_nat |].
move=> /matrixP /(_ 0 0); rewrite C96_hessian_doubled /= hessianE mxE.
rewrite invmx1 !mul1mx mulmx1 /par_mx /= mul_delta_mx.
have -> : \tr (delta_mx 0 0 : 'M[R]_1) = 1 by rewrite /mxtrace big_ord1 mxE !eqxx.
by rewrite mulr1 => h; mclra.
Qed.
Print Assumptions C96_is_hessian_refuted.
Example C96_case : let V : 'I_3 -> 'I_2 * 'I_2 := fun e => nth (0, 0) [:: (0, 0); (0, 1); (1, 1)] e in
  [/\ pd (1%:M : 'M[R]_2), 2%:R < (3%:R : R), injective V & forall e, ((V e).1 <= (V e).2)%N].
Proof.
split; [exact: pd1 | by rewrite ltr_nat | |]; last by case=> [[|[|[|e]]] he].
by move=> [[|[|[|e]]] he] // [[|[|[|f]]] hf] // _; apply: val_inj.
Qed.

(** * C97: the default prior scale has the size of the sample *)
Theorem C97_default_prior_refuted : forall n_samples n_dim, n_samples <> n_dim ->
  gwishart_checks n_samples n_dim n_dim None = Raise ValueError.
Proof. by move=> n d /eqP h; rewrite /gwishart_checks eqxx h. Qed.
Print Assumptions C97_default_prior_refuted.
Theorem C97_given_prior : forall n_samples n_dim G_dim k,
  gwishart_checks n_samples n_dim G_dim (Some k) = if (G_dim == n_dim) && (k == n_dim) then Val tt else Raise ValueError.
Proof. by move=> n d g k; rewrite /gwishart_checks; case: (g == d) => //=; case: (k == d). Qed.
Print Assumptions C97_given_prior.
Example C97_case : (100 <> 10)%N /\ gwishart_checks 100 10 10 (Some 10%N) = Val tt.
Proof. by []. Qed.

(** * C98: the returned precision is the mean of the top_n best *)
Theorem C98_top_mean : forall p (results : seq (R * 'M[R]_p)) top_n,
  exists top rest, [/\ perm_eq results (top ++ rest), size top = minn top_n (size results),
    forall a b, a \in top -> b \in rest -> b.1 <= a.1 &
    top_mean results top_n = (size top)%:R^-1 *: \sum_(x <- top) x.2].
Proof. exact: top_meanE. Qed.
Print Assumptions C98_top_mean.
Theorem C98_valid : forall p (results : seq (R * 'M[R]_p)) top_n, (0 < top_n)%N -> (0 < size results)%N ->
  (forall x, x \in results -> pd x.2) ->
  pd (top_mean results top_n) /\
  forall i j, (forall x, x \in results -> x.2 i j = 0) -> top_mean results top_n i j = 0.
Proof.
move=> p results k k0 s0 hp; have [top [rest [h1 h2 h3 ->]]] := top_meanE results k.
have ht : (0 < size top)%N by rewrite h2 leq_min k0.
have sub x : x \in top -> x \in results by move=> hx; rewrite (perm_mem h1) mem_cat hx.
split; first by apply: mean_pd => // x /sub; exact: hp.
move=> i j z; rewrite mxE summxE big_seq big1 ?mulr0 // => x /sub; exact: z.
Qed.
Print Assumptions C98_valid.
Example C98_case : top_mean [:: (1, 1%:M); (3%:R, 3%:R%:M); (2%:R, 2%:R%:M : 'M[R]_2)] 1 = 3%:R%:M.
Proof.
have [top [rest [h1 h2 h3 ->]]] := top_meanE [:: (1, 1%:M); (3%:R, 3%:R%:M); (2%:R, 2%:R%:M : 'M[R]_2)] 1.
move: h2 h1 h3; case: top => [|x [|y t]] //= _ h1 h3; rewrite big_seq1 invr1 scale1r.
have hx : x \in [:: (1, 1%:M); (3%:R, 3%:R%:M); (2%:R, 2%:R%:M : 'M[R]_2)] by rewrite (perm_mem h1) mem_head.
have h : ((3%:R : R), (3%:R%:M : 'M[R]_2)) \in x :: rest by rewrite -(perm_mem h1) !inE eqxx orbT.
move: h; rewrite inE => /orP [/eqP <- //|h]; have := h3 x _ (mem_head _ _) h.
by move: hx; rewrite !inE => /or3P [] /eqP -> //=; rewrite ?ler_nat // lern1.
Qed.

(** * C99: the scores *)
(** bic: the log-likelihood of the sample at its mean, minus dof/2 log n *)
Theorem C99_bic : forall p (X : seq 'rV[R]_p) (mu : 'rV[R]_p) (P : 'M[R]_p) dof, (0 < size X)%N -> pd P ->
  (forall j, mu 0 j = avg X (fun x => x 0 j)) ->
  gw_bic (size X) ((size X)%:R *: empirical_covariance X false) P dof =
  Fin (\sum_(x <- X) gauss_logpdf P mu x - dof%:R / 2%:R * ln (size X)%:R).
Proof.
move=> p X mu P dof s0 hP hmu; have n0 : (size X)%:R != 0 :> R by rewrite pnatr_eq0 -lt0n.
have -> : mu = col_mean X.
  apply/rowP => j; rewrite hmu /avg /col_mean mxE summxE mulrC //.
rewrite /gw_bic scalerA mulVf // scale1r /sk_log_likelihood /fast_logdet pd_det_gt0 //=; congr Fin.
rewrite -[np_sum_mul _ _]/(fdot _ _) /empirical_covariance fdotZl; congr (_ - _); last by rewrite mulrAC.
have -> : fdot (\sum_(x <- X) (x - col_mean X)^T *m (x - col_mean X)) P = \sum_(x <- X) quad P (x - col_mean X)^T.
  by rewrite fdotC fdot_sumr; apply: eq_bigr => x _; rewrite fdotC fdot_outer.
have K (v : R) : \sum_(x <- X) v = (size X)%:R * v by rewrite sum_const_cond count_predT mulr_natl.
rewrite /gauss_logpdf -mulr_sumr !sumrB !K.
move: (\sum_(x <- X) quad _ _ : R) (ln (\det P) : R) (p%:R * ln (2%:R * PI) : R) n0 => q d c; move: ((size X)%:R : R) => n n0.
rewrite div1r mulrCA; congr (_ * _); rewrite !mulrBr mulrDr mulrN mulrA divff // mul1r.
by rewrite [- q + _]addrC addrAC.
Qed.
Print Assumptions C99_bic.

(** laplace: at the mode of the posterior with this graph the constant is not Laplace's approximation, but differs
    from it by a number that does not depend on the graph *)
Definition mode_of p (N : 'M[bool]_p) (D : 'M[R]_p) (dn : R) (P : 'M[R]_p) : Prop :=
  [/\ mask_ok N, in_model N P & forall i j, N i j -> (dn - 2%:R) * invmx P i j = D i j].
Lemma mode_trace p (N : 'M[bool]_p) (D : 'M[R]_p) (dn : R) (P : 'M[R]_p) : sym D -> 2%:R < dn -> mode_of N D dn P ->
  gw_logdensity D dn P = (dn - 2%:R) / 2%:R * (ln (\det P) - p%:R).
Proof.
move=> hD hd [[dg hN] [hP z] st]; have n0 : dn - 2%:R != 0 by rewrite subr_eq0 gt_eqF.
have eP : fill N P = P by apply: fill_pattern => //; exact: pd_sym.
have := @stationary_trace p N ((dn - 2%:R)^-1 *: D) P; rewrite eP => h.
have {}h : fdot ((dn - 2%:R)^-1 *: D) P = p%:R.
  apply: h => //; first by rewrite /sym [(_ *: _)^T]linearZ /= hD.
  by move=> i j hij; rewrite mxE -(st _ _ hij) mulKf.
rewrite /gw_logdensity mulrBr; congr (_ - _); rewrite mxtrace_mulC -[\tr _](_ : fdot D P = _); last by rewrite fdotE hD.
by rewrite -h fdotZl mulrAC mulrA divff // mul1r.
Qed.
Lemma lists_ord p (N : 'M[bool]_p) dof (V : 'I_dof -> 'I_p * 'I_p) : mask_ok N -> lists N V -> forall e, ((V e).1 <= (V e).2)%N.
Proof. by move=> [_ hN] [_ h] e; apply: hN; apply/h; exists e. Qed.
Theorem C99_laplace : forall p (N : 'M[bool]_p) (D P U Vh : 'M[R]_p) (s : 'rV[R]_p) (dn : R) dof (V : 'I_dof -> 'I_p * 'I_p)
    (L : 'M[R]_dof), sym D -> 2%:R < dn -> mode_of N D dn P -> lists N V -> svd_ok U s Vh P ->
  chol_upper L (- laplace_H (gw_invP U s Vh) dn V) ->
  gw_lognormconst dof (gw_logh p dn (gw_logdetP s)) (gw_logdetH L) =
  laplace_approx dof (gw_logdensity D dn P) (ln (\det (- hessian P dn V))) + ((dn - 2%:R) * p%:R - p%:R * ln 2%:R).
Proof.
move=> p N D P U Vh s dn dof V L hD hd hm hl hs hc; have hP : pd P by case: hm => _ [].
have hN : mask_ok N by case: hm.
rewrite /gw_lognormconst /gw_logh /laplace_approx (chol_logdet hc) (svd_inv hs hP) (svd_logdet hs hP).
rewrite logdetN_hess //; [|exact: pd_inv|exact: hl.1|exact: (lists_ord hN hl)].
rewrite (diag_count hN hl) (mode_trace hD hd hm) hessianE -/(logdet (- _)) -/(logdet P) mulrAC.
move: (logdet (- _) : R) (logdet P : R) (dof%:R / 2%:R * ln _ : R) (ln 2%:R : R) (dn - 2%:R : R) (p%:R : R) => a b c d e f.
mcfield.
Qed.
Print Assumptions C99_laplace.
(** the same for diaglaplace, which keeps only the diagonal of the Hessian *)
Theorem C99_diaglaplace : forall p (N : 'M[bool]_p) (D P U Vh : 'M[R]_p) (s : 'rV[R]_p) (dn : R) dof (V : 'I_dof -> 'I_p * 'I_p),
  sym D -> 2%:R < dn -> mode_of N D dn P -> lists N V -> svd_ok U s Vh P ->
  gw_lognormconst dof (gw_logh p dn (gw_logdetP s)) (gw_logdetHdiag (laplace_diag (gw_invP U s Vh) dn V)) =
  laplace_approx dof (gw_logdensity D dn P) (\sum_e ln (- hessian P dn V e e)) + ((dn - 2%:R) * p%:R - p%:R * ln 2%:R).
Proof.
move=> p N D P U Vh s dn dof V hD hd hm hl hs; have hP : pd P by case: hm => _ [].
have hN : mask_ok N by case: hm.
have nd := lapH_nd (pd_inv hP) hd hl.1 (lists_ord hN hl).
have q : gw_logdetHdiag (laplace_diag (gw_invP U s Vh) dn V) = p%:R * (2%:R * ln 2%:R) + \sum_e ln (- hessian P dn V e e).
  rewrite /gw_logdetHdiag (svd_inv hs hP).
  have E e : ln (- laplace_diag (invmx P) dn V e) = (if (V e).1 == (V e).2 then 2%:R * ln 2%:R else 0) + ln (- hessian P dn V e e).
    have := pd_diag_gt0 e nd; rewrite [(- laplace_H _ _ _) _ _]mxE diag_lap C96_hessian_doubled; case: eqP => _; last by rewrite !mul1r add0r.
    rewrite -mulrN pmulr_rgt0 ?mulr_gt0 ?ltr0n // => h.
    have l2 : Rlt 0 2%:R by apply/RltP; rewrite ltr0n.
    have l4 : Rlt 0 (2%:R * 2%:R) by apply/RltP; rewrite mulr_gt0 ?ltr0n.
    rewrite [LHS](_ : _ = ln (2%:R * 2%:R) + ln (- hessian P dn V e e)); last by apply: ln_mult => //; exact/RltP.
    congr (_ + _); have -> : ln (2%:R * 2%:R) = ln 2%:R + ln 2%:R by apply: ln_mult.
    by rewrite mulr_natl mulr2n.
  rewrite (eq_bigr _ (fun e _ => E e)) big_split /=; congr (_ + _); rewrite -big_mkcond /= sumr_const.
  by rewrite [#|_|](_ : _ = p) ?mulr_natl // -[RHS](diag_count hN hl).
rewrite /gw_lognormconst /gw_logh /laplace_approx q (svd_logdet hs hP) (mode_trace hD hd hm) -/(logdet P) mulrAC.
move: (\sum_e _ : R) (logdet P : R) (dof%:R / 2%:R * ln _ : R) (ln 2%:R : R) (dn - 2%:R : R) (p%:R : R) => a b c d e f.
mcfield.
Qed.
Print Assumptions C99_diaglaplace.
Example C99_case : let N : 'M[bool]_1 := const_mx true in let V : 'I_1 -> 'I_1 * 'I_1 := fun _ => (0, 0) in
  [/\ sym (2%:R%:M : 'M[R]_1), 2%:R < (4%:R : R), mode_of N 2%:R%:M 4%:R 1%:M, lists N V &
      svd_ok 1%:M (const_mx 1) 1%:M (1%:M : 'M[R]_1) /\
      chol_upper (2%:R%:M : 'M[R]_1) (- laplace_H (gw_invP 1%:M (const_mx 1) 1%:M) 4%:R V)].
Proof.
move=> N V; have sv : svd_ok 1%:M (const_mx 1) 1%:M (1%:M : 'M[R]_1).
  split; rewrite ?trmx1 ?mulmx1 ?mul1mx //; first by move=> i; rewrite mxE ler01.
  by rewrite diag_const_mx.
split.
- by rewrite /sym tr_scalar_mx.
- by rewrite ltr_nat.
- split; first by split=> [i|i j _]; rewrite ?mxE // !ord1.
    by split; [exact: pd1 | move=> i j; rewrite !mxE].
  by move=> i j _; rewrite invmx1 !ord1 !mxE eqxx !mulr1n; mclra.
- split=> [e f _|[i j]]; first by rewrite !ord1.
  by rewrite mxE; split=> // _; exists 0; rewrite !ord1.
split=> //; rewrite (svd_inv sv (pd1 _)) invmx1; split.
- by move=> i j; rewrite !ord1.
- by move=> i; rewrite !ord1 mxE eqxx ltr0n.
apply/matrixP=> i j; rewrite !ord1 tr_scalar_mx -scalar_mxM !mxE /= /laplace_tmp2 /= !mxE !eqxx !mulr1n; mclra.
Qed.

(** the derivative of the log density is the returned one: first-order bound from above (concavity), everywhere *)
Theorem C96_first_derivative : forall p (pinvh : 'M[R]_p -> 'M[R]_p) (D K L : 'M[R]_p) (delta : R),
  pinvh_ok pinvh -> sym D -> pd K -> pd L -> 2%:R <= delta ->
  gw_logdensity D delta L <= gw_logdensity D delta K + fdot (first_derivative_h pinvh D K delta) (L - K).
Proof.
move=> p pinvh D K L d hv hD hK hL hd; have [a [b [e1 e2 h]]] := laplace_concave hv hD hK hL hd.
have E M : pd M -> laplace_h D M d = Fin (gw_logdensity D d M).
  move=> hM; rewrite /laplace_h /fast_logdet /gw_logdensity pd_det_gt0 //= pd_sym //; congr Fin.
  move: (\tr _ : R) (ln _ : R) => x y; move: (d - 2%:R) => z; mcfield.
by move: e1 e2; rewrite !E // => -[->] [->].
Qed.
Print Assumptions C96_first_derivative.
