(** C203: the Bayesian graphical lasso, from the data to the estimate. *)
From Coq Require Import Reals.
From mathcomp Require Import all_ssreflect all_algebra.
From Verif Require Import RStruct RTac S_Mat NP M_Utils M_Prox M_Loop M_GL M_GWishart M_GWPrior M_GWGL M_BGL.
From Verif Require Import RMx P_Prox P_Loop P_GL P_Eigh P_GWishart T_GWishart T_GWGL.
Import Order.TTheory GRing.Theory Num.Theory.

Set Implicit Arguments.
Unset Strict Implicit.
Unset Printing Implicit Defensive.
Local Open Scope ring_scope.

(** specification: a reordering of a list *)
Definition reorders T (order : seq T -> seq T) : Prop :=
  forall l, exists s, perm_eq s (iota 0 (size l)) /\ forall d, order l = [seq nth d l k | k <- s].
(** a pair that the graphical lasso finds unrelated, at every penalty: one of the two entries is below the tolerance *)
Definition unrelated p (precisions : seq 'M[R]_p) (tol : R) (i j : 'I_p) : Prop :=
  (forall T, T \in precisions -> `|T i j| < tol) \/ (forall T, T \in precisions -> `|T j i| < tol).

Lemma collectP T U (f : T -> res U) l r : collect f l = Val r -> size r = size l /\ forall k x d, (k < size l)%N -> f (nth x l k) = Val (nth d r k).
Proof.
elim: l r => [|x l IH] r /=; first by case=> <-.
case e: (f x) => [y|] //; case e2: (collect f l) => [r'|] // [<-]; have [h1 h2] := IH _ e2; split=> [|[|k] x' d hk] /=; rewrite ?h1 //; exact: h2.
Qed.
Lemma fill_ok p (N : 'M[bool]_p) x : mask_ok N -> sym (fill N x) /\ forall i j, ~~ (N i j || N j i) -> fill N x i j = 0.
Proof.
move=> [_ up]; split.
  apply/matrixP => i j; rewrite !mxE; case: (ltngtP i j) => [ij|ij|e].
  - by rewrite (_ : N j i = false) ?add0r ?addr0 //; apply/negP => /up; rewrite leqNgt ij.
  - by rewrite (_ : N i j = false) ?add0r ?addr0 //; apply/negP => /up; rewrite leqNgt ij.
  - by rewrite (ord_inj e).
by move=> i j; rewrite negb_or => /andP[/negbTE n1 /negbTE n2]; rewrite !mxE n1 n2 !if_same addr0.
Qed.

Section Fit.
Variables (p : nat) (empcov : seq 'rV[R]_p -> res (option 'M[R]_p)) (eigh : eigh_t p) (pinvh : 'M[R]_p -> 'M[R]_p).
Variables (minimize : ('M[R]_p -> xR * 'M[R]_p) -> 'M[R]_p -> 'M[R]_p).
Variables (svd : 'M[R]_p -> 'M[R]_p * 'rV[R]_p * 'M[R]_p) (chol : forall d, 'M[R]_d -> 'M[R]_d).
Variables (V : 'M[bool]_p -> {dof & 'I_dof -> 'I_p * 'I_p}).
Hypothesis He : eigh_ok eigh.
Hypothesis sP : forall A : 'M[R]_p, sym A -> sym (pinvh A).
Hypothesis sE : forall X E, empcov X = Val (Some E) -> sym E.

Lemma fit_mode_ok mode X N d0 S0 P Sm : mask_ok N -> sym S0 -> gw_fit_mode empcov eigh pinvh minimize mode X N d0 S0 = Val (P, Sm) ->
  sym P /\ forall i j, ~~ (N i j || N j i) -> P i j = 0.
Proof.
move=> mN s0; rewrite /gw_fit_mode; case: mode.
  by rewrite /gw_fit; case: (empcov X) => [E|] // [<- _]; exact: fill_ok.
case e: (empcov X) => [[E|]|] //; case e2: (gw_fit_gl _ _ _ _ _ _ _) => [[[[P' it] w]|]|] // [<- _].
have [z [K [[sK _] hK _ _]]] := C200_posterior He sP mN (erefl : (fun=> Val E) X = Val E) (sE e) s0 e2.
split=> //; apply/matrixP => i j; rewrite mxE; case h: (N i j || N j i).
  by rewrite !hK // ?[N j i || _]orbC // -[in RHS]sK mxE.
by rewrite !z // ?[N j i || _]orbC h.
Qed.
Lemma score_mode_ok mode scoring X N d0 S0 y : mask_ok N -> sym S0 ->
  gw_score_mode empcov eigh pinvh minimize svd chol V mode scoring X d0 S0 N = Val y ->
  sym y.2 /\ forall i j, ~~ (N i j || N j i) -> y.2 i j = 0.
Proof.
move=> mN s0; rewrite /gw_score_mode; case: (V N) => dof VN; case: (match scoring with Bic => _ | _ => _ end) => // prior.
case e: (gw_fit_mode _ _ _ _ _ _ _ _ _) => [[P Sm]|] // [<-]; exact: fit_mode_ok e.
Qed.
End Fit.

Lemma get_graphs_size n (bl : seq 'M[bool]_n) idx k : size (get_graphs bl idx k) = k.
Proof. by rewrite size_map size_iota. Qed.

(** the estimate is symmetric, and zero at every pair that the graphical lasso found unrelated; without results there is no estimate *)
Theorem C203_estimate p empcov (eigh : eigh_t p) pinvh minimize svd chol V precisions unique idx order X tol n_resampling mode top_n scoring r :
  eigh_ok eigh -> (forall A : 'M[R]_p, sym A -> sym (pinvh A)) -> (forall X E, empcov X = Val (Some E) -> sym E) ->
  (forall s, unique s =i s) -> reorders order -> 0 < tol ->
  bayesian_graphical_lasso empcov eigh pinvh minimize svd chol V precisions unique idx order X tol n_resampling mode top_n scoring = Val r ->
  (r = None <-> n_resampling = 0%N \/ top_n = 0%N) /\
  forall P, r = Some P -> sym P /\ forall i j, i != j -> unrelated precisions tol i j -> P i j = 0.
Proof.
move=> He sP sE hu ho t0; rewrite /bayesian_graphical_lasso; set bl := markov_blankets _ _ _; set gs := [seq _ | g <- _].
have szg : size gs = n_resampling by rewrite size_map get_graphs_size.
case e: (collect _ _) => [l|] //; have [sl hl] := collectP e; set top := [seq _ | x <- _] => - [er].
have [s [ps eo]] := ho l.
have sz : size top = minn top_n n_resampling.
  by rewrite size_map size_take_min (eo (NaN, 0)) size_map (perm_size ps) size_iota sl szg.
have rN : r = None <-> size top = 0%N by rewrite -er; case: (top).
split.
  rewrite rN sz; split=> [|[] ->]; rewrite ?minn0 ?min0n //.
  by rewrite /minn; case: ifP => _ ->; [right|left].
have htop Q : Q \in top -> sym Q /\ forall i j, i != j -> unrelated precisions tol i j -> Q i j = 0.
  rewrite /top (eo (NaN, 0)) -map_take -map_comp => /mapP[k /mem_take]; rewrite (perm_mem ps) mem_iota sl => /= hk ->.
  have hk' : (k < size (get_graphs bl idx n_resampling))%N by move: hk; rewrite size_map.
  have := hl k (const_mx false) (NaN, 0) hk; rewrite (nth_map (const_mx false)) //.
  set g := nth _ (get_graphs _ _ _) k => hg.
  have mN : mask_ok (nonzeros_of g).
    split=> [i|i j]; rewrite mxE; first by rewrite eqxx orbT.
    by case/orP=> [/andP [/ltnW]|/eqP ->].
  have [h1 h2] := score_mode_ok He sP sE mN (trmx1 _ _ : sym 1%:M) hg.
  split=> // i j ij un; apply: h2; rewrite !mxE [j == i]eq_sym (negbTE ij) !orbF.
  have [r' _ eg] : exists2 r, (r < n_resampling)%N & forall i j, g i j = nth (const_mx false) bl (idx i r) i j && nth (const_mx false) bl (idx j r) j i.
    by apply: get_graphsP; apply: mem_nth.
  have hb a b : (forall T, T \in precisions -> `|T a b| < tol) -> forall m, nth (const_mx false) bl m a b = false.
    move=> h m; case: (ltnP m (size bl)) => hm; last by rewrite nth_default // mxE.
    have hu' : forall f, Some unique = Some f -> forall s, f s =i s by move=> f [<-].
    have [hh _] := blanketsP precisions (nth (const_mx false) bl m) hu' t0; have [T hT ->] := hh (mem_nth _ hm).
    by rewrite leNgt h // andbF.
  have z a b : unrelated precisions tol a b -> g a b = false by move=> [h|h]; rewrite eg (hb _ _ h) ?andbF.
  have un' : unrelated precisions tol j i by case: un => h; [right|left].
  by rewrite (z _ _ un) (z _ _ un') !andbF.
move=> P eP; move: er; case et: top => [|Q q]; rewrite eP // => - [<-]; rewrite -et; split.
  rewrite /sym linearZ /= linear_sum /=; congr (_ *: _); rewrite !big_seq; apply: eq_bigr => Q' /htop [] //.
move=> i j ij un; rewrite mxE summxE big_seq big1 ?mulr0 // => Q' /htop [_]; exact.
Qed.
Print Assumptions C203_estimate.
(** with the Laplace scores it is the mean of the fits of [top_n] of the drawn graphs, and none of the graphs left out has a larger score *)
Definition fin (x : xR) : R := if x is Fin a then a else 0.
Definition best_first T (order : seq (xR * T) -> seq (xR * T)) : Prop :=
  forall l, (forall d k, (k < size l)%N -> exists a, (nth d l k).1 = Fin a) -> sorted (fun x y => fin y.1 <= fin x.1) (order l).
Theorem C203_best p empcov (eigh : eigh_t p) pinvh minimize svd chol V precisions unique idx order X tol n_resampling mode top_n scoring P :
  reorders order -> best_first order -> scoring <> Bic ->
  bayesian_graphical_lasso empcov eigh pinvh minimize svd chol V precisions unique idx order X tol n_resampling mode top_n scoring = Val (Some P) ->
  let graphs := get_graphs (markov_blankets precisions tol (Some unique)) idx n_resampling in
  exists (score : nat -> R) (fit : nat -> 'M[R]_p) (best : seq nat),
    [/\ forall r, (r < n_resampling)%N -> gw_score_mode empcov eigh pinvh minimize svd chol V mode scoring X (p%:R + 2%:R) 1%:M
          (nonzeros_of (nth (const_mx false) graphs r)) = Val (Fin (score r), fit r),
        uniq best /\ size best = minn top_n n_resampling, (forall r, r \in best -> (r < n_resampling)%N),
        (forall r q, r \in best -> (q < n_resampling)%N -> q \notin best -> score q <= score r) &
        P = (size best)%:R^-1 *: \sum_(r <- best) fit r].
Proof.
move=> ho hb hs; rewrite /bayesian_graphical_lasso; set gs := [seq _ | g <- _].
have szg : size gs = n_resampling by rewrite size_map get_graphs_size.
case e: (collect _ _) => [l|] //; have [sl hl] := collectP e; set top := [seq _ | x <- _] => - [er].
have [s [ps eo]] := ho l; pose d : xR * 'M[R]_p := (NaN, 0).
have us : uniq s by rewrite (perm_uniq ps) iota_uniq.
have fn d' k : (k < size l)%N -> exists a, (nth d' l k).1 = Fin a.
  rewrite sl => hk; have := hl k (const_mx false) d' hk; rewrite /gw_score_mode; case: (V _) => dof VN.
  case: (match scoring with Bic => _ | _ => _ end) => // prior; case: (gw_fit_mode _ _ _ _ _ _ _ _ _) => [[Q Sm]|] // [<-] /=.
  by case: (scoring) hs => //; eexists.
exists (fun r => fin (nth d l r).1), (fun r => (nth d l r).2), (take top_n s).
have mt r : r \in take top_n s -> (r < n_resampling)%N by move=> /mem_take; rewrite (perm_mem ps) mem_iota sl szg.
split=> //.
- move=> r hr; have hr' : (r < size gs)%N by rewrite szg.
  have := hl r (const_mx false) d hr'; rewrite (nth_map (const_mx false)) ?get_graphs_size // => ->.
  by have [|a ea] := fn d r; [rewrite sl | case: (nth d l r) ea => x y /= ->].
- by rewrite take_uniq // size_take_min (perm_size ps) size_iota sl szg.
- move=> r q hr hq nq; have hq' : q \in drop top_n s.
    have : q \in s by rewrite (perm_mem ps) mem_iota sl szg.
    by rewrite -{1}(cat_take_drop top_n s) mem_cat (negbTE nq).
  have := hb l fn; rewrite (eo d) sorted_map => hS.
  have tr : transitive (relpre (nth d l) (fun x y => fin y.1 <= fin x.1)) by move=> a b c h1 h2; exact: le_trans h2 h1.
  by move: hS; rewrite -{1}(cat_take_drop top_n s) sorted_pairwise // pairwise_cat => /andP[/allrelP h _]; exact: h.
have et : top = [seq (nth d l k).2 | k <- take top_n s] by rewrite /top (eo d) -map_take -map_comp.
have sz : size top = size (take top_n s) by rewrite et size_map.
move: er; case et' : {1}top => [|Q q] // [<-]; by rewrite sz et big_map.
Qed.
Print Assumptions C203_best.
(** where the empirical covariance of no samples is refused, the scores other than "bic" cannot be computed, so the estimate raises with the default scoring *)
Theorem C203_needs_prior p empcov (eigh : eigh_t p) pinvh minimize svd chol V precisions unique idx order X tol n_resampling mode top_n scoring ex :
  empcov [::] = Raise ex -> (0 < n_resampling)%N -> scoring <> Bic ->
  bayesian_graphical_lasso empcov eigh pinvh minimize svd chol V precisions unique idx order X tol n_resampling mode top_n scoring = Raise ex.
Proof.
move=> e; case: n_resampling => // k _ hs; rewrite /bayesian_graphical_lasso /= /gw_score_mode; case: (V _) => dof VN.
by rewrite /gw_fit e; case: scoring hs.
Qed.
Print Assumptions C203_needs_prior.
(** a fitted BayesianGraphicalLasso has no covariance_, n_iter_ or location_: of the documented attributes and of the inherited methods only those that
    read precision_ work *)
Theorem C203_attributes_refuted p n_samples (result : res (option 'M[R]_p)) f u : bgl_fit n_samples result = Val f ->
  works f u = (if u is (ReadPrecision | GetPrecision) then Val tt else Raise AttributeError).
Proof. by rewrite /bgl_fit; case: ifP => // _; case: result => // P [<-]; case: u. Qed.
Print Assumptions C203_attributes_refuted.
(** those of the estimator it derives from all work *)
Theorem C203_base p n_samples (location : 'rV[R]_p) result f u : gl_estimator_fit n_samples location result = Val f -> works f u = Val tt.
Proof. by rewrite /gl_estimator_fit; case: ifP => // _; case: result => // [[[P C] n]] [<-]; case: u. Qed.
Print Assumptions C203_base.
(** a case: of three variables, the first two are unrelated in both estimates of the graphical lasso, and related to the third in one *)
Lemma rev_reorders T : reorders (@rev T).
Proof.
move=> l; exists (rev (iota 0 (size l))); split=> [|d]; first by rewrite perm_rev.
by rewrite map_rev; congr rev; rewrite -/(mkseq _ _) mkseq_nth.
Qed.
Lemma score_mode_val p (eigh : eigh_t p) pinvh minimize svd chol V X N d0 S0 :
  exists y, gw_score_mode (fun=> Val (Some 1%:M)) eigh pinvh minimize svd chol V GL Bic X d0 S0 N = Val y.
Proof.
rewrite /gw_score_mode /gw_fit_mode /gw_fit_gl; case: (V N) => dof VN.
have [P [it [w ->]]] := glx_ok eigh pinvh (((size X)%:R + d0 - 2%:R)^-1 *: ((size X)%:R *: 1%:M + S0)) (penalties N) (isT : (0 < gl_max_iter gl_defaults)%N).
by eexists.
Qed.
Example C203_case : exists (eigh : eigh_t 3) minimize svd chol V P,
  let T : 'M[R]_3 := \matrix_(i, j) if (i == 0) && (j == 1) || (i == 1) && (j == 0) then 0 else 1 in
  [/\ eigh_ok eigh, reorders (@rev (xR * 'M[R]_3)),
      bayesian_graphical_lasso (fun=> Val (Some 1%:M)) eigh (@invmx _ 3) minimize svd chol V [:: T; 1%:M] id (fun i r => r) (@rev _) [:: 0; 0] (1 / 2%:R) 2 GL 1 Bic
        = Val (Some P),
      unrelated [:: T; 1%:M] (1 / 2%:R) 0 1 & P 0 1 = 0].
Proof.
have [eigh He] := eigh_exists 3; pose T : 'M[R]_3 := \matrix_(i, j) if (i == 0) && (j == 1) || (i == 1) && (j == 0) then 0 else 1.
pose minimize := fun (f : 'M[R]_3 -> xR * 'M[R]_3) (x : 'M[R]_3) => x.
pose svd := fun A : 'M[R]_3 => (A, (0 : 'rV[R]_3), A); pose chol := fun d (A : 'M[R]_d) => A.
pose V := fun _ : 'M[bool]_3 => existT (fun d => 'I_d -> 'I_3 * 'I_3) 0%N (fun=> (0, 0)).
have h0 : 0 < 1 / 2%:R :> R by rewrite div1r invr_gt0 ltr0n.
have un : unrelated [:: T; 1%:M] (1 / 2%:R) 0 1 by left=> M; rewrite !inE => /orP[] /eqP ->; rewrite mxE normr0.
have [r er] : exists r, bayesian_graphical_lasso (fun=> Val (Some 1%:M)) eigh (@invmx _ 3) minimize svd chol V [:: T; 1%:M] id (fun i r => r) (@rev _)
    [:: 0; 0] (1 / 2%:R) 2 GL 1 Bic = Val r.
  rewrite /bayesian_graphical_lasso; set gs := [seq _ | g <- _].
  have [l ->] : exists l, collect (gw_score_mode (fun=> Val (Some 1%:M)) eigh (@invmx _ 3) minimize svd chol V GL Bic [:: 0; 0] (3%:R + 2%:R) 1%:M) gs = Val l.
    elim: gs => [|N gs [l IH]]; first by exists [::].
    rewrite /collect -/(collect _ gs) IH; have [y ->] := score_mode_val eigh (@invmx _ 3) minimize svd chol V [:: 0; 0] N (3%:R + 2%:R) 1%:M; by eexists.
  by eexists.
have sI (A : 'M[R]_3) : sym A -> sym (invmx A) by rewrite /sym trmx_inv => ->.
have sE : forall (X : seq 'rV[R]_3) (E : 'M[R]_3), Val (Some (1%:M : 'M[R]_3)) = Val (Some E) -> sym E by move=> X E [<-]; exact: trmx1.
have [h1 h2] := C203_estimate He sI sE (fun s x => erefl (x \in s)) (@rev_reorders _) h0 er.
case: r er h1 h2 => [P|] er h1 h2; last by case: (h1.1 (erefl _)).
exists eigh, minimize, svd, chol, V, P; split=> //; first exact: rev_reorders.
by have [_ ->] := h2 P (erefl _).
Qed.
(** python's sort, reversed: an order with the properties assumed above *)
Example C203_order_case p : exists order : seq (xR * 'M[R]_p) -> seq (xR * 'M[R]_p), reorders order /\ best_first order.
Proof.
pose le (l : seq (xR * 'M[R]_p)) i j := fin (nth (NaN, 0) l j).1 <= fin (nth (NaN, 0) l i).1.
exists (fun l => [seq nth (NaN, 0) l k | k <- sort (le l) (iota 0 (size l))]); split=> l.
  exists (sort (le l) (iota 0 (size l))); rewrite perm_sort; split=> // d; apply/eq_in_map => k.
  by rewrite mem_sort mem_iota => /= hk; exact: set_nth_default.
by move=> _; rewrite sorted_map; apply: sort_sorted => i j; rewrite /le le_total.
Qed.
