(** Property theorems C40, C41, C78-C81, C83: the node-wise and symmetric generalised linear models. *)
From Coq Require Import Reals.
From mathcomp Require Import all_ssreflect all_algebra.
From Verif Require Import RStruct RTac LinTac S_Mat NP M_Prox M_Loop M_LGL M_Stab M_GLM S_GLM.
From Verif Require Import Calc RMx P_Prox P_Rules P_GLM P_GLM2 P_GLM3 P_GLM4 P_GLM5.
Import Order.TTheory GRing.Theory Num.Theory.

Set Implicit Arguments.
Unset Strict Implicit.
Unset Printing Implicit Defensive.
Local Open Scope ring_scope.

(** * C40: which samples the Ising estimate depends on *)
Theorem C40_first_sample_only : forall n d (X X' : 'M[R]_(n.+1, d)) alpha tol gamma max_iter,
  row 0 X = row 0 X' ->
  ising_estimator_fit X alpha tol gamma max_iter = ising_estimator_fit X' alpha tol gamma max_iter.
Proof.
move=> n d X X' alpha tol gamma k hr.
exact: (@ising_first_sample n d X X' (ising_estimator_params d alpha tol gamma k) 0 None hr erefl).
Qed.
Print Assumptions C40_first_sample_only.

(** two samples (1, 1) and (1, -1): no association at all *)
Definition exI : 'M[R]_(2, 2) := \matrix_(i, j) if (i == 1) && (j == 1) then -1 else 1.
Lemma exI_nll (theta : 'M[R]_2) : interactions theta -> ising_nll exI theta = 2%:R * lch (theta 0 1).
Proof.
move=> [hs _].
have e01 : theta 1 0 = theta 0 1 by rewrite -{1}hs mxE.
have f0' i : field (row i exI) theta 0 = exI i 1 * theta 0 1.
  rewrite /field big_mkcond big_ord_recl big_ord1 /= add0r mxE.
  have -> : lift ord0 ord0 = 1 :> 'I_2 by apply: val_inj.
  by rewrite e01.
have f1' i : field (row i exI) theta 1 = exI i 0 * theta 0 1.
  by rewrite /field big_mkcond big_ord_recl big_ord1 /= addr0 mxE.
have lN (u : R) : lch (- u) = lch u by rewrite -!lchE opprK addrC.
have s2 (F : 'I_2 -> R) : \sum_i F i = F 0 + F 1.
  by rewrite big_ord_recl big_ord1; congr (_ + F _); apply: val_inj.
rewrite /ising_nll /sample_mean s2 !s2 !f0' !f1' !mxE /= !lchE !mul1r !mulN1r !lN opprK.
by move: (theta 0 1 : R) => b; move: (lch b) => a; mcfield.
Qed.
Definition exP : ising_params 2 := ising_estimator_params 2 (4%:R^-1) 1 1 1.
Lemma exI_step : ising_step exI exP 1 0 0 1 = 4%:R^-1.
Proof.
have gz r k : g0 exI 0 r k = if k != r then - (2%:R^-1 * (exI 0 k * exI 0 r)) else 0.
  rewrite mxE; case: ifP => // _.
  have -> : ising_XT exI 0 0 r = 0 by apply: big1 => k' _; rewrite [(0 : 'M[R]_2) _ _]mxE mulr0.
  by rewrite th0 sub0r mulrN mulrA.
rewrite /ising_step [ig_A exP]/= [ig_alpha exP]/= grad_noneE sodE /=.
have -> : symmetrise (0 - 1 *: g0 exI 0) 0 1 = 2%:R^-1.
  rewrite mxE mxE [(_ : 'M__)^T _ _]mxE !subZE [(0 : 'M[R]_2) _ _]mxE [(0 : 'M[R]_2) _ _]mxE !sub0r !gz /= !mxE /=.
  by mcfield.
rewrite mulr1.
have q0 : (0 : R) <= 4%:R^-1 by rewrite invr_ge0 ler0n.
have [[_ ->]|[h _]|[/andP[_ h] _]] := soft1_cases (2%:R^-1) q0.
- by mcfield.
- by move: h; rewrite lt_gtF //; mclra.
- by move: h; rewrite leNgt; have -> : ((4%:R^-1 : R) < 2%:R^-1) by mclra.
Qed.
Theorem C40_every_sample_refuted : exists (X : 'M[R]_(2, 2)) (alpha tol gamma : R) theta,
  [/\ 0 < alpha, 0 < gamma,
      forall theta', interactions theta' ->
        ising_nll X 0 + alpha * l1od (0 : 'M[R]_2) <= ising_nll X theta' + alpha * l1od theta',
      ising_estimator_fit X alpha tol gamma 1 = Some theta /\ interactions theta &
      ising_nll X 0 + alpha * l1od (0 : 'M[R]_2) < ising_nll X theta + alpha * l1od theta].
Proof.
have ez : interactions (0 : 'M[R]_2) by split; [exact: sym0 | move=> i; rewrite mxE].
have lz : l1od (0 : 'M[R]_2) = 0 by rewrite /l1od big1 // => i _; rewrite big1 // => j _; rewrite mxE normr0.
have lge (t : R) : lch 0 <= lch t.
  by have /RleP := lch_tangent 0 t; rewrite th0 => h; apply: le_trans h; apply/RleP; right; rewrite Rmult_0_l Rplus_0_r.
have hmin theta' : interactions theta' -> ising_nll exI 0 <= ising_nll exI theta'.
  by move=> h; rewrite !exI_nll // [(0 : 'M[R]_2) _ _]mxE; apply: ler_wpmul2l; rewrite ?ler0n.
pose t := ising_step exI exP 1 0.
have ht : interactions t by split; [exact: step_sym | apply: step_zdiag => // i; rewrite mxE].
have t01 : t 0 1 = 4%:R^-1 by exact: exI_step.
exists exI, (4%:R^-1), 1, 1, t; split.
- by rewrite invr_gt0 ltr0Sn.
- exact: ltr01.
- move=> theta' h; rewrite lz mulr0; apply: ler_add (hmin _ h) _.
  by apply: mulr_ge0; [rewrite invr_ge0 ler0n | exact: l1od_ge0].
- split=> //; rewrite /ising_estimator_fit /ising_fit /= /ising_body /=.
  by case: ifP.
- rewrite lz mulr0; apply: ler_lt_add (hmin _ ht) _; apply: mulr_gt0; first by rewrite invr_gt0 ltr0Sn.
  rewrite /l1od big_ord_recl; apply: (@lt_le_trans _ _ (\sum_(j | j != ord0) `|t ord0 j|)).
    rewrite (bigD1 1) //= ltr_paddr ?sumr_ge0 // t01.
    by rewrite normr_gt0 invr_eq0 pnatr_eq0.
  by rewrite ler_addl; apply: sumr_ge0 => i _; apply: sumr_ge0.
Qed.
Print Assumptions C40_every_sample_refuted.

(** with a single sample the step direction is the gradient of the likelihood *)
Theorem C40_one_sample : forall d (X : 'M[R]_(1, d)) (theta : 'M[R]_d) rho T,
  gradient_along (@sym d) (ising_nll X) theta (gradient_ising X theta None rho T).
Proof.
move=> d X theta rho T; have := @ising_full_gradientP _ _ X theta.
suff -> : ising_full_gradient X theta = gradient_ising X theta None rho T by [].
rewrite grad_noneE; apply/matrixP => r j; rewrite !mxE; case: ifP => // _.
by rewrite big_ord1 invr1 mulr1 mul1r field_row.
Qed.
Print Assumptions C40_one_sample.
Example C40_one_sample_case : gradient_ising (const_mx 1 : 'M[R]_(1, 2)) 0 None 1 1 0 1 = -1.
Proof.
rewrite grad_noneE mxE /= invr1 mul1r !mxE mul1r.
have -> : ising_XT (const_mx 1 : 'M[R]_(1, 2)) 0 0 0 = 0 by apply: big1 => k _; rewrite [(0 : 'M[R]_2) _ _]mxE mulr0.
by rewrite th0 sub0r.
Qed.

(** * C41: symmetry and the diagonal *)
Definition of_option d (P : 'M[R]_d -> Prop) (A : option 'M[R]_d) : Prop := forall a, A = Some a -> P a.
Theorem C41_interactions : forall n d (X : 'M[R]_(n.+1, d)) (p : ising_params d) fuel w res,
  of_option (@interactions d) w -> of_option (@interactions d) (ig_A p) ->
  ising_fit X p fuel w = Some (Ok res) ->
  interactions (gr_theta res) /\
  forall ths cks theta, gr_history res = Some (ths, cks) -> theta \in ths -> interactions theta.
Proof.
move=> n d X p fuel w res hw hA.
have hA' : zdiagA (ig_A p) by move: hA; case: (ig_A p) => [a|] //= h; case: (h a erefl).
have hs0 : iall (@szd d) (GLMState (odflt 0 w) (ig_gamma p) [:: odflt 0 w] [::]).
  have h : szd (odflt 0 w).
    case: w hw => [w|] /= hw; first exact: hw.
    by split; [exact: sym0 | move=> i; rewrite mxE].
  by split=> //= t; rewrite inE => /eqP->.
rewrite /ising_fit; case e : (glm_for _ _ _ _ _) => [[s l]|] //= h.
have [h1 h2] : iall (@szd d) s.
  apply: (@glm_for_inv _ (ising_body X p fuel) (iall (@szd d))) e => // it s1 b s2 q eb.
  exact: (body_szd hA' q eb).
move: h; rewrite /glm_return; case: ifP => _; [case: l e => [i|] e //|] => -[<-]; split=> //= ths cks theta;
  by case: ifP => // _ [<- _]; apply: h2.
Qed.
Print Assumptions C41_interactions.
Example C41_case : exists res, ising_fit exI (ising_estimator_params 2 (4%:R^-1) 1 1 1) 0 None = Some (Ok res) /\
  gr_theta res 0 1 = 4%:R^-1.
Proof.
rewrite /ising_fit /= /ising_body /=; case: ifP => _ /=;
  by eexists; split; [reflexivity | exact: exI_step].
Qed.

(** any warm start: the iterates are symmetric from the first on, and without a coupling matrix the
    diagonal is the one of the warm start *)
Theorem C41_any_start : forall n d (X : 'M[R]_(n.+1, d)) (p : ising_params d) fuel (w : 'M[R]_d) res,
  ising_fit X p fuel (Some w) = Some (Ok res) -> (0 < ig_max_iter p)%N -> ig_line_search p = false ->
  sym (gr_theta res) /\ (ig_A p = None -> forall i, gr_theta res i i = w i i).
Proof.
move=> n d X p fuel w res h hm hls; move: h; rewrite /ising_fit.
case e : (glm_for _ _ _ _ _) => [[s l]|] //= h.
have er : gr_theta res = gs_theta s.
  by move: h; rewrite /glm_return; case: ifP => _; [case: l e => [i|] e //|] => -[<-].
rewrite er; split.
  case: (ig_max_iter p) hm e => // k _.
  have [s1 e1 hs1] : exists2 s1, (exists b, ising_body X p fuel 0 (GLMState w (ig_gamma p) [:: w] [::]) = Some (b, s1)) & sym (gs_theta s1).
    by rewrite /ising_body hls; eexists; [eexists; reflexivity | exact: step_sym].
  case: e1 => b e1; rewrite /= e1; case: b e1 => e1; first by case=> <-.
  apply: (@glm_for_inv _ (ising_body X p fuel) (fun s => sym (gs_theta s))) => // it s2 b s3 _.
  by rewrite /ising_body hls => -[_ <-]; exact: step_sym.
move=> hA i; apply: (@glm_for_inv _ (ising_body X p fuel) (fun s => gs_theta s i i = w i i)) e => //.
by move=> it s2 b s3 q; rewrite /ising_body hls => -[_ <-] /=; rewrite step_diag.
Qed.
Print Assumptions C41_any_start.

(** * C78: the Ising fit *)
(** the loop ends by the tolerance test: the two last iterates differ by less than tol *)
Theorem C78_stops : forall n d (X : 'M[R]_(n.+1, d)) (alpha tol gamma : R) (max_iter N : nat),
  (forall j, `|X 0 j| <= 1) -> 0 <= alpha -> 0 < tol -> 0 < gamma ->
  gamma * (\sum_j X 0 j ^+ 2) <= n.+1%:R ->
  2%:R * gamma * (d%:R * ln 2) / n.+1%:R < tol ^+ 2 * N%:R -> (N <= max_iter)%N ->
  forall p, p = IsingParams alpha gamma tol max_iter true true None 0 1 (1 / 2%:R) false ->
  exists res hs cks theta theta' i, [/\ ising_fit X p 0 None = Some (Ok res),
    gr_n_iter res = Some i /\ (i < N)%N, gr_history res = Some (rcons (rcons hs theta) theta', cks),
    gr_theta res = theta' & np_norm (theta - theta') < tol].
Proof.
move=> n d X alpha tol gamma k N hx a0 t0 g0' hL hN hm p ep.
have Le : curvature X p = (\sum_j X 0 j ^+ 2) / n.+1%:R by rewrite /curvature /coupling ep addr0.
have L1 : ig_gamma p * curvature X p <= 1.
  by rewrite Le ep /= mulrA ler_pdivr_mulr ?ltr0Sn // mul1r.
have P0 : Phi0 X p 0 = d%:R * ln 2 / n.+1%:R.
  rewrite /Phi0 ep /= addr0.
  have -> : l1od (0 : 'M[R]_d) = 0 by rewrite /l1od big1 // => i _; rewrite big1 // => j _; rewrite mxE normr0.
  rewrite mulr0 addr0 /f0 mulrC; congr (_ / _).
  have e r : ising_XT X 0 0 r = 0 by apply: big1 => j _; rewrite mxE mulr0.
  have l2 : lch 0 = ln 2%:R by rewrite -lchE oppr0 exp_0.
  under eq_bigr => r _ do rewrite e mulr0 subr0 l2.
  by rewrite sumr_const card_ord mulr_natl.
have [i [s [hs [th1 [hi e e1 e2 e3]]]]] : exists i s hs t0, [/\ (i < N)%N,
    glm_for (ising_body X p 0) (ig_max_iter p) 0
      (GLMState 0 (ig_gamma p) [:: 0] [::]) None = Some (s, Some i),
    gs_thetas s = rcons (rcons hs t0) (gs_theta s), gs_theta s = ising_step X p (ig_gamma p) t0 &
    np_norm (t0 - gs_theta s) < ig_tol p].
  apply: (@ising_stops n d X p 0 None N) => //; try by rewrite ep.
  - by rewrite ep /= mulr0.
  - exact: sym0.
  - by rewrite P0 ep /= mulrA.
exists (GLMResult (gs_theta s) (Some (gs_thetas s, gs_checks s)) (Some i)), hs, (gs_checks s), th1, (gs_theta s), i.
have e3' : np_norm (th1 - gs_theta s) < tol by move: e3; rewrite ep.
have er : ig_return_history p = true by rewrite ep.
have er' : ig_return_n_iter p = true by rewrite ep.
by split=> //=; [rewrite /ising_fit e er er' | rewrite e1].
Qed.
Print Assumptions C78_stops.
(** hypotheses met by +-1 data: d variables, gamma d <= n *)
Example C78_stops_case : exists N, (2%:R * 1 * (2%:R * ln 2) / 2%:R < (1 : R) ^+ 2 * N%:R) /\
  1 * (\sum_j exI 0 j ^+ 2) <= 2%:R /\ forall j, `|exI 0 j| <= 1.
Proof.
have h : ln 2%:R <= 1 :> R.
  have /RleP := exp_tangent 0 (ln 2%:R).
  have -> : exp (ln 2%:R) = 2%:R by apply: exp_ln; apply/RltP; exact: ltr0Sn.
  by rewrite exp_0; move: (ln 2%:R : R) => z h; mclra.
exists 3%N; split; first by rewrite expr1n mul1r; move: h; move: (ln 2%:R : R) => z h; mclra.
split; first by rewrite big_ord_recl big_ord1 !mxE /= !expr1n mul1r.
by move=> j; rewrite mxE /= normr1.
Qed.

(** one sample: every recorded objective is the penalised likelihood of its iterate, and they never
    increase *)
Theorem C78_objective_nonincreasing : forall d (X : 'M[R]_(1, d)) (p : ising_params d) fuel w res ths cks,
  0 <= ig_alpha p -> 0 < ig_gamma p -> ig_gamma p * (\sum_j X 0 j ^+ 2) <= 1 ->
  ig_A p = None -> ig_line_search p = false -> of_option (@sym d) w ->
  ising_fit X p fuel w = Some (Ok res) -> gr_history res = Some (ths, cks) ->
  forall F, (forall t, F t = ising_nll X t + ig_alpha p * l1od t) ->
  map gc_obj cks = [seq Fin (F t) | t <- behead ths] /\ nonincreasing [seq F t | t <- ths].
Proof.
move=> d X p fuel w res ths cks a0 g0' hL hA hls hw h hh F hF.
have hw' : sym (odflt 0 w) by case: w hw h => [w|] /= hw _; [exact: hw | exact: sym0].
have [h1 h2] := ising_fit_hist a0 g0' hL hA hls hw' h hh.
have e : F =1 iF X p by move=> t; rewrite hF.
by rewrite (eq_map e) h1; split=> //; apply: eq_map => t; rewrite e.
Qed.
Print Assumptions C78_objective_nonincreasing.
Example C78_objective_case : 4%:R^-1 * (\sum_j (const_mx 1 : 'M[R]_(1, 2)) 0 j ^+ 2) <= 1.
Proof. by rewrite big_ord_recl big_ord1 !mxE !expr1n; mclra. Qed.

(** a penalty above every product of the first sample, over n, gives the empty network *)
Theorem C78_large_alpha : forall n d (X : 'M[R]_(n.+1, d)) alpha tol gamma max_iter,
  0 < gamma -> 0 < tol -> (0 < max_iter)%N ->
  (forall i j, i != j -> `|X 0 i * X 0 j| <= n.+1%:R * alpha) ->
  ising_estimator_fit X alpha tol gamma max_iter = Some 0.
Proof.
move=> n d X alpha tol gamma k g0' t0 hk hx.
exact: (@ising_large_alpha n d X (ising_estimator_params d alpha tol gamma k) 0 erefl erefl g0' t0 hk hx).
Qed.
Print Assumptions C78_large_alpha.
Example C78_large_alpha_case : forall i j : 'I_2, i != j -> `|exI 0 i * exI 0 j| <= 2%:R * 2%:R^-1.
Proof. by move=> i j _; rewrite !mxE /= mul1r normr1 mulfV // pnatr_eq0. Qed.

(** * C79: the Poisson node-wise fit *)
(** for every data set the line search accepts a step: some amount of fuel is enough for the whole
    fit, and more fuel changes nothing *)
Theorem C79_returns : forall n d (X : 'M[R]_(n, d.+1)) r (p : poisson_params d),
  0 <= po_alpha p -> 0 < po_update_gamma p < 1 -> 0 < po_gamma p -> po_A p = None ->
  po_return_n_iter p = false ->
  exists N res, forall fuel, (N <= fuel)%N -> poisson_fit_each X r p fuel = Some (Ok res).
Proof.
move=> n d X r p a0 u0 g0' hA hn.
have [N [[s l] h]] := poisson_for_total X r a0 u0 hA (po_max_iter p) 0
  (s := GLMState 0 (po_gamma p) [:: 0] [::]) None g0'.
exists N, (GLMResult (gs_theta s) (if po_return_history p then Some (gs_thetas s, gs_checks s) else None) None).
by move=> fuel hf; rewrite /poisson_fit_each h // /= hn.
Qed.
Print Assumptions C79_returns.
(** the estimator's own arguments meet the hypotheses *)
Example C79_case d : let p := poisson_defaults d (1 / 10%:R) (1 / 10%:R) in
  [/\ 0 <= po_alpha p, 0 < po_update_gamma p < 1, 0 < po_gamma p, po_A p = None &
      po_return_n_iter p = false].
Proof.
split=> //=; try exact: ltr01; first by rewrite div1r invr_ge0 ler0n.
by rewrite div1r invr_gt0 ltr0Sn invf_lt1 ?ltr0Sn // ltr1n.
Qed.

(** every recorded objective is the penalised likelihood of its iterate (the first iteration records
    nothing) and the objective never increases from one iterate to the next *)
Theorem C79_objective_nonincreasing : forall n d (X : 'M[R]_(n, d.+1)) r (p : poisson_params d) fuel res ths cks,
  0 <= po_alpha p -> 0 < po_update_gamma p < 1 -> 0 < po_gamma p -> po_A p = None ->
  poisson_fit_each X r p fuel = Some (Ok res) -> gr_history res = Some (ths, cks) ->
  forall F, (forall t, F t = poisson_nll (col' r X) (col r X) t + po_alpha p * l1 t) ->
  map gc_obj cks = [seq Fin (F t) | t <- drop 2 ths] /\ nonincreasing [seq F t | t <- ths].
Proof.
move=> n d X r p fuel res ths cks a0 u0 g0' hA h hh F hF.
have [h1 h2] := poisson_fit_hist a0 u0 g0' hA h hh.
have e : F =1 (fun t => poisson_objective1 X t r (po_alpha p)) by move=> t; rewrite hF -psm_nll.
by rewrite (eq_map e) h1; split=> //; apply: eq_map => t; rewrite e.
Qed.
Print Assumptions C79_objective_nonincreasing.

(** an iteration that leaves the coefficients unchanged has reached a minimiser *)
Theorem C79_unchanged_is_minimiser : forall n d (X : 'M[R]_(n, d.+1)) r (p : poisson_params d) fuel it s b s',
  0 <= po_alpha p -> 0 < po_update_gamma p < 1 -> 0 < gs_gamma s -> po_A p = None ->
  poisson_body X r p fuel it s = Some (b, s') -> gs_theta s' = gs_theta s ->
  forall theta, poisson_nll (col' r X) (col r X) (gs_theta s) + po_alpha p * l1 (gs_theta s) <=
                poisson_nll (col' r X) (col r X) theta + po_alpha p * l1 theta.
Proof.
move=> n d X r p fuel it s b s' a0 u0 g0' hA h es theta.
have [/andP[k0 _] _ k3] := poisson_body_spec a0 u0 hA g0' h; rewrite es in k3.
by rewrite -!psm_nll; exact: (accept_fixed a0 k0 k3).
Qed.
Print Assumptions C79_unchanged_is_minimiser.

(** with a coupling matrix (the temporal model) the test compares the loss without the coupling
    against the gradient with it, and can reject every step size: the call never returns *)
Theorem C79_coupled_refuted : exists (X : 'M[R]_(1, 2)) r (A : 'M[R]_2),
  forall (gamma tol update_gamma : R) max_iter, 0 < gamma -> 0 < update_gamma -> (0 < max_iter)%N ->
  forall fuel, poisson_fit_each X r
    (PoissonParams 0 gamma tol max_iter update_gamma true false (Some A) 1 1) fuel = None.
Proof.
by exists stuck_X, 0, stuck_A => gamma tol u k g0' u0 hk fuel; apply: stuck_fit.
Qed.
Print Assumptions C79_coupled_refuted.

(** * C80: the Gaussian node-wise fit *)
Theorem C80_objective_nonincreasing : forall n d (X : 'M[R]_(n, d.+1)) r (p : gaussian_params) res ths cks,
  0 <= ga_alpha p -> 0 < ga_gamma p -> ga_gamma p * (fnorm2 (col' r X) / n%:R) <= 2%:R ->
  gaussian_fit_each X r p = Some (Ok res) -> gr_history res = Some (ths, cks) ->
  forall F, (forall t, F t = lasso_cost (col' r X) (col r X) (ga_alpha p) t
                              - fnorm2 (col r X) / (2%:R * n%:R)) ->
  map gc_obj cks = [seq Fin (F t) | t <- behead ths] /\ nonincreasing [seq F t | t <- ths].
Proof.
move=> n d X r p res ths cks a0 g0' hL h hh F hF.
have [h1 h2] := gaussian_fit_hist a0 g0' hL h hh.
have e : F =1 (fun t => gaussian_objective X t r (ga_alpha p)) by move=> t; rewrite hF gaussian_objectiveE.
by rewrite (eq_map e) h1; split=> //; apply: eq_map => t; rewrite e.
Qed.
Print Assumptions C80_objective_nonincreasing.

(** the loop ends by the tolerance test, and then the estimate is within an explicit gap of every
    other coefficient vector *)
Theorem C80_stops : forall n d (X : 'M[R]_(n, d.+1)) r (alpha tol gamma : R) (max_iter N : nat),
  0 <= alpha -> 0 < tol -> 0 < gamma -> gamma * (fnorm2 (col' r X) / n%:R) <= 1 ->
  2%:R * gamma * lasso_cost (col' r X) (col r X) alpha (gaussian_start d) < tol ^+ 2 * N%:R ->
  (N <= max_iter)%N ->
  exists res i, [/\ gaussian_fit_each X r (GaussianParams alpha gamma tol max_iter true true) = Some (Ok res),
    gr_n_iter res = Some i, (i < N)%N &
    forall theta, lasso_cost (col' r X) (col r X) alpha (gr_theta res) <=
      lasso_cost (col' r X) (col r X) alpha theta + tol * fnorm (gr_theta res - theta) / gamma
      + fnorm2 (col' r X) / n%:R / 2%:R * tol ^+ 2].
Proof.
move=> n d X r alpha tol gamma k N a0 t0 g0' hL hN hm.
pose p := GaussianParams alpha gamma tol k true true.
have [i [s [hs [th1 [hi e e1 e2 e3]]]]] := @gaussian_stops n d X r p N a0 g0' hL t0 hN hm.
exists (GLMResult (gs_theta s) (Some (gs_thetas s, gs_checks s)) (Some i)), i; split=> //=.
  by rewrite /gaussian_fit_each -/p e.
move=> theta; rewrite /= in e2 e3.
have e3' : fnorm (th1 - gs_theta s) < tol by move: e3; rewrite /np_norm squared_normE.
have hg := @composite_gap _ _ (gsmooth X r) th1 (gaussian_gradient X th1 r) (gs_theta s) alpha gamma (gL X r) a0 g0' e2
   theta (gsmooth_le X r _ _) (gsmooth_convex X r _ _).
apply: le_trans hg _; apply: ler_add.
  rewrite ler_add2l; apply: ler_wpmul2r; first by rewrite invr_ge0 ltW.
  apply: le_trans (fdot_cauchy _ _) _.
  by apply: ler_wpmul2r; [exact: fnorm_ge0 | exact: ltW].
apply: ler_wpmul2l; first by apply: divr_ge0; [apply: divr_ge0; [exact: fnorm2_ge0 | exact: ler0n] | exact: ler0n].
rewrite -fnorm2N opprB -fnorm_sqr ler_sqr ?nnegrE ?fnorm_ge0 //; exact: ltW.
Qed.
Print Assumptions C80_stops.

(** a step leaves the coefficients unchanged exactly at a minimiser *)
Theorem C80_unchanged_iff_minimiser : forall n d (X : 'M[R]_(n, d.+1)) r (p : gaussian_params) it s b s',
  0 <= ga_alpha p -> 0 < gs_gamma s -> gs_gamma s * (fnorm2 (col' r X) / n%:R) < 2%:R ->
  gaussian_body X r p it s = Some (b, s') ->
  (gs_theta s' = gs_theta s <->
   forall theta, lasso_cost (col' r X) (col r X) (ga_alpha p) (gs_theta s) <=
                 lasso_cost (col' r X) (col r X) (ga_alpha p) theta).
Proof.
move=> n d X r p it s b s' a0 g0' hL; rewrite /gaussian_body => -[_ <-] /=.
rewrite -/(gstep X r (ga_alpha p) (gs_gamma s) (gs_theta s)); set t := gstep _ _ _ _ _; split=> [et theta|hm].
  exact: (@composite_fixed _ _ (gsmooth X r) (gs_theta s) (gaussian_gradient X (gs_theta s) r) t (ga_alpha p) (gs_gamma s)
     a0 g0' erefl et (gsmooth_convex X r _)).
have h := gstep_descent X r (gs_theta s) a0 g0'; rewrite -/t in h.
have {}h : (gs_gamma s)^-1 - gL X r / 2%:R > 0 -> fnorm2 (t - gs_theta s) <= 0.
  by move=> c0; rewrite -(pmulr_rle0 _ c0) -(ger_addl (gF X r (ga_alpha p) t)); apply: le_trans h _; exact: hm.
have c0 : (gs_gamma s)^-1 - gL X r / 2%:R > 0.
  by rewrite subr_gt0 ltr_pdivr_mulr ?ltr0Sn // -(ltr_pmul2l g0') mulVKf // gt_eqF.
have /eqP := fnorm2_eq0 (le_anti (introT andP (conj (h c0) (fnorm2_ge0 _)))).
by rewrite subr_eq0 => /eqP.
Qed.
Print Assumptions C80_unchanged_iff_minimiser.
Example C80_case : 1 / 1000%:R * (fnorm2 (const_mx 1 : 'M[R]_(2, 1)) / 2%:R) <= 1 :> R.
Proof.
have -> : fnorm2 (const_mx 1 : 'M[R]_(2, 1)) = 2%:R.
  by rewrite /fnorm2 big_ord_recl big_ord1 !big_ord1 !mxE !expr1n.
by rewrite mulfV ?pnatr_eq0 // mulr1 div1r invf_le1 ?ltr0Sn // ler1n.
Qed.

(** with the estimator's fixed step size and unscaled data the iteration diverges: one sample (1, 100),
    penalty 1; the coefficient after the 1000 iterations exceeds 0.09 * 7^999 *)
Theorem C80_scaled_data_refuted : exists (X : 'M[R]_(1, 2)) r res,
  gaussian_fit_each X r (gaussian_defaults 1) = Some (Ok res) /\
  9%:R / 100%:R * 7%:R ^+ 999 <= `|gr_theta res 0 0|.
Proof.
have [res h] := @wild_fit 999 (gaussian_defaults 1) erefl erefl.
by exists wild_X, 0, res.
Qed.
Print Assumptions C80_scaled_data_refuted.

(** * C81: arguments that have no effect *)
Theorem C81_gaussian_arguments_refuted : forall n d (X : 'M[R]_(n, d.+1)) (e e' : gaussian_glm) gamma gamma',
  gg_alpha e = gg_alpha e' -> gg_reconstruction e = gg_reconstruction e' ->
  gaussian_glm_fit e X gamma = gaussian_glm_fit e' X gamma'.
Proof. by move=> n d X e e' g g' h1 h2; rewrite /gaussian_glm_fit h1 h2. Qed.
Print Assumptions C81_gaussian_arguments_refuted.

(** * C83: the gradients *)
Theorem C83_gaussian : forall n d (X : 'M[R]_(n, d.+1)) r theta,
  gradient_at (fun t => fnorm2 (col r X - col' r X *m t) / (2%:R * n%:R)) theta (gaussian_gradient X theta r).
Proof. by move=> n d X r theta; exact: gaussian_gradientP. Qed.
Print Assumptions C83_gaussian.
Theorem C83_poisson : forall n d (X : 'M[R]_(n, d.+1)) r theta T rho,
  gradient_at (poisson_nll (col' r X) (col r X)) theta (poisson_gradient X theta r None T rho).
Proof.
move=> n d X r theta T rho v hv.
apply: (@d_ext (fun t => psm X r (theta + t *: v))); first by move=> t; rewrite psm_nll.
exact: pgradP.
Qed.
Print Assumptions C83_poisson.
