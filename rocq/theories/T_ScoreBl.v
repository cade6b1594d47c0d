(** C205: the scores of the Markov blankets. *)
From Coq Require Import Reals.
From mathcomp Require Import all_ssreflect all_algebra.
From Verif Require Import RStruct RTac M_GWishart M_ScoreBl P_GWishart.
Import Order.TTheory GRing.Theory Num.Theory.

Set Implicit Arguments.
Unset Strict Implicit.
Unset Printing Implicit Defensive.
Local Open Scope ring_scope.

(** specification: the lasso with an intercept minimises the squared residuals, over 2n, plus a penalty that is zero for no coefficients (the weighted
    absolute values: older versions of scikit-learn scale the columns) *)
Definition lasso_obj n q (c : 'I_q -> R) (alpha : R) (X : 'M[R]_(n, q)) (y : 'cV[R]_n) (wb : 'cV[R]_q * R) : R :=
  (2%:R * n%:R)^-1 * (\sum_i (y i 0 - (X *m wb.1) i 0 - wb.2) ^+ 2) + alpha * (\sum_j c j * `|wb.1 j 0|).
Definition lasso_ok n (lars : forall q, R -> 'M[R]_(n, q) -> 'cV[R]_n -> 'cV[R]_q * R) : Prop :=
  forall q alpha (X : 'M[R]_(n, q)) (y : 'cV[R]_n), 0 < alpha -> exists2 c : 'I_q -> R, (forall j, 0 <= c j) &
    forall wb, lasso_obj c alpha X y (lars q alpha X y) <= lasso_obj c alpha X y wb.

Section S.
Variables (n : nat) (lars : forall q, R -> 'M[R]_(n, q) -> 'cV[R]_n -> 'cV[R]_q * R).
Hypothesis ok : lasso_ok lars.
Hypothesis n0 : (0 < n)%N.

Lemma rss_ge0 (y z : 'cV[R]_n) : 0 <= rss y z.
Proof. by apply: sumr_ge0 => i _; exact: sqr_ge0. Qed.
Lemma tss_ge0 (y : 'cV[R]_n) : 0 <= tss y.
Proof. by apply: sumr_ge0 => i _; exact: sqr_ge0. Qed.
Lemma rss_le q alpha (X : 'M[R]_(n, q)) y : 0 < alpha -> rss y (predictions X (lars alpha X y)) <= tss y.
Proof.
move=> a0; have [c c0] := ok X y a0; move=> /(_ (0, mean_of y)); set wb := lars alpha X y; rewrite /lasso_obj /=.
rewrite mulmx0 [X in _ <= _ * X + _ -> _](eq_bigr (fun i => (y i 0 - mean_of y) ^+ 2)); last by move=> i _; rewrite mxE subr0.
rewrite [X in _ <= _ + alpha * X](_ : _ = 0); last by rewrite big1 // => j _; rewrite mxE normr0 mulr0.
have -> : \sum_i (y i 0 - (X *m wb.1) i 0 - wb.2) ^+ 2 = rss y (predictions X wb).
  by apply: eq_bigr => i _; rewrite /predictions [(_ + const_mx _) _ _]mxE [const_mx _ _ _]mxE opprD addrA.
rewrite -/(tss y) mulr0 addr0 => h.
have pen : 0 <= alpha * \sum_j c j * `|wb.1 j 0| by apply: mulr_ge0; first exact: ltW; apply: sumr_ge0 => j _; rewrite mulr_ge0.
have : (2%:R * n%:R)^-1 * rss y (predictions X wb) <= (2%:R * n%:R)^-1 * tss y by apply: le_trans h; rewrite ler_addl.
by rewrite ler_pmul2l // invr_gt0 mulr_gt0 ?ltr0n.
Qed.
Lemma r2_range (y z : 'cV[R]_n) : rss y z <= tss y -> 0 <= r2_score y z <= 1.
Proof.
move=> h; rewrite /r2_score; case: eqP => [e|/eqP t0].
  by case: eqP; rewrite ?lexx ?ler01.
have tp : 0 < tss y by rewrite lt_neqAle eq_sym t0 tss_ge0.
by rewrite subr_ge0 ler_pdivr_mulr // mul1r h ler_subl_addr ler_addl divr_ge0 ?rss_ge0 // ltW.
Qed.
Lemma fit_score_range q (X : 'M[R]_(n, q)) y alphas : (forall a, a \in alphas -> 0 < a) -> 0 <= fit_score lars X y alphas <= (size alphas)%:R.
Proof.
rewrite /fit_score; elim: alphas => [|a s IH] ha; first by rewrite big_nil lexx.
rewrite big_cons; have /andP[h1 h2] : 0 <= r2_score y (predictions X (lars a X y)) <= 1 by apply: r2_range; apply: rss_le; apply: ha; rewrite mem_head.
have /andP[h3 h4] := IH (fun a' h => ha a' (mem_behead (h : a' \in behead (a :: s)))).
by rewrite addr_ge0 //= -addn1 natrD addrC ler_add.
Qed.
Lemma score_range p (X : 'M[R]_(n, p)) i mb alphas : (forall a, a \in alphas -> 0 < a) -> 0 <= score_blanket lars X i mb alphas <= (size alphas)%:R.
Proof. by move=> ha; rewrite /score_blanket; case: [seq _ <- _ | _] => [|j s]; exact: fit_score_range. Qed.
(** around the mean the residuals are least *)
Lemma rss_const (y : 'cV[R]_n) b : tss y <= rss y (const_mx b).
Proof.
have nn : n%:R != 0 :> R by rewrite pnatr_eq0 -lt0n.
have -> : rss y (const_mx b) = tss y + n%:R * (mean_of y - b) ^+ 2.
  have ex i : (y i 0 - (const_mx b : 'cV[R]_n) i 0) ^+ 2 = (y i 0 - mean_of y) ^+ 2 + (2%:R * (mean_of y - b) * (y i 0 - mean_of y) + (mean_of y - b) ^+ 2).
    by rewrite mxE; move: (y i 0) (mean_of y) => a m; clear; mcring.
  rewrite /rss (eq_bigr _ (fun i _ => ex i)) big_split /= -/(tss y) big_split /= -mulr_sumr sumr_const card_ord -[_ *+ n]mulr_natl.
  have -> : \sum_(i < n) (y i 0 - mean_of y) = 0.
    by rewrite sumrB sumr_const card_ord -[_ *+ n]mulr_natl /mean_of mulrC mulfVK // subrr.
  by rewrite mulr0 add0r.
by rewrite ler_addl mulr_ge0 ?ler0n ?sqr_ge0.
Qed.
Lemma empty_score (y : 'cV[R]_n) alphas : (forall a, a \in alphas -> 0 < a) -> tss y != 0 -> fit_score lars (0 : 'M[R]_(n, 1)) y alphas = 0.
Proof.
move=> ha t0; rewrite /fit_score big_seq big1 // => a /ha a0; rewrite /r2_score (negbTE t0).
have := rss_le 0 y a0 (q := 1); rewrite /predictions mul0mx add0r => h.
by rewrite (_ : rss _ _ = tss y) ?divff ?subrr //; apply/eqP; rewrite eq_le h rss_const.
Qed.
End S.

(** the score of a blanket lies between 0 and the number of penalties; that of the empty blanket is the least, unless the variable is constant *)
Theorem C205_range n (lars : forall q, R -> 'M[R]_(n, q) -> 'cV[R]_n -> 'cV[R]_q * R) p (X : 'M[R]_(n, p)) i mb alphas :
  lasso_ok lars -> (0 < n)%N -> (forall a, a \in alphas -> 0 < a) ->
  0 <= score_blanket lars X i mb alphas <= (size alphas)%:R /\
  ((exists k l, X k i != X l i) -> (forall j, mb j = false) -> score_blanket lars X i mb alphas = 0).
Proof.
move=> ok n0 ha; split; first exact: score_range.
move=> [k [l kl]] mb0; rewrite /score_blanket (_ : [seq j <- enum 'I_p | mb j] = [::]); last by rewrite (eq_filter mb0) filter_pred0.
apply: empty_score => //; apply/eqP => /psumr_eq0P h; move: kl.
have e r : X r i = mean_of (col i X).
  by have /eqP := h (fun r _ => sqr_ge0 _) r isT; rewrite sqrf_eq0 subr_eq0 mxE => /eqP.
by rewrite !e eqxx.
Qed.
Print Assumptions C205_range.
(** so no blanket is drawn more than exp(number of penalties) times as often as another: with k blankets each is drawn with a probability of at least
    exp(-3)/k for the three penalties that are used *)
Theorem C205_odds n (lars : forall q, R -> 'M[R]_(n, q) -> 'cV[R]_n -> 'cV[R]_q * R) p blankets (X : 'M[R]_(n, p)) alphas i j l :
  lasso_ok lars -> (0 < n)%N -> (forall a, a \in alphas -> 0 < a) ->
  let P := score_blankets lars blankets X alphas in
  [/\ P i j <= exp (size alphas)%:R * P i l, exp (- (size alphas)%:R) / (size blankets)%:R <= P i j & \sum_r P i r = 1].
Proof.
move=> ok n0 ha P; set a : R := (size alphas)%:R.
pose s r := score_blanket lars X i (fun l => tnth (in_tuple blankets) r i l) alphas.
have k0 : (0 < size blankets)%N by case: (blankets) j => [[]|].
have PE r : P i r = exp (s r) / \sum_q exp (s q).
  rewrite /P /score_blankets /normalized_scores !mxE; congr (_ / _); apply: eq_bigr => q _; by rewrite !mxE.
have sr r : 0 <= s r <= a by exact: score_range.
have ep (x : R) : 0 < exp x by apply/RltP; exact: exp_pos.
have Dp : 0 < \sum_q exp (s q).
  by rewrite (bigD1 j) //=; apply: ltr_paddr => //; apply: sumr_ge0 => q _; exact: ltW.
have mono (x y : R) : x <= y -> exp x <= exp y.
  by rewrite le_eqVlt => /orP[/eqP ->|/RltP h] //; apply/ltW/RltP; exact: exp_increasing.
have le r q : exp (s r) <= exp a * exp (s q).
  have -> : exp a * exp (s q) = exp (a + s q) by symmetry; exact: exp_plus.
  apply: mono; have /andP[_ h1] := sr r; have /andP[h2 _] := sr q; by rewrite (le_trans h1) // ler_addl.
split; last exact: scores_sum.
- by rewrite !PE mulrA ler_pmul2r ?invr_gt0.
rewrite PE ler_pdivl_mulr // mulrAC ler_pdivr_mulr ?ltr0n // mulr_sumr.
have -> : exp (s j) * (size blankets)%:R = \sum_(q < size blankets) exp (s j) by rewrite sumr_const card_ord mulr_natr.
apply: ler_sum => q _; rewrite -(ler_pmul2l (ep a)) mulrA.
have -> : exp a * exp (- a) = 1 by transitivity (exp (a - a)); [symmetry; exact: exp_plus | rewrite subrr; exact: exp_0].
by rewrite mul1r.
Qed.
Print Assumptions C205_odds.
(** a case: coefficients zero and the mean as the intercept are the lasso with large weights; two of three variables, and the three penalties that are used *)
Lemma lasso_zero n : (0 < n)%N -> lasso_ok (fun q alpha (X : 'M[R]_(n, q)) y => (0, mean_of y)).
Proof.
move=> n0 q alpha X y a0; pose e i := y i 0 - mean_of y; pose g j := \sum_i X i j * e i.
have nn : 0 < n%:R :> R by rewrite ltr0n.
exists (fun j => `|g j| / (alpha * n%:R)) => [j|wb]; first by rewrite divr_ge0 // mulr_ge0 // ltW.
rewrite /lasso_obj /= mulmx0.
have -> : \sum_j `|g j| / (alpha * n%:R) * `|(0 : 'cV[R]_q) j 0| = 0 by rewrite big1 // => j _; rewrite mxE normr0 mulr0.
rewrite mulr0 addr0.
have -> : alpha * (\sum_j `|g j| / (alpha * n%:R) * `|wb.1 j 0|) = (2%:R * n%:R)^-1 * (2%:R * \sum_j `|g j| * `|wb.1 j 0|).
  rewrite !mulr_sumr; apply: eq_bigr => j _; move: (`|g j|) (`|wb.1 j 0|) => u v; rewrite !invfM; have a1 := gt_eqF a0; have n1 := gt_eqF nn.
  rewrite mulrA mulrA [alpha * (u * _)]mulrCA [alpha * (_ * _)]mulrA divff ?a1 // mul1r [RHS](_ : _ = (2%:R^-1 * 2%:R) * (n%:R^-1 * (u * v))); last first.
    by rewrite !mulrA; congr (_ * _ * _); rewrite mulrAC.
  by rewrite mulVf ?pnatr_eq0 // mul1r mulrA [n%:R^-1 * u]mulrC.
rewrite -mulrDr ler_pmul2l ?invr_gt0 ?mulr_gt0 ?ltr0n //.
have se : \sum_i e i = 0.
  by rewrite sumrB sumr_const card_ord -[_ *+ n]mulr_natl /mean_of mulrC mulfVK ?subrr // gt_eqF.
have -> : \sum_i (y i 0 - (0 : 'cV[R]_n) i 0 - mean_of y) ^+ 2 = \sum_i e i ^+ 2 by apply: eq_bigr => i _; rewrite mxE subr0.
pose z i := (X *m wb.1) i 0 + wb.2 - mean_of y.
have -> : \sum_i (y i 0 - (X *m wb.1) i 0 - wb.2) ^+ 2 = \sum_i e i ^+ 2 - 2%:R * (\sum_i e i * z i) + \sum_i z i ^+ 2.
  rewrite mulr_sumr -sumrN -!big_split /=; apply: eq_bigr => i _; rewrite /e /z; move: (y i 0) ((X *m wb.1) i 0) (mean_of y) (wb.2) => u v m b; clear; mcring.
have -> : \sum_i e i * z i = \sum_j g j * wb.1 j 0.
  rewrite (eq_bigr (fun i => e i * (X *m wb.1) i 0 + e i * (wb.2 - mean_of y))); last by move=> i _; rewrite /z -addrA mulrDr.
  rewrite big_split /= -mulr_suml se mul0r addr0 /g (eq_bigr (fun i => \sum_j X i j * e i * wb.1 j 0)).
    by rewrite exchange_big /=; apply: eq_bigr => j _; rewrite mulr_suml.
  by move=> i _; rewrite mxE mulr_sumr; apply: eq_bigr => j _; rewrite mulrCA mulrA.
have hs : \sum_j g j * wb.1 j 0 <= \sum_j `|g j| * `|wb.1 j 0| by apply: ler_sum => j _; rewrite -normrM ler_norm.
have hz : 0 <= \sum_i z i ^+ 2 by apply: sumr_ge0 => i _; exact: sqr_ge0.
move: (\sum_i e i ^+ 2) (\sum_j g j * wb.1 j 0) (\sum_j `|g j| * `|wb.1 j 0|) (\sum_i z i ^+ 2) hs hz => A B C D h1 h2; mclra.
Qed.
Example C205_case : exists (lars : forall q, R -> 'M[R]_(2, q) -> 'cV[R]_2 -> 'cV[R]_q * R) (X : 'M[R]_(2, 3)),
  [/\ lasso_ok lars, (forall a, a \in [:: 1 / 100%:R; 1 / 2%:R; 1] -> 0 < a :> R) & exists k l, X k 0 != X l 0].
Proof.
exists (fun q alpha X y => (0, mean_of y)), (\matrix_(i, j) (i : nat)%:R); split; first exact: lasso_zero.
- by move=> a; rewrite !inE => /or3P[] /eqP ->; rewrite ?divr_gt0 ?ltr01 ?ltr0n.
by exists 0, 1; rewrite !mxE eq_sym oner_eq0.
Qed.
