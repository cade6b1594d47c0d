(** C176: the proximal operator of the l-infinity norm (regain/prox.py:81-116). *)
From Coq Require Import Reals Epsilon.
From mathcomp Require Import all_ssreflect all_algebra.
From Verif Require Import RStruct RTac LinTac S_Mat RMx P_Missing M_Linf S_Linf P_Linf.
Import Order.TTheory GRing.Theory Num.Theory.

Set Implicit Arguments.
Unset Strict Implicit.
Unset Printing Implicit Defensive.
Local Open Scope ring_scope.

(** what is assumed of scipy.optimize.minimize: it returns a minimiser if there is one *)
Definition minimize_ok n (minimize : ('cV[R]_n -> R) -> 'cV[R]_n -> 'cV[R]_n) : Prop :=
  forall f x0 x, (forall y, f x <= f y) -> forall y, f (minimize f x0) <= f y.

(** The Matlab reference of the docstring is the one minimiser of lamda max|x_i| + |a - x|^2 / 2, for all vectors and lamda >= 0. *)
Theorem C176_formula n (a : 'cV[R]_n.+1) (lamda : R) : 0 <= lamda ->
  forall y, y <> prox_infinityNorm a lamda ->
  linf_objective a lamda (prox_infinityNorm a lamda) < linf_objective a lamda y.
Proof. by move=> t0 y ne; have [_ h] := kkt_min (formula_kkt a t0); exact: h. Qed.
Print Assumptions C176_formula.
(** and what prox_linf_1d returns *)
Theorem C176_returns n minimize (a : 'cV[R]_n.+1) (lamda : R) : minimize_ok minimize -> 0 <= lamda ->
  prox_linf_1d minimize a lamda = prox_infinityNorm a lamda.
Proof.
move=> ok t0; apply: minimiser_is => //; split=> // y _; rewrite /prox_linf_1d.
by apply: (ok _ _ (prox_infinityNorm a lamda)) => z; apply: le_trans (kkt_gap z (formula_kkt a t0)); rewrite ler_addl mulr_ge0 ?fnorm2_ge0 ?divr_ge0 ?ler01 ?ler0n.
Qed.
Print Assumptions C176_returns.
(** a minus it is the closest point to a in the l1 ball of radius lamda: it is in the ball, and no other point of the ball is closer *)
Theorem C176_ball n minimize (a : 'cV[R]_n.+1) (lamda : R) : minimize_ok minimize -> 0 <= lamda ->
  let u := a - prox_linf_1d minimize a lamda in
  \sum_i `|u i 0| <= lamda /\ forall z : 'cV[R]_n.+1, \sum_i `|z i 0| <= lamda -> fnorm2 (a - u) <= fnorm2 (a - z).
Proof.
move=> ok t0 u; rewrite /u (C176_returns _ ok t0); have k := formula_kkt a t0; split; first by case: k.
by move=> z; exact: kkt_ball.
Qed.
Print Assumptions C176_ball.
(** every entry keeps its sign and does not grow; all vanish exactly when the sum of |a_i| is at most lamda *)
Theorem C176_entries n minimize (a : 'cV[R]_n.+1) (lamda : R) : minimize_ok minimize -> 0 <= lamda ->
  let x := prox_linf_1d minimize a lamda in
  (forall i, `|x i 0| <= `|a i 0| /\ 0 <= x i 0 * a i 0) /\ (x = 0 <-> \sum_i `|a i 0| <= lamda).
Proof.
move=> ok t0 x; rewrite /x (C176_returns _ ok t0); set y := prox_infinityNorm a lamda; split=> [i|].
  case: (ltP 0 (alphaopt a lamda)) => a0; last first.
    by rewrite /y /prox_infinityNorm ltNge a0 /= mxE mul0r normr0.
  have [-> _] := formula_entry i a0; rewrite le_minl lexx; split=> //.
  rewrite /y /prox_infinityNorm a0 mxE -mulrA mulr_ge0 //; first by rewrite le_minr normr_ge0 ltW.
  by rewrite -normrEsg.
have k := formula_kkt a t0; split=> [e|h].
  by case: k; rewrite -/y e subr0.
apply: esym; apply: minimiser_is => //; split=> // z _.
have k0 : linf_kkt a lamda 0.
  split; first by rewrite subr0.
  rewrite fdot0r; suff -> : linf (0 : 'cV[R]_n.+1) = 0 by rewrite mulr0.
  by apply/eqP; rewrite eq_le linf_ge0 andbT; apply: linf_le => // i; rewrite mxE normr0.
by apply: le_trans (kkt_gap z k0); rewrite ler_addl mulr_ge0 ?fnorm2_ge0 ?divr_ge0 ?ler01 ?ler0n.
Qed.
Print Assumptions C176_entries.
(** two inputs are never moved apart *)
Theorem C176_nonexpansive n minimize (a b : 'cV[R]_n.+1) (lamda : R) : minimize_ok minimize -> 0 <= lamda ->
  fnorm2 (prox_linf_1d minimize a lamda - prox_linf_1d minimize b lamda) <= fnorm2 (a - b).
Proof.
move=> ok t0; rewrite !(C176_returns _ ok t0).
have [h1 h2] := formula_kkt a t0; have [k1 k2] := formula_kkt b t0.
set x := prox_infinityNorm a lamda in h1 h2 *; set y := prox_infinityNorm b lamda in k1 k2 *.
have e1 : fdot (a - x) y <= lamda * linf y by apply: le_trans (holder _ _) _; rewrite ler_wpmul2r // linf_ge0.
have e2 : fdot (b - y) x <= lamda * linf x by apply: le_trans (holder _ _) _; rewrite ler_wpmul2r // linf_ge0.
have -> : a - b = (x - y) + ((a - x) - (b - y)).
  by apply/matrixP => i j; rewrite !mxE; move: (a i j) (b i j) (x i j) (y i j) => p q r s; mclra.
rewrite (fnorm2D (x - y)) -addrA ler_addl addr_ge0 ?fnorm2_ge0 // mulr_ge0 ?ler0n //.
rewrite fdotC fdotBl !fdotBr h2 k2.
by move: (fdot (a - x) y) (fdot (b - y) x) (lamda * linf x) (lamda * linf y) e1 e2 => p q r s e1 e2; mclra.
Qed.
Print Assumptions C176_nonexpansive.
(** Refuted for lamda < 0: there are two minimisers, so the result depends on the solver. *)
Theorem C176_negative_refuted : exists (a x y : 'cV[R]_1) (lamda : R), x <> y /\
  (forall z, linf_objective a lamda x <= linf_objective a lamda z) /\ forall z, linf_objective a lamda y <= linf_objective a lamda z.
Proof.
have e (z : 'cV[R]_1) : linf_objective 0 (-1) z = - `|z 0 0| + 1 / 2%:R * `|z 0 0| ^+ 2.
  rewrite /linf_objective sub0r fnorm2N /fnorm2 !big_ord1 /linf big_ord_recl big_ord0 /= max_l // mulN1r.
  by rewrite real_normK ?num_real.
have low (r : R) : - 1 + 1 / 2%:R * 1 ^+ 2 <= - r + 1 / 2%:R * r ^+ 2.
  rewrite -subr_ge0; have -> : - r + 1 / 2%:R * r ^+ 2 - (- 1 + 1 / 2%:R * 1 ^+ 2) = 1 / 2%:R * (r - 1) ^+ 2.
    by rewrite !expr2; mcfield.
  by rewrite mulr_ge0 ?sqr_ge0 ?divr_ge0 ?ler01 ?ler0n.
exists 0, (const_mx 1), (const_mx (-1)), (-1); split.
  by move/matrixP => /(_ 0 0); rewrite !mxE => h; mclra.
by split=> z; rewrite !e mxE ?normrN normr1; exact: low.
Qed.
Print Assumptions C176_negative_refuted.
Example C176_case : (exists minimize : ('cV[R]_2 -> R) -> 'cV[R]_2 -> 'cV[R]_2, minimize_ok minimize) /\
  prox_infinityNorm (\col_(i < 2) (if i == 0 then 3%:R else 1)) 1 = \col_i (if i == 0 then 2%:R else 1).
Proof.
split.
  exists (fun f x0 => epsilon (inhabits x0) (fun x => forall y, f x <= f y)) => f x0 x h.
  by apply: (epsilon_spec (inhabits x0) (fun x => forall y, f x <= f y)); exists x.
apply: esym; apply: minimiser_is; first exact: ler01.
set w := \col_i _; set x := \col_i _.
have k : linf_kkt w 1 x.
  have l2 : linf x = 2%:R.
    apply/eqP; rewrite eq_le; apply/andP; split.
      apply: linf_le => [|i]; first exact: ler0n.
      by rewrite mxE; case: ifP => _; rewrite ?normr1 ?normr_nat ?ler1n ?lexx.
    by apply: le_trans (linf_ge x 0); rewrite mxE eqxx normr_nat.
  split; first by rewrite /l1v !big_ord_recl big_ord0 !mxE /= subrr normr0 !addr0 ger0_norm; mclra.
  by rewrite fdot_cv l2 !big_ord_recl big_ord0 !mxE /=; mclra.
split=> // z _; by apply: le_trans (kkt_gap z k); rewrite ler_addl mulr_ge0 ?fnorm2_ge0 ?divr_ge0 ?ler01 ?ler0n.
Qed.
