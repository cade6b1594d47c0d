(** Proofs about the forward-backward model: the problem, its gradient, the proximal step. *)
From Coq Require Import Reals Lra Psatz String.
From mathcomp Require Import all_ssreflect all_algebra.
From Verif Require Import RStruct RTac LinTac Spectral S_Mat RMx ADMM NP Str M_Prox S_Prox P_Eigh.
From Verif Require Import P_Prox P_Prox2 P_Prox3 M_Loop P_Loop M_GL S_GL P_GL M_LGL P_LGL.
From Verif Require Import M_TGL S_TGL P_TGL P_TGL2 M_FB S_FB.
Import Order.TTheory GRing.Theory Num.Theory.

Set Implicit Arguments.
Unset Strict Implicit.
Unset Printing Implicit Defensive.
Local Open Scope ring_scope.

Definition sip n T : innerp [lmodType R of stack n T] := ffun_ip [finType of 'I_T] (mat_ip n n).
Lemma sipE n T (X Y : stack n T) : sip n T X Y = \sum_t fdot (X t) (Y t). Proof. by []. Qed.
Lemma scalarE n T (X Y : stack n T) : scalar_product X Y = sip n T X Y. Proof. by []. Qed.
Lemma sqnormE' n T (X : stack n T) : stack_sqnorm X = sip n T X X.
Proof. by []. Qed.
Lemma stack_normE n T (X : stack n T) : stack_norm X = nrm (sip n T) X.
Proof. by []. Qed.
(** * the penalty, entry by entry *)
Lemma seriesD T n (X Y : stack n T) i j : series (X + Y) i j = series X i j + series Y i j.
Proof. by apply/rowP => t; rewrite !mxE stD mxE. Qed.
Lemma seriesB T n (X Y : stack n T) i j : series (X - Y) i j = series X i j - series Y i j.
Proof. by apply/rowP => t; rewrite !mxE stB !mxE. Qed.
Lemma sip_series T n (X Y : stack n T) :
  sip n T X Y = \sum_i \sum_j fdot (series X i j) (series Y i j).
Proof.
rewrite sipE exchange_big /=; apply: eq_bigr => i _; rewrite exchange_big /=; apply: eq_bigr => j _.
by rewrite /fdot big_ord1; apply: eq_bigr => t _; rewrite !mxE.
Qed.
Lemma l1od_series T n (K : stack n T) :
  \sum_t l1od (K t) = \sum_i \sum_(j | j != i) l1 (series K i j).
Proof.
rewrite /l1od exchange_big /=; apply: eq_bigr => i _; rewrite exchange_big /=; apply: eq_bigr => j _.
by rewrite /l1 big_ord1; apply: eq_bigr => t _; rewrite mxE.
Qed.
Lemma tvar_pairs m (x : 'rV[R]_m.+1) : tvar x = \sum_(s < m) `|x 0 (lift ord0 s) - x 0 (lift ord_max s)|.
Proof. by rewrite /tvar (sum_pairs (fun t s => `|x 0 t - x 0 s|)). Qed.
Lemma vnorm_series n m (K : stack n m.+1) :
  vector_p_norm (@l1 1 m) (but_first K - but_last K) = \sum_i \sum_j tvar (series K i j).
Proof.
apply: eq_bigr => i _; apply: eq_bigr => j _; rewrite /l1 big_ord1 tvar_pairs.
by apply: eq_bigr => t _; rewrite !mxE stB !ffunE !mxE.
Qed.
Lemma vnorm_l1 n m (K : stack n m.+1) :
  vector_p_norm (@l1 1 m) (but_first K - but_last K) =
  \sum_(s < m.+1) \sum_(t < m.+1 | t == s.+1 :> nat) l1 (K t - K s).
Proof.
rewrite (sum_pairs (fun t s => l1 (K t - K s))) /vector_p_norm /l1 exchange_big /=.
rewrite (eq_bigr (fun i => \sum_j \sum_(t < m) `|K (lift ord0 t) j i - K (lift ord_max t) j i|)); last first.
  move=> i _; apply: eq_bigr => j _; rewrite big_ord1; apply: eq_bigr => t _.
  by rewrite !mxE stB !ffunE !mxE.
rewrite exchange_big /= (eq_bigr (fun i => \sum_(t < m) \sum_j `|K (lift ord0 t) i j - K (lift ord_max t) i j|)); last first.
  by move=> i _; rewrite exchange_big.
rewrite exchange_big /=; apply: eq_bigr => t _; apply: eq_bigr => i _; apply: eq_bigr => j _.
by rewrite !mxE.
Qed.

(** * the proximal step: subgradient inequality *)
Section Prox.
Variables (n m : nat) (tv : 'rV[R]_m.+1 -> R -> 'rV[R]_m.+1).
Hypothesis Htv : tv_ok tv.

Lemma fl_sub (a y z : 'rV[R]_m.+1) (lam beta : R) : 0 <= lam -> 0 <= beta ->
  minimiser (@everywhere _) (fun y => lam * l1 y + beta * tvar y + fnorm2 (y - a) / 2%:R) y ->
  lam * l1 y + beta * tvar y + fdot (a - y) (z - y) <= lam * l1 z + beta * tvar z.
Proof.
move=> l0 b0 hm.
apply: (@prox_variational _ (mat_ip 1 m.+1) (@everywhere _)
          (fun y => lam * l1 y + beta * tvar y) a y) => //.
move=> u v t _ _ t0 t1; split=> //.
have [_ h] := @tvar_convex m.+1 beta b0 u v t I I t0 t1.
have h2 : lam * l1 (u + t *: (v - u)) <= (1 - t) * (lam * l1 u) + t * (lam * l1 v).
  have -> : u + t *: (v - u) = (1 - t) *: u + t *: v by lin.
  rewrite !(mulrCA _ lam) -mulrDr; apply: ler_wpmul2l => //.
  rewrite /l1 !mulr_sumr -big_split /=; apply: ler_sum => i _.
  rewrite !mulr_sumr -big_split /=; apply: ler_sum => j _; rewrite !mxE.
  apply: le_trans (ler_norm_add _ _) _; rewrite !normrM (ger0_norm (ltW t0)) ger0_norm ?subr_ge0 //.
move: h h2; move: (l1 _) (l1 _) (l1 _) (tvar _) (tvar _) (tvar _) => *; mclra.
Qed.

Definition greal (lap : bool) (alpha beta : R) (K : stack n m.+1) : R :=
  alpha * (\sum_t l1od (K t)) +
  (if lap then 0 else beta * vector_p_norm (@l1 1 m) (but_first K - but_last K)).
Lemma fb_prox_sub (lap : bool) (alpha beta gamma : R) (a y Z : stack n m.+1) :
  0 <= alpha -> 0 <= beta -> 0 < gamma -> y = fb_prox tv lap beta alpha gamma a ->
  gamma * greal lap alpha beta y + sip n m.+1 (a - y) (Z - y) <= gamma * greal lap alpha beta Z.
Proof.
move=> a0 b0 g0 ey0; rewrite /greal; case: lap ey0 => ey0.
- rewrite !addr0 !mulrA !(mulrC gamma) sipE !mulr_sumr -big_split /=; apply: ler_sum => t _.
  rewrite !stB ey0 /fb_prox !ffunE.
  by apply: sod_subgrad; rewrite mulr_ge0 // ltW.
- rewrite !l1od_series !vnorm_series sip_series !mulrDr !mulrA !(mulrC gamma).
  have split_sum (K : stack n m.+1) :
    alpha * gamma * (\sum_i \sum_(j | j != i) l1 (series K i j)) +
    beta * gamma * (\sum_i \sum_j tvar (series K i j)) =
    \sum_i \sum_j ((if j != i then alpha * gamma else 0) * l1 (series K i j) + beta * gamma * tvar (series K i j)).
    rewrite !mulr_sumr -big_split /=; apply: eq_bigr => i _; rewrite !mulr_sumr big_mkcond -big_split /=.
    by apply: eq_bigr => j _; case: ifP; rewrite ?mul0r.
  rewrite !split_sum -big_split /=; apply: ler_sum => i _.
  rewrite -big_split /=; apply: ler_sum => j _; rewrite !seriesB.
  have ag : 0 <= alpha * gamma by rewrite mulr_ge0 // ltW.
  have bg : 0 <= beta * gamma by rewrite mulr_ge0 // ltW.
  have ey : series y i j = series (prox_FL tv a (beta * gamma) (alpha * gamma) true true) i j.
    by apply/rowP => t; rewrite !mxE ey0 /fb_prox ffunE !mxE.
  apply: fl_sub => //; first by case: ifP.
  case: eqP => [ji|/eqP ji] /=.
    rewrite ji in ey *; rewrite ey.
    have [_ h] := @FL_diag _ n tv Htv a (beta * gamma) (alpha * gamma) true true bg (fun h => ltac:(by [])) i.
    split=> // z _; rewrite !mul0r !add0r; set w := series _ i i.
    by case: (eqVneq z w) => [->|/eqP zw] //; apply: ltW; apply: h.
  rewrite ey; rewrite eq_sym in ji.
  have [_ h] := @FL_off _ n tv Htv a (beta * gamma) (alpha * gamma) true true bg ag (fun h => ltac:(by [])) i j ji.
  split=> // z _; set w := series _ i j.
  by case: (eqVneq z w) => [->|/eqP zw] //; apply: ltW; apply: h.
Qed.
End Prox.
