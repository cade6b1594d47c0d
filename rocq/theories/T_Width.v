(** C204: the posterior from which the inverse width of the kernel is sampled. *)
From Coq Require Import Reals.
From mathcomp Require Import all_ssreflect all_algebra.
From Verif Require Import RStruct RTac S_Mat M_Utils M_Sampling M_Width RMx.
Import Order.TTheory GRing.Theory Num.Theory.

Set Implicit Arguments.
Unset Strict Implicit.
Unset Printing Implicit Defensive.
Local Open Scope ring_scope.

(** specification: the log-density of the centred normal law with covariance K, and the log posterior of the width when the rows are independent draws
    from the centred Gaussian process, as sample_gp draws them *)
Definition qf n (A : 'M[R]_n) (x : 'rV[R]_n) : R := (x *m A *m x^T) 0 0.
Definition normal_logpdf n (K : 'M[R]_n) (x : 'rV[R]_n) : R := - (1 / 2%:R) * (qf (invmx K) x + ln (\det K) + n%:R * ln (2%:R * PI)).
Definition width_posterior k n (kern : R -> 'M[R]_n) (prior_logpdf : R -> R) (ustack : 'M[R]_(k, n)) (w : R) : R :=
  \sum_i normal_logpdf (kern w) (row i ustack) + prior_logpdf w.

Lemma dev_sum k n (A : 'M[R]_n) (U : 'M[R]_(k, n)) : (0 < k)%N ->
  \sum_i qf A (row i U - stack_mean U) = \sum_i qf A (row i U) - k%:R * qf A (stack_mean U).
Proof.
move=> k0; set m := stack_mean U.
have sm : \sum_i row i U = k%:R *: m by rewrite /m /stack_mean scalerA divff ?scale1r // pnatr_eq0 -lt0n.
clearbody m; have ex i : qf A (row i U - m) = qf A (row i U) - (row i U *m A *m m^T) 0 0 - (m *m A *m (row i U)^T) 0 0 + qf A m.
  rewrite /qf linearB /= mulmxBr mulmxBl mulmxBl mulmxBl; do ![rewrite [(_ - _ : 'M_(_, _)) 0 0]mxE | rewrite [(- _ : 'M_(_, _)) 0 0]mxE].
  by move: ((row i U *m A *m (row i U)^T) 0 0) ((m *m A *m (row i U)^T) 0 0) ((row i U *m A *m m^T) 0 0) ((m *m A *m m^T) 0 0) => a b c d; clear; toR; ring.
rewrite (eq_bigr _ (fun i _ => ex i)) !big_split /= !sumrN.
have -> : \sum_i (row i U *m A *m m^T) 0 0 = k%:R * qf A m.
  by rewrite -summxE -mulmx_suml -mulmx_suml sm -!scalemxAl [LHS]mxE.
have -> : \sum_i (m *m A *m (row i U)^T) 0 0 = k%:R * qf A m.
  by rewrite -summxE -mulmx_sumr -linear_sum sm /= linearZ -scalemxAr [LHS]mxE.
rewrite sumr_const card_ord -[qf A m *+ k]mulr_natl; move: (\sum_i _) (k%:R * _) => a b; clear; toR; ring.
Qed.
(** the sampled log posterior is that of the model, except for a term in the mean of the draws *)
Theorem C204_gap k n (kern : R -> 'M[R]_n) prior_logpdf (ustack : 'M[R]_(k, n)) w : (0 < k)%N ->
  width_logp_post kern (@normal_logpdf n) prior_logpdf ustack w =
  width_posterior kern prior_logpdf ustack w + k%:R / 2%:R * qf (invmx (kern w)) (stack_mean ustack).
Proof.
move=> k0; rewrite /width_logp_post /width_posterior /mvn_logpdf /normal_logpdf -!mulr_sumr !big_split /= dev_sum //.
move: (\sum_i _) (qf _ (stack_mean _)) (\sum_i _) (\sum_i _) (prior_logpdf w) (k%:R : R) => a b c d e f; clear; mcfield.
Qed.
Print Assumptions C204_gap.
(** refuted: whatever the density, the sampled posterior does not change when the same function of time is added to all draws *)
Theorem C204_shift_refuted k n kern logpdf_dev prior_logpdf (ustack : 'M[R]_(k, n)) (c : 'rV[R]_n) w : (0 < k)%N ->
  width_logp_post kern logpdf_dev prior_logpdf (\matrix_(i, j) (ustack i j + c 0 j)) w = width_logp_post kern logpdf_dev prior_logpdf ustack w.
Proof.
move=> k0; rewrite /width_logp_post /mvn_logpdf; set U' := (\matrix_(i, j) _).
have er i : row i U' = row i ustack + c by apply/rowP => j; rewrite !mxE.
have -> : stack_mean U' = stack_mean ustack + c.
  rewrite /stack_mean (eq_bigr _ (fun i _ => er i)) big_split /= scalerDr sumr_const card_ord -scaler_nat scalerA mulVf ?scale1r //.
  by rewrite pnatr_eq0 -lt0n.
by congr (_ + _); apply: eq_bigr => i _; rewrite er opprD addrACA subrr addr0.
Qed.
Print Assumptions C204_shift_refuted.
(** with one draw the data have no influence *)
Theorem C204_single n kern logpdf_dev prior_logpdf (ustack : 'M[R]_(1, n)) w :
  width_logp_post kern logpdf_dev prior_logpdf ustack w = logpdf_dev (kern w) 0 + prior_logpdf w.
Proof. by rewrite /width_logp_post /mvn_logpdf /stack_mean !big_ord1 invr1 scale1r subrr. Qed.
Print Assumptions C204_single.
(** the posterior of the model does change: here the term is the factor by which the acceptance probabilities are wrong *)
Example C204_case : exists (kern : R -> 'M[R]_1) (ustack : 'M[R]_(2, 1)),
  [/\ forall w, 0 < w -> pd (kern w),
      width_logp_post kern (@normal_logpdf 1) (fun=> 0) ustack 1 - width_logp_post kern (@normal_logpdf 1) (fun=> 0) ustack 2%:R
        = ln 2%:R &
      width_posterior kern (fun=> 0) ustack 1 - width_posterior kern (fun=> 0) ustack 2%:R = ln 2%:R - 1 / 2%:R].
Proof.
pose kern := fun w : R => (w%:M : 'M[R]_1); exists kern, (const_mx 1).
have q1 (w x : R) : w != 0 -> qf (invmx (kern w)) (const_mx x : 'rV[R]_1) = x * x / w.
  move=> w0; rewrite /qf /kern invmx_scalar mxE big_ord1 mxE big_ord1 !mxE eqxx mulr1n; by rewrite mulrAC.
have n1 (w x : R) : w != 0 -> normal_logpdf (kern w) (const_mx x : 'rV[R]_1) = - (1 / 2%:R) * (x * x / w + ln w + ln (2%:R * PI)).
  by move=> w0; rewrite /normal_logpdf q1 // /kern det_scalar expr1 [1%:R * _]mul1r.
have m1 : stack_mean (const_mx 1 : 'M[R]_(2, 1)) = const_mx 1.
  by rewrite /stack_mean big_ord_recl big_ord1; apply/matrixP => i j; rewrite !mxE -[1 + 1]/(2%:R) mulVf // pnatr_eq0.
have z2 : 2%:R != 0 :> R by rewrite pnatr_eq0.
have tr w : w != 0 -> width_posterior kern (fun=> 0) (const_mx 1 : 'M[R]_(2, 1)) w = - (1 / w) - ln w - ln (2%:R * PI).
  move=> w0; rewrite /width_posterior addr0 big_ord_recl big_ord1 !row_const !n1 //; move: (ln w) (ln (2%:R * PI)) => a b.
  by move/eqP: w0 => w0; mcfield.
have z1 : 1 != 0 :> R by rewrite oner_eq0.
split.
- by move=> w w0; rewrite /kern -scalemx1; apply: pdZ => //; exact: pd1.
- rewrite !C204_gap // !tr // m1 !q1 // ln_1; move: (ln 2%:R) (ln (2%:R * PI)) => a b; clear; mcfield.
- rewrite !tr // ln_1; move: (ln 2%:R) (ln (2%:R * PI)) => a b; clear; mcfield.
Qed.
