(** Property theorem C142: the densities of stats.py. *)
From Coq Require Import Reals Lra FunctionalExtensionality.
From mathcomp Require Import all_ssreflect all_algebra.
From Verif Require Import RStruct RTac NP M_Sampling Gauss1.
Import Order.TTheory GRing.Theory Num.Theory.

Set Implicit Arguments.
Unset Strict Implicit.
Unset Printing Implicit Defensive.
Local Open Scope ring_scope.

(** the normal density with the given mean and variance *)
Definition normal_density (mean variance x : R) : R := exp (- ((x - mean) ^+ 2 / (2%:R * variance))) / sqrt (2%:R * PI * variance).

Lemma two_pi : 0 < 2%:R * PI :> R.
Proof. by apply: mulr_gt0; [rewrite ltr0n | apply/RltP; exact: PI_RGT_0]. Qed.

(** lognormal_pdf is the density of exp Z for Z normal with mean mu and standard deviation sigma: for Phi a distribution function of the
    standard normal law, x |-> Phi ((ln x - mu) / sigma) has it as derivative; it is positive, and lognormal_logpdf is its logarithm. *)
Theorem C142_lognormal : forall (Phi : R -> R) (mu sigma x : R), (forall z, derivable_pt_lim Phi z (normal_density 0 1 z)) -> 0 < sigma -> 0 < x ->
  [/\ derivable_pt_lim (fun x => Phi ((ln x - mu) / sigma)) x (lognormal_pdf x mu sigma), 0 < lognormal_pdf x mu sigma &
      lognormal_logpdf x mu sigma = - (((ln x - mu) / sigma) ^+ 2 / 2%:R) - ln x - ln sigma - ln (sqrt (2%:R * PI))].
Proof.
move=> Phi mu sigma x hPhi s0 x0; set z := (ln x - mu) / sigma.
have s2 : (0 : R) < sqrt (2%:R * PI) by apply/RltP; apply: sqrt_lt_R0; apply/RltP; exact: two_pi.
have num (a b c : R) : 0 < a -> 0 < b -> 0 < c -> (c / b) * (1 / a) = c / (a * b) by move=> /RltP a0 /RltP b0 /RltP c0; toR; field; split; lra.
have pdfE : lognormal_pdf x mu sigma = normal_density 0 1 z * ((Rinv x - 0) * sigma^-1).
  rewrite /lognormal_pdf /normal_density -/z subr0 !mulr1.
  have -> : - (1 / 2%:R) * z ^+ 2 = - (z ^+ 2 / 2%:R) by rewrite div1r mulNr mulrC.
  move/RltP: x0 => x0; move/RltP: s0 => s0; move/RltP: s2 => s2; toR; field; repeat split; lra.
split.
- rewrite pdfE.
  have d1 : derivable_pt_lim (fun x => (ln x - mu) / sigma) x ((Rinv x - 0) * sigma^-1).
    have -> : (fun x => (ln x - mu) / sigma) = mult_real_fct (sigma^-1) (minus_fct ln (fct_cte mu)).
      by apply: functional_extensionality => y; rewrite mulrC.
    rewrite mulrC; apply: derivable_pt_lim_scal; apply: derivable_pt_lim_minus; last exact: derivable_pt_lim_const.
    by apply: derivable_pt_lim_ln; apply/RltP.
  exact: (derivable_pt_lim_comp (fun x => (ln x - mu) / sigma) Phi x _ _ d1 (hPhi _)).
- by rewrite /lognormal_pdf divr_gt0 ?mulr_gt0 //; apply/RltP; exact: exp_pos.
rewrite /lognormal_logpdf /lognormal_pdf -/z.
have lnM (a b : R) : 0 < a -> 0 < b -> ln (a * b) = ln a + ln b by move=> /RltP a0 /RltP b0; exact: ln_mult.
have lnV (a : R) : 0 < a -> ln (a^-1) = - ln a.
  move=> a0; rewrite RinvE'.
  by apply: ln_Rinv; apply/RltP.
have e0 : 0 < exp (- (1 / 2%:R) * z ^+ 2) by apply/RltP; exact: exp_pos.
rewrite lnM ?invr_gt0 ?mulr_gt0 // lnV ?mulr_gt0 // !lnM ?mulr_gt0 // ln_exp.
move: (ln _ : R) (ln _ : R) (ln _ : R) => a b c; move: (z ^+ 2) => y; toR; field.
Qed.
Print Assumptions C142_lognormal.

(** log_lik_frob is the log-likelihood of independent normal entries, with means D and the given variance *)
Theorem C142_frobenius : forall m n (S D : 'M[R]_(m, n)) (variance : R), 0 < variance ->
  log_lik_frob S D variance = \sum_i \sum_j ln (normal_density (D i j) variance (S i j)).
Proof.
move=> m n S D v v0; have w0 : 0 < 2%:R * PI * v :> R by rewrite mulr_gt0 // two_pi.
have s0 : (0 : R) < sqrt (2%:R * PI * v) by apply/RltP; apply: sqrt_lt_R0; apply/RltP.
have lnS : ln (2%:R * PI * v) = 2%:R * ln (sqrt (2%:R * PI * v)).
  rewrite -{1}(sqrt_sqrt (2%:R * PI * v)); last by apply/RleP/ltW.
  rewrite ln_mult; try exact/RltP; by move: (ln _) => a; mcring.
have one i j : ln (normal_density (D i j) v (S i j)) = - (1 / 2%:R) * (ln (2%:R * PI * v) + (S - D) i j ^+ 2 / v).
  rewrite /normal_density; have := ln_mult (exp (- ((S i j - D i j) ^+ 2 / (2%:R * v)))) (Rinv (sqrt (2%:R * PI * v))) (exp_pos _).
  move=> h; have -> : exp (- ((S i j - D i j) ^+ 2 / (2%:R * v))) / sqrt (2%:R * PI * v) = Rmult (exp (- ((S i j - D i j) ^+ 2 / (2%:R * v)))) (Rinv (sqrt (2%:R * PI * v))).
    by rewrite -RinvE'.
  rewrite h; last by apply: Rinv_0_lt_compat; apply/RltP.
  rewrite ln_exp ln_Rinv; last by apply/RltP.
  rewrite lnS !mxE; move: (ln _ : R) ((S i j - D i j) ^+ 2) => a b; move/RltP: v0 => v0; toR; field; lra.
under eq_bigr do under eq_bigr do rewrite one.
under eq_bigr do rewrite -mulr_sumr big_split /= sumr_const card_ord -mulr_suml.
rewrite -mulr_sumr big_split /= sumr_const card_ord -mulrnA -mulr_suml /log_lik_frob mulnC; congr (_ * (_ + _)).
by rewrite mulr_natl.
Qed.
Print Assumptions C142_frobenius.
Example C142_case : exists Phi : R -> R, forall z, derivable_pt_lim Phi z (normal_density 0 1 z).
Proof.
have [Phi h] := normal_primitive; exists Phi => z; have -> : normal_density 0 1 z = Rdiv (exp (Ropp (Rdiv (Rmult z z) 2))) (sqrt (Rmult 2 PI)).
  rewrite /normal_density subr0 !mulr1; have -> : (2%:R : R) = IZR 2 by toR; lra.
  by rewrite expr2 /Rdiv -!RinvE'.
exact: h.
Qed.
