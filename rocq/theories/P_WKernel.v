(** Entrywise exponentials of positive semidefinite matrices, for C187. *)
From Coq Require Import Reals Lra.
From mathcomp Require Import all_ssreflect all_algebra.
From Verif Require Import RStruct RTac LinTac Spectral S_Mat RMx M_Utils P_Utils2 M_WKernel.
Import Order.TTheory GRing.Theory Num.Theory.

Set Implicit Arguments.
Unset Strict Implicit.
Unset Printing Implicit Defensive.
Local Open Scope ring_scope.

(** * entrywise products and exponentials of positive semidefinite matrices *)
Definition hada n (A B : 'M[R]_n) : 'M[R]_n := \matrix_(i, j) (A i j * B i j).
Lemma quadE' n (A : 'M[R]_n) v : quad A v = \sum_i \sum_j v i 0 * v j 0 * A i j.
Proof. by rewrite quadE; apply: eq_bigr => i _; apply: eq_bigr => j _; rewrite -mulrA mulrC. Qed.
Lemma hada_psd n (A B : 'M[R]_n) : psd A -> psd B -> psd (hada A B).
Proof.
move=> hA [sB qB]; have [sA _] := hA; have [L [[sL _] e]] := psd_sqrt hA; split.
  apply/matrixP=> i j; rewrite !mxE.
  by move/matrixP: sA => /(_ i j); rewrite mxE => ->; move/matrixP: sB => /(_ i j); rewrite mxE => ->.
move=> v; pose w k : 'cV[R]_n := \col_i (L i k * v i 0).
have -> : quad (hada A B) v = \sum_k quad B (w k).
  rewrite quadE'; transitivity (\sum_i \sum_j \sum_k v i 0 * v j 0 * (L i k * L j k * B i j)).
    apply: eq_bigr => i _; apply: eq_bigr => j _; rewrite -mulr_sumr -mulr_suml [hada A B i j]mxE; congr (_ * (_ * _)); rewrite -e mxE.
    apply: eq_bigr => k _; by move/matrixP: sL => /(_ k j); rewrite mxE => ->.
  apply/esym; transitivity (\sum_k \sum_i \sum_j v i 0 * v j 0 * (L i k * L j k * B i j)).
    apply: eq_bigr => k _; rewrite quadE'; apply: eq_bigr => i _; apply: eq_bigr => j _; rewrite !mxE.
    by move: (L i k) (L j k) (B i j) (v i 0) (v j 0) => a b c x y; mcring.
  rewrite exchange_big /=; apply: eq_bigr => i _; by rewrite exchange_big.
by apply: sumr_ge0 => k _; exact: qB.
Qed.

Lemma const_psd n : psd (const_mx 1 : 'M[R]_n).
Proof.
split; first by apply/matrixP=> i j; rewrite !mxE.
move=> v; rewrite quadE'; have -> : \sum_i \sum_j v i 0 * v j 0 * (const_mx 1 : 'M[R]_n) i j = (\sum_i v i 0) ^+ 2.
  rewrite expr2 mulr_suml; apply: eq_bigr => i _; rewrite mulr_sumr; apply: eq_bigr => j _; by rewrite mxE mulr1.
exact: sqr_ge0.
Qed.

Lemma pow_psd n (A : 'M[R]_n) k : psd A -> psd (\matrix_(i, j) (A i j ^+ k)).
Proof.
move=> hA; elim: k => [|k ih]; first by have := const_psd n; congr psd; apply/matrixP=> i j; rewrite !mxE expr0.
by have := hada_psd hA ih; congr psd; apply/matrixP=> i j; rewrite !mxE exprS.
Qed.

Definition exp_part (x : R) N : R := sum_f_R0 (fun k => Rmult (Rinv (INR (fact k))) (pow x k)) N.
Lemma exp_part_cv x : Un_cv (exp_part x) (exp x).
Proof. by rewrite /exp; case: (exist_exp x) => l h e he; have [N hN] := h e he; exists N. Qed.
Lemma powE (x : R) k : pow x k = x ^+ k. Proof. by elim: k => [//|k ih]; rewrite exprS -ih. Qed.

Lemma sum_cv n (u : 'I_n -> nat -> R) l : (forall i, Un_cv (u i) (l i)) -> Un_cv (fun N => \sum_i u i N) (\sum_i l i).
Proof.
elim: n u l => [|n ih] u l h.
  move=> e he; exists 0%N => k _; rewrite !big_ord0 /R_dist Rminus_diag_eq // Rabs_R0; exact: he.
have := CV_plus _ _ _ _ (h ord0) (ih (fun i => u (lift ord0 i)) _ (fun i => h (lift ord0 i))).
rewrite -big_ord_recl => cv e he; have [N hN] := cv e he; exists N => k hk; rewrite [in X in R_dist X]big_ord_recl; exact: hN.
Qed.

Section ExpMx.
Variables (n : nat) (A : 'M[R]_n).
Hypothesis hA : psd A.
Definition exp_sum N : 'M[R]_n := \matrix_(i, j) exp_part (A i j) N.
Lemma exp_sumS N : exp_sum N.+1 = exp_sum N + Rinv (INR (fact N.+1)) *: (\matrix_(i, j) (A i j ^+ N.+1)).
Proof. by apply/matrixP=> i j; rewrite !mxE /exp_part tech5 powE. Qed.
Lemma exp_sum0 : exp_sum 0 = const_mx 1.
Proof. by apply/matrixP=> i j; rewrite !mxE /exp_part /= Rinv_1 Rmult_1_l. Qed.
Lemma ifact_gt0 N : 0 < Rinv (INR (fact N)).
Proof. by apply/RltP/Rinv_0_lt_compat/INR_fact_lt_0. Qed.
Lemma exp_sum_psd N : psd (exp_sum N).
Proof.
elim: N => [|N ih]; first by rewrite exp_sum0; exact: const_psd.
by rewrite exp_sumS; apply: psdD ih (psdZ (ltW (ifact_gt0 _)) (pow_psd N.+1 hA)).
Qed.
Lemma exp_sum_cv v : Un_cv (fun N => quad (exp_sum N) v) (quad (\matrix_(i, j) exp (A i j)) v).
Proof.
rewrite quadE'; have cv : Un_cv (fun N => \sum_i \sum_j v i 0 * v j 0 * exp_sum N i j)
    (\sum_i \sum_j v i 0 * v j 0 * (\matrix_(i, j) exp (A i j) : 'M[R]_n) i j).
  apply: (@sum_cv n (fun i N => \sum_j v i 0 * v j 0 * exp_sum N i j)) => i.
  apply: (@sum_cv n (fun j N => v i 0 * v j 0 * exp_sum N i j)) => j; rewrite mxE.
  have := CV_mult (fun=> v i 0 * v j 0) _ _ _ _ (exp_part_cv (A i j)) => h.
  have c : Un_cv (fun=> v i 0 * v j 0) (v i 0 * v j 0) by move=> e he; exists 0%N => k _; rewrite /R_dist Rminus_diag_eq // Rabs_R0; exact: he.
  move: (h _ c) => cv e he; have [N hN] := cv e he; exists N => k hk; rewrite mxE; exact: hN.
by move=> e he; have [N hN] := cv e he; exists N => k hk; rewrite quadE'; exact: hN.
Qed.
Lemma exp_sum_le v N : quad (exp_sum N) v <= quad (\matrix_(i, j) exp (A i j)) v.
Proof.
apply/RleP; apply: (growing_ineq (fun N => quad (exp_sum N) v)); last exact: exp_sum_cv.
move=> k; rewrite exp_sumS; apply/RleP; rewrite quadD quadZ ler_addl; apply: mulr_ge0; first exact: ltW (ifact_gt0 _).
by case: (pow_psd k.+1 hA).
Qed.
Lemma exp_psd : psd (\matrix_(i, j) exp (A i j)).
Proof.
have [sA _] := hA; split.
  by apply/matrixP=> i j; rewrite !mxE; move/matrixP: sA => /(_ i j); rewrite mxE => ->.
by move=> v; apply: le_trans (exp_sum_le v 0); case: (exp_sum_psd 0).
Qed.
(** every power of the series is below the whole *)
Lemma exp_term_le v k : Rinv (INR (fact k)) * quad (\matrix_(i, j) (A i j ^+ k)) v <= quad (\matrix_(i, j) exp (A i j)) v.
Proof.
apply: le_trans (exp_sum_le v k); case: k => [|k].
  rewrite exp_sum0 /= Rinv_1 mul1r; have -> : \matrix_(i, j) (A i j ^+ 0) = const_mx 1 by apply/matrixP=> i j; rewrite !mxE expr0.
  by rewrite lexx.
by rewrite exp_sumS quadD quadZ ler_addr; case: (exp_sum_psd k).
Qed.
End ExpMx.

(** a diagonal congruence *)
Lemma dcong_psd n (A : 'M[R]_n) (d : 'I_n -> R) : psd A -> psd (\matrix_(i, j) (d i * d j * A i j)).
Proof.
move=> [sA qA]; split.
  by apply/matrixP=> i j; rewrite !mxE; move/matrixP: sA => /(_ i j); rewrite mxE => ->; rewrite [d j * _]mulrC.
move=> v; have := qA (\col_i (d i * v i 0)); rewrite !quadE'; congr (_ <= _); apply: eq_bigr => i _; apply: eq_bigr => j _; rewrite !mxE.
by move: (d i) (d j) (v i 0) (v j 0) (A i j) => a b x y c; mcring.
Qed.
Lemma gram_psd n d (X : 'M[R]_(n, d)) (c : R) : 0 <= c -> psd (c *: (X *m X^T)).
Proof.
move=> c0; apply: psdZ => //; split; first by rewrite /sym trmx_mul trmxK.
move=> v; have -> : quad (X *m X^T) v = fnorm2 (X^T *m v) by rewrite fnorm2E fdotE /mxtrace big_ord1 trmx_mul trmxK /quad !mulmxA.
exact: fnorm2_ge0.
Qed.

Lemma wexpD (x y : R) : exp (x + y) = exp x * exp y. Proof. exact: exp_plus. Qed.
Lemma rbf_entry n d (X : 'M[R]_(n, d)) (g : R) : sk_rbf_kernel X X g =
  \matrix_(i, j) (exp (- (g * fnorm2 (row i X))) * exp (- (g * fnorm2 (row j X))) *
                  (\matrix_(i, j) exp (((2%:R * g) *: (X *m X^T)) i j) : 'M[R]_n) i j).
Proof.
apply/matrixP=> i j; rewrite !mxE -!wexpD; congr exp.
rewrite fnorm2B; have -> : fdot (row i X) (row j X) = (X *m X^T) i j.
  by rewrite /fdot big_ord1 mxE; apply: eq_bigr => k _; rewrite !mxE.
rewrite mxE; set a := fnorm2 _; set b := fnorm2 _; set c := \sum_j0 _; clearbody a b c; toR; ring.
Qed.


(** for distinct times t the matrix exp(c t_i t_j), c > 0, is positive definite *)
Lemma exp_gram_pd n (t : 'cV[R]_n) (c : R) : 0 < c -> (forall i j, i != j -> t i 0 <> t j 0) ->
  pd (\matrix_(i, j) exp ((c *: (t *m t^T)) i j)).
Proof.
move=> c0 dt; have h := gram_psd t (ltW c0); have [se qe] := exp_psd h; split => // v v0.
rewrite lt_neqAle qe andbT; apply/negP=> /eqP z.
have mom k : \sum_i v i 0 * t i 0 ^+ k = 0.
  have := exp_term_le h v k; rewrite -z quadE'.
  have -> : \sum_i \sum_j v i 0 * v j 0 * (\matrix_(i, j) ((c *: (t *m t^T)) i j ^+ k) : 'M[R]_n) i j = c ^+ k * (\sum_i v i 0 * t i 0 ^+ k) ^+ 2.
    rewrite expr2 mulr_suml mulr_sumr; apply: eq_bigr => i _; rewrite mulr_sumr mulr_sumr; apply: eq_bigr => j _.
    rewrite !mxE big_ord1 mxE !exprMn.
    by move: (c ^+ k) (t i 0 ^+ k) (t j 0 ^+ k) (v i 0) (v j 0) => a b d x y; mcring.
  rewrite pmulr_rle0 ?ifact_gt0 // pmulr_rle0 ?exprn_gt0 // => h2.
  by apply/eqP; rewrite -sqrf_eq0 eq_le h2 sqr_ge0.
have pol (p : {poly R}) : \sum_i v i 0 * p.[t i 0] = 0.
  under eq_bigr do rewrite horner_coef mulr_sumr.
  rewrite exchange_big big1 //= => k _; have := mom k => m; under eq_bigr do rewrite mulrCA.
  by rewrite -mulr_sumr m mulr0.
case/negP: v0; apply/eqP/matrixP=> i k; rewrite ord1 mxE {k}.
have := pol (\prod_(j | j != i) ('X - (t j 0)%:P)); rewrite (bigD1 i) //= [X in _ + X]big1 ?addr0.
  move/eqP; rewrite mulf_eq0 => /orP [/eqP // |]; rewrite horner_prod; case/prodf_eq0 => j ji.
  by rewrite hornerXsubC subr_eq0 => /eqP e; case: (dt i j); rewrite // eq_sym.
move=> j ji; rewrite horner_prod (bigD1 j) //= hornerXsubC subrr mul0r mulr0 //.
Qed.
Lemma dcong_pd n (A : 'M[R]_n) (d : 'I_n -> R) : (forall i, d i <> 0) -> pd A -> pd (\matrix_(i, j) (d i * d j * A i j)).
Proof.
move=> d0 hA; have [sA qA] := hA; have [sd _] := dcong_psd d (pd_psd hA); split => // v v0.
have w0 : \col_i (d i * v i 0) != 0.
  apply: contra v0 => /eqP e; apply/eqP/matrixP=> i k; rewrite ord1 mxE {k}.
  by move/matrixP: e => /(_ i 0); rewrite !mxE => /eqP; rewrite mulf_eq0 => /orP [/eqP /d0 // | /eqP].
have := qA _ w0; rewrite !quadE'; congr (_ < _); apply: eq_bigr => i _; apply: eq_bigr => j _; rewrite !mxE.
by move: (d i) (d j) (v i 0) (v j 0) (A i j) => a b x y c; mcring.
Qed.
Lemma sin2_half (x : R) : sin x ^+ 2 = (1 - cos (2%:R * x)) / 2%:R.
Proof.
have h : cos (2%:R * x) = 1 - 2%:R * (sin x * sin x).
  by have -> : 2%:R * x = (2 * x)%R; [toR; ring | rewrite cos_2a_sin; toR; ring].
rewrite h; move: (sin x) => y; mcfield.
Qed.
Lemma periodic_entry n (t : 'cV[R]_n) (l : R) i j : periodic_kernel t t l i j =
  exp (- (2%:R * (sin (PI * (t i 0 - t j 0)) / l) ^+ 2)).
Proof.
rewrite mxE; congr exp; congr (- (_ * _)); rewrite !exprMn; congr (_ * _); rewrite divr1.
have -> : fnorm (row i t - row j t) = `|t i 0 - t j 0|.
  by rewrite /fnorm /fnorm2 !big_ord1 !mxE; move: (t i 0 - t j 0) => a; rewrite expr2; exact: sqrt_Rsqr_abs.
move: (t i 0 - t j 0) => a; case: (ger0P a) => // _.
have sN (x : R) : sin (- x) = - sin x by exact: sin_neg.
by rewrite mulrN sN sqrrN.
Qed.
