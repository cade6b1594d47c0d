(** Generators of precision matrices: a run whose second observed precision is not positive definite. *)
From Coq Require Import Reals String.
From mathcomp Require Import all_ssreflect all_algebra.
From Verif Require Import RStruct RTac NP Str S_Mat RMx Spectral S_Utils M_Utils P_Utils2 M_Ising P_Ising7 M_Gauss P_Gauss P_Gauss2 P_Gauss3 P_Gauss4.
Import Order.TTheory GRing.Theory Num.Theory.

Set Implicit Arguments.
Unset Strict Implicit.
Unset Printing Implicit Defensive.
Local Open Scope ring_scope.

Lemma gram_rank q h (A : 'M[R]_(h, q)) (c : R) : c != 0 ->
  let K := row_mx A c%:M in \rank (K^T *m K) = h.
Proof.
move=> c0 K.
have rK : \rank K = h.
  apply/eqP; change (row_free K); apply/row_freeP; exists (col_mx 0 (c^-1)%:M).
  by rewrite mul_row_col mulmx0 add0r -scalar_mxM mulfV.
apply/eqP; rewrite eqn_leq; apply/andP; split; first exact: leq_trans (mxrankM_maxr _ _) (eq_leq rK).
apply: leq_trans (eq_leq (esym rK)) _; rewrite -(eqmx_scale K c0) {2}/K tr_row_mx tr_scalar_mx mul_col_mx mul_scalar_mx.
by apply: mxrankS; rewrite -addsmxE; exact: addsmxSr.
Qed.
Definition the_choice p (i : 'I_p) (l : seq 'I_p) (n : nat) : seq 'I_p := nseq n (head i l).
Lemma the_choice_ok p : choice_ok (@the_choice p).
Proof.
move=> i [|a l] n // _; rewrite /the_choice size_nseq; split=> // j /=.
by rewrite mem_nseq => /andP [_ /eqP ->]; rewrite inE eqxx.
Qed.
Lemma plain0 p choice : choice_ok choice -> start_plain 0 choice = 1%:M :> 'M[R]_p.
Proof.
move=> cho; have [_ d t _] := plain_ok 0 cho; apply/matrixP => i j; rewrite [RHS]mxE.
case: (eqVneq i j) => [->|ij]; first by rewrite d.
by case: (t i j ij) => ->; rewrite // invr0 mulr0.
Qed.

Section Witness.
Variables (chol : chol_t) (eigh : eigh_t).
Hypothesis cok : chols_ok chol.
Hypothesis eok : eighs_ok eigh.
Let h := 50%N.
Let p := (2 + h)%N.
Definition wK0 : 'M[R]_(50, 2 + 50) := row_mx 0 (2%:R)%:M.
Definition wadd : 'M[R]_(50, 2 + 50) := row_mx (const_mx 1) 0.
Definition wK1 : 'M[R]_(50, 2 + 50) := row_mx (const_mx (2%:R^-1)) 1%:M.
Definition wL0 := wK0^T *m wK0.
Definition wL1 := wK1^T *m wK1.
Definition wtheta0 : 'M[R]_(2 + 50) := 1%:M + diag_mx (\row_i (c001 + wL0 i i)).
Definition wtheta1 : 'M[R]_(2 + 50) := wtheta0 + diag_mx (\row_i (10%:R + wL1 i i)).
Definition wdraws : cov_draws (2 + 50) 50 :=
  CovDraws (fun=> [:: (inord 0, inord 1)]) (fun=> false) 0 wadd [::] (fun=> false) (ord0, ord0).
Lemma wK0_sum i : \sum_j wK0 i j = 2%:R.
Proof.
rewrite big_split_ord /= big1 ?add0r; last by move=> j _; rewrite row_mxEl mxE.
rewrite (bigD1 i) //= row_mxEr mxE eqxx mulr1n big1 ?addr0 // => j ji.
by rewrite row_mxEr mxE eq_sym (negbTE ji) mulr0n.
Qed.
Lemma well : make_ell eigh wK0 = IOk (wL0, wK0).
Proof.
rewrite /make_ell; have KE : \matrix_(i, j) (wK0 i j / (\sum_k wK0 i k / 2%:R)) = wK0.
  by apply/matrixP => i j; rewrite mxE -mulr_suml wK0_sum mulfV ?divr1 // pnatr_eq0.
rewrite KE -/wL0 psd_semidef //=; last exact: gram_psd.
rewrite /wL0 /wK0 gram_rank ?pnatr_eq0 // eqxx; case: ifP => // /existsP [i].
by rewrite wK0_sum pnatr_eq0.
Qed.
Lemma wL0E : wL0 = block_mx 0 0 0 (4%:R)%:M.
Proof.
rewrite /wL0 /wK0 tr_row_mx trmx0 mul_col_row !mul0mx mulmx0 tr_scalar_mx -scalar_mxM; congr (block_mx _ _ _ _%:M); mclra.
Qed.
Lemma wstart : make_starting chol eigh 0 false c001 wK0 (@the_choice _) = IOk (wtheta0, wL0, wK0).
Proof.
rewrite /make_starting well plain0; last exact: the_choice_ok.
have -> : repair_rowsum chol (1%:M : 'M[R]_(2 + 50)) c001 = 1%:M by rewrite /repair_rowsum cholE //; exact: pd1.
have s1 : sym (1%:M - wL0) by apply: symB; [exact: sym1 | exact: gram_sym].
have -> : repair_ell chol 1%:M wL0 c001 = wtheta0.
  rewrite /repair_ell cholN // => /(@pd_diag_gt0 _ _ (rshift 2 ord0)).
  rewrite [X in 0 < X]mxE [(1%:M : 'M[R]_(2 + 50)) _ _]mxE eqxx mulr1n.
  by rewrite [(- _ : 'M[R]_(2 + 50)) _ _]mxE wL0E block_mxEdr mxE eqxx mulr1n; move=> q; exfalso; mclra.
have -> : wtheta0 - wL0 = (1 + c001)%:M.
  have dz i j : i != j -> wL0 i j = 0.
    move=> ij; rewrite wL0E.
    case: (split_ordP i) ij => i' ->; case: (split_ordP j) => j' -> ij; rewrite ?block_mxEul ?block_mxEur ?block_mxEdl ?block_mxEdr ?mxE //.
    by move: ij; rewrite (inj_eq (@rshift_inj _ _)) => /negbTE ->; rewrite mulr0n.
  rewrite /wtheta0; move: (wL0) (c001) dz => L c dz; apply/matrixP => i j; rewrite !mxE; case: (eqVneq i j) => [->|ij].
    by rewrite !mulr1n; move: (L j j) => b; mcring.
  by rewrite !mulr0n dz // oppr0 !addr0.
have -> : is_pos_def (@chol (2 + 50)%N) ((1 + c001)%:M : 'M[R]_(2 + 50)).
  by apply: cholE => //; rewrite -scalemx1; apply: pdZ; [apply: addr_gt0; rewrite ?ltr01 ?c001_gt0 | exact: pd1].
by [].
Qed.
Lemma wtheta0_pd : pd wtheta0.
Proof.
apply: pdD_psd; first exact: pd1.
by apply: psd_diag => i; rewrite mxE; apply: addr_ge0; [exact: ltW c001_gt0 | apply: psd_diag_ge0; exact: gram_psd].
Qed.
Lemma wupd : update_theta_l1 chol wtheta0 1 (cd_pairs wdraws) (cd_pick wdraws) 1 c001 = Some wtheta0.
Proof.
have n01 : (inord 0 == inord 1 :> 'I_(2 + 50)) = false by rewrite -val_eqE /= !inordK.
rewrite /update_theta_l1 /= n01 /=; congr Some; rewrite /theta_l1_changes /=.
have z : wtheta0 (inord 0) (inord 1) = 0 by rewrite !mxE n01 !mulr0n addr0.
have z' : wtheta0 (inord 1) (inord 0) = 0 by rewrite !mxE eq_sym n01 !mulr0n addr0.
have -> : set_sym wtheta0 (inord 0) (inord 1) (if wtheta0 (inord 0) (inord 1) == 0 then 0 else c006) = wtheta0.
  rewrite z eqxx; apply/matrixP => i j; rewrite set_symE; case: ifP => // /orP [] /andP [/eqP -> /eqP ->].
    by rewrite z.
  by rewrite z'.
by rewrite /repair_rowsum cholE //; exact: wtheta0_pd.
Qed.
Lemma wadd_norm : sqrt (\sum_i \sum_j wadd i j ^+ 2) = 10%:R.
Proof.
rewrite (eq_bigr (fun=> 2%:R)); last first.
  move=> i _; rewrite big_split_ord /= [X in _ + X]big1 ?addr0; last by move=> j _; rewrite row_mxEr mxE expr0n.
  by rewrite (eq_bigr (fun=> 1)) ?sumr_const ?card_ord // => j _; rewrite row_mxEl mxE expr1n.
rewrite sumr_const card_ord; have -> : (2%:R : R) *+ 50 = 10%:R * 10%:R by rewrite -[LHS](mulr_natl _ 50); mclra.
by apply: sqrt_square; apply/RleP; rewrite ler0n.
Qed.
Lemma wK1E : update_ell_l2 wK0 wadd 10%:R = wK1.
Proof.
rewrite /update_ell_l2 wadd_norm mulfV ?pnatr_eq0 // scale1r.
have -> : wK0 + wadd = row_mx (const_mx 1 : 'M[R]_(50, 2)) (2%:R)%:M by rewrite add_row_mx add0r addr0.
have sm i : \sum_k row_mx (const_mx 1 : 'M[R]_(50, 2)) (2%:R)%:M i k = (4%:R : R) :> R.
  rewrite big_split_ord /= (eq_bigr (fun=> 1)); last by move=> j _; rewrite row_mxEl mxE.
  rewrite sumr_const card_ord (bigD1 i) //= row_mxEr mxE eqxx mulr1n big1 ?addr0; last first.
    by move=> j ji; rewrite row_mxEr mxE eq_sym (negbTE ji) mulr0n.
  mclra.
have -> : \matrix_(i, j) (row_mx (const_mx 1 : 'M[R]_(50, 2)) (2%:R)%:M i j / (\sum_k row_mx (const_mx 1 : 'M[R]_(50, 2)) (2%:R)%:M i k / 2%:R)) = wK1.
  apply/matrixP => i j; rewrite mxE -mulr_suml sm /wK1; case: (split_ordP j) => j' ->.
    by rewrite !row_mxEl !mxE; mclra.
  by rewrite !row_mxEr !mxE; case: eqP => _; rewrite ?mulr1n ?mulr0n ?mul0r //; mclra.
apply/matrixP => i j; rewrite mxE; case: ifP => // lt; move: lt; rewrite /wK1; case: (split_ordP j) => j' ->.
  rewrite !row_mxEl !mxE ger0_norm ?invr_ge0 ?ler0n // => q; exfalso; mclra.
rewrite !row_mxEr !mxE; case: eqP => _; rewrite ?mulr1n ?mulr0n ?normr1 //.
by move=> q; exfalso; mclra.
Qed.
Lemma wL1_quad : quad wL1 (col_mx (const_mx 1) 0) = 50%:R.
Proof.
rewrite /quad /wL1 mulmxA -mulmxA -trmx_mul mxE (eq_bigr (fun=> 1)) ?sumr_const ?card_ord //.
move=> i _; rewrite mxE -expr2 mul_row_col mulmx0 addr0 mxE (eq_bigr (fun=> 2%:R^-1)); last by move=> j _; rewrite !mxE mulr1.
by rewrite sumr_const card_ord -[_ *+ _ in LHS](mulr_natl _ 2) mulfV ?expr1n // pnatr_eq0.
Qed.
Lemma wL1_diag (i : 'I_2) : wL1 (lshift 50 i) (lshift 50 i) = 50%:R / 4%:R.
Proof.
rewrite mxE (eq_bigr (fun=> 4%:R^-1)); first by rewrite sumr_const card_ord -[LHS](mulr_natl _ 50).
by move=> k _; rewrite mxE row_mxEl !mxE; mclra.
Qed.
Lemma wquad1 : quad (wtheta1 - wL1) (col_mx (const_mx 1) 0) < 0.
Proof.
rewrite /wtheta1 /wtheta0 quadD (_ : quad (- wL1) _ = - quad wL1 (col_mx (const_mx 1) 0)); last first.
  by rewrite /quad mulmxN mulNmx mxE.
rewrite wL1_quad -!diag_const_mx -!linearD /= quad_diag big_split_ord /= [X in _ + X - _]big1 ?addr0; last first.
  by move=> i _; rewrite col_mxEd [(0 : 'M_(_, _)) _ _]mxE expr0n mulr0.
rewrite (eq_bigr (fun=> 1 + c001 + (10%:R + 50%:R / 4%:R))); last first.
  have gen (A B : 'M[R]_(2 + 50)) (k : 'I_(2 + 50)) :
      (const_mx 1 + \row_i (c001 + A i i) + \row_i (10%:R + B i i)) 0 k = 1 + (c001 + A k k) + (10%:R + B k k) by rewrite !mxE.
  move=> i _; rewrite gen wL1_diag wL0E block_mxEul col_mxEu [(const_mx 1 : 'cV[R]_2) _ _]mxE expr1n mulr1.
  by rewrite [(0 : 'M[R]_2) _ _]mxE addr0.
rewrite sumr_const card_ord mulr2n /c001; mclra.
Qed.
Lemma wtheta1E : repair_ell chol wtheta0 wL1 10%:R = wtheta1.
Proof.
rewrite /repair_ell cholN //.
  by apply: symB; [exact: pd_sym wtheta0_pd | exact: gram_sym].
move=> d; have := wquad1.
have -> : wtheta1 - wL1 = (wtheta0 - wL1) + diag_mx (\row_i (10%:R + wL1 i i)) by rewrite /wtheta1 addrAC.
suff [_ q] : psd ((wtheta0 - wL1) + diag_mx (\row_i (10%:R + wL1 i i))) by rewrite ltNge q.
apply: psdD; first exact: pd_psd.
by apply: psd_diag => i; rewrite mxE; apply: addr_ge0; rewrite ?ler0n //; apply: psd_diag_ge0; exact: gram_psd.
Qed.
Lemma wrun : make_covariance chol eigh 2 "l2" "l1" false 0 1 10%:R wK0 (@the_choice _) (fun=> wdraws) 1 =
  Some (IOk [:: (wtheta0, wL0, wK0); (wtheta1, wL1, wK1)]).
Proof.
rewrite /make_covariance wstart /= wupd /= wK1E -/wL1.
rewrite {1}/wL1 {1 2}/wK1 gram_rank ?oner_eq0 // eqxx /= psd_semidef //; last exact: gram_psd.
by rewrite /= wtheta1E.
Qed.
Lemma wrun_bad : ~ pd (wtheta1 - wL1).
Proof.
move=> [_ q]; have := wquad1; rewrite ltNge ltW // q //.
by apply/eqP => /matrixP /(_ (lshift 50 ord0) 0); rewrite col_mxEu !mxE => /eqP; rewrite oner_eq0.
Qed.
End Witness.
