(** Matrix lemmas: positive definite matrices, log det inequality. Mathematics only. *)
From Coq Require Import Reals Lra.
From mathcomp Require Import all_ssreflect all_algebra.
From Verif Require Import RStruct RTac Spectral S_Mat.
Import Order.TTheory GRing.Theory Num.Theory.

Set Implicit Arguments.
Unset Strict Implicit.
Unset Printing Implicit Defensive.
Local Open Scope ring_scope.

(** * Frobenius inner product *)
Section Fdot.
Variables m n : nat.
Implicit Types A B C : 'M[R]_(m, n).

Lemma fdotE A B : fdot A B = \tr (A^T *m B).
Proof.
rewrite /fdot exchange_big /mxtrace; apply: eq_bigr => j _.
by rewrite mxE; apply: eq_bigr => i _; rewrite mxE.
Qed.
Lemma fdotC A B : fdot A B = fdot B A.
Proof. by apply: eq_bigr => i _; apply: eq_bigr => j _; rewrite mulrC. Qed.
Lemma fdotDl A B C : fdot (A + B) C = fdot A C + fdot B C.
Proof.
rewrite /fdot -big_split; apply: eq_bigr => i _; rewrite -big_split.
by apply: eq_bigr => j _; rewrite mxE mulrDl.
Qed.
Lemma fdotZl a A B : fdot (a *: A) B = a * fdot A B.
Proof.
rewrite /fdot mulr_sumr; apply: eq_bigr => i _; rewrite mulr_sumr.
by apply: eq_bigr => j _; rewrite mxE mulrA.
Qed.
Lemma fdotDr A B C : fdot C (A + B) = fdot C A + fdot C B.
Proof. by rewrite fdotC fdotDl !(fdotC C). Qed.
Lemma fdotZr a A B : fdot B (a *: A) = a * fdot B A.
Proof. by rewrite fdotC fdotZl (fdotC B). Qed.
Lemma fdotNl A B : fdot (- A) B = - fdot A B.
Proof. by rewrite -scaleN1r fdotZl mulN1r. Qed.
Lemma fdotNr A B : fdot A (- B) = - fdot A B.
Proof. by rewrite fdotC fdotNl fdotC. Qed.
Lemma fdotBl A B C : fdot (A - B) C = fdot A C - fdot B C.
Proof. by rewrite fdotDl fdotNl. Qed.
Lemma fdotBr A B C : fdot C (A - B) = fdot C A - fdot C B.
Proof. by rewrite fdotDr fdotNr. Qed.
Lemma fdot0l A : fdot 0 A = 0.
Proof. by rewrite -(scale0r 0) fdotZl mul0r. Qed.
Lemma fdot0r A : fdot A 0 = 0.
Proof. by rewrite fdotC fdot0l. Qed.
Lemma fnorm2E A : fnorm2 A = fdot A A.
Proof. by apply: eq_bigr => i _; apply: eq_bigr => j _; rewrite expr2. Qed.
Lemma fnorm2_ge0 A : 0 <= fnorm2 A.
Proof. by apply: sumr_ge0 => i _; apply: sumr_ge0 => j _; apply: sqr_ge0. Qed.
Lemma fdotAA_ge0 A : 0 <= fdot A A.
Proof. by rewrite -fnorm2E fnorm2_ge0. Qed.
Lemma fnorm2_eq0 A : fnorm2 A = 0 -> A = 0.
Proof.
move=> h; apply/matrixP => i j; rewrite mxE.
have h1 : \sum_j A i j ^+ 2 = 0.
  have : forall i, true -> \sum_j A i j ^+ 2 = 0.
    apply/psumr_eq0P => // k _; apply: sumr_ge0 => l _; exact: sqr_ge0.
  by apply.
have h2 : forall j, true -> A i j ^+ 2 = 0.
  apply/psumr_eq0P => // k _; exact: sqr_ge0.
by have /eqP := h2 j isT; rewrite sqrf_eq0 => /eqP.
Qed.
Lemma fdotAA_eq0 A : fdot A A = 0 -> A = 0.
Proof. by rewrite -fnorm2E; apply: fnorm2_eq0. Qed.
Lemma fnorm2_gt0 A : A <> 0 -> 0 < fnorm2 A.
Proof.
move=> h; rewrite lt_def fnorm2_ge0 andbT; apply/eqP => h0; apply: h.
exact: fnorm2_eq0.
Qed.
Lemma fnorm2_0 : fnorm2 (0 : 'M[R]_(m, n)) = 0.
Proof. by rewrite fnorm2E fdot0l. Qed.
Lemma fnorm2N A : fnorm2 (- A) = fnorm2 A.
Proof. by rewrite !fnorm2E fdotNl fdotNr opprK. Qed.
Lemma fnorm2Z a A : fnorm2 (a *: A) = a ^+ 2 * fnorm2 A.
Proof. by rewrite !fnorm2E fdotZl fdotZr mulrA expr2. Qed.
Lemma fnorm2D A B : fnorm2 (A + B) = fnorm2 A + 2%:R * fdot A B + fnorm2 B.
Proof.
rewrite !fnorm2E fdotDl !fdotDr (fdotC B A).
by move: (fdot A A) (fdot A B) (fdot B B) => x y z; mcring.
Qed.
Lemma fnorm2B A B : fnorm2 (A - B) = fnorm2 A - 2%:R * fdot A B + fnorm2 B.
Proof. by rewrite fnorm2D fdotNr fnorm2N mulrN. Qed.
Lemma fnorm_ge0 A : 0 <= fnorm A.
Proof. by apply/RleP; apply: sqrt_pos. Qed.
Lemma fnorm_sqr A : fnorm A ^+ 2 = fnorm2 A.
Proof. by rewrite RsqrE sqrt_sqrt //; apply/RleP/fnorm2_ge0. Qed.
Lemma fdot_eq0 A : (forall B, fdot A B = 0) -> A = 0.
Proof. by move=> h; apply: fdotAA_eq0; apply: h. Qed.
Lemma fdot_sumr I (r : seq I) (P : pred I) (F : I -> 'M[R]_(m, n)) A :
  fdot A (\sum_(i <- r | P i) F i) = \sum_(i <- r | P i) fdot A (F i).
Proof.
elim/big_rec2: _ => [|i x y _ <-]; first exact: fdot0r.
by rewrite fdotDr.
Qed.
End Fdot.

Lemma fdot_tr m n (A B : 'M[R]_(m, n)) : fdot A^T B^T = fdot A B.
Proof.
rewrite /fdot exchange_big; apply: eq_bigr => i _; apply: eq_bigr => j _.
by rewrite !mxE.
Qed.
Lemma fnorm2_tr m n (A : 'M[R]_(m, n)) : fnorm2 A^T = fnorm2 A.
Proof. by rewrite !fnorm2E fdot_tr. Qed.

Lemma fdot_mulr m n p (A : 'M[R]_(m, n)) (B : 'M[R]_(m, p)) (C : 'M[R]_(p, n)) :
  fdot A (B *m C) = fdot (B^T *m A) C.
Proof. by rewrite !fdotE trmx_mul trmxK mulmxA. Qed.
Lemma fdot_mull m n p (A : 'M[R]_(m, n)) (B : 'M[R]_(m, p)) (C : 'M[R]_(p, n)) :
  fdot A (B *m C) = fdot (A *m C^T) B.
Proof.
rewrite -fdot_tr trmx_mul fdot_mulr trmxK -(trmxK (C *m A^T)) fdot_tr.
by rewrite trmx_mul trmxK.
Qed.

(** * Quadratic forms, definiteness *)
Section Quad.
Variable n : nat.
Implicit Types (A B Q : 'M[R]_n) (d e : 'rV[R]_n).

Lemma quadD A B v : quad (A + B) v = quad A v + quad B v.
Proof. by rewrite /quad mulmxDr mulmxDl mxE. Qed.
Lemma quadZ a A v : quad (a *: A) v = a * quad A v.
Proof. by rewrite /quad -scalemxAr -scalemxAl mxE. Qed.
Lemma quad_cong A (B : 'M[R]_n) v : quad (B^T *m A *m B) v = quad A (B *m v).
Proof. by rewrite /quad trmx_mul !mulmxA. Qed.
Lemma quad1_ge0 (v : 'cV[R]_n) : 0 <= quad 1%:M v.
Proof. by rewrite /quad mulmx1 -{2}[v]trmxK rownorm_ge0. Qed.
Lemma quad1_gt0 (v : 'cV[R]_n) : v != 0 -> 0 < quad 1%:M v.
Proof.
move=> h; rewrite /quad mulmx1 -{2}[v]trmxK rownorm_gt0 //.
by rewrite -(inj_eq (@trmx_inj _ _ _)) trmxK trmx0.
Qed.
Lemma quad_diag (d : 'rV[R]_n) v : quad (diag_mx d) v = \sum_i d 0 i * v i 0 ^+ 2.
Proof.
rewrite /quad -mulmxA mxE; apply: eq_bigr => i _.
rewrite mul_diag_mx !mxE mulrCA expr2; congr (_ * _).
Qed.

Lemma sumr_gt0_ex (I : finType) (F : I -> R) i0 :
  (forall i, 0 <= F i) -> 0 < F i0 -> 0 < \sum_i F i.
Proof.
move=> h h0; rewrite (bigD1 i0) //=; apply: ltr_paddr => //.
by apply: sumr_ge0.
Qed.

Lemma sym0 : sym (0 : 'M[R]_n). Proof. exact: trmx0. Qed.
Lemma sym1 : sym (1%:M : 'M[R]_n). Proof. exact: trmx1. Qed.
Lemma symD A B : sym A -> sym B -> sym (A + B).
Proof. by rewrite /sym linearD /= => -> ->. Qed.
Lemma symN A : sym A -> sym (- A).
Proof. by rewrite /sym linearN /= => ->. Qed.
Lemma symB A B : sym A -> sym B -> sym (A - B).
Proof. by move=> ha hb; apply: symD => //; apply: symN. Qed.
Lemma symZ a A : sym A -> sym (a *: A).
Proof. by rewrite /sym linearZ /= => ->. Qed.
Lemma sym_conj A (B : 'M[R]_n) : sym A -> sym (B *m A *m B^T).
Proof. by rewrite /sym => h; rewrite !trmx_mul trmxK h mulmxA. Qed.
Lemma sym_diag (d : 'rV[R]_n) : sym (diag_mx d). Proof. exact: tr_diag_mx. Qed.
Lemma sym_inv A : sym A -> sym (invmx A).
Proof. by rewrite /sym trmx_inv => ->. Qed.
Lemma sym_halfsum A : sym (2%:R^-1 *: (A + A^T)).
Proof. by rewrite /sym linearZ linearD /= trmxK addrC. Qed.

Lemma psd_sym A : psd A -> sym A. Proof. by case. Qed.
Lemma pd_sym A : pd A -> sym A. Proof. by case. Qed.
Lemma quad0v A : quad A 0 = 0. Proof. by rewrite /quad mulmx0 mxE. Qed.
Lemma pd_psd A : pd A -> psd A.
Proof.
case=> s h; split=> // v; have [->|v0] := eqVneq v 0; first by rewrite quad0v.
by apply/ltW/h.
Qed.
Lemma pd1 : pd (1%:M : 'M[R]_n).
Proof. by split; [exact: sym1 | exact: quad1_gt0]. Qed.
Lemma psd0 : psd (0 : 'M[R]_n).
Proof. by split; [exact: sym0 | move=> v; rewrite /quad mulmx0 mul0mx mxE]. Qed.
Lemma pdD_psd A B : pd A -> psd B -> pd (A + B).
Proof.
move=> [sa ha] [sb hb]; split; first exact: symD.
by move=> v v0; rewrite quadD; apply: ltr_paddr; [exact: hb|exact: ha].
Qed.
Lemma psdD A B : psd A -> psd B -> psd (A + B).
Proof.
move=> [sa ha] [sb hb]; split; first exact: symD.
by move=> v; rewrite quadD; apply: addr_ge0.
Qed.
Lemma psdZ a A : 0 <= a -> psd A -> psd (a *: A).
Proof.
move=> a0 [sa ha]; split; first exact: symZ.
by move=> v; rewrite quadZ; apply: mulr_ge0.
Qed.
Lemma pdZ a A : 0 < a -> pd A -> pd (a *: A).
Proof.
move=> a0 [sa ha]; split; first exact: symZ.
by move=> v v0; rewrite quadZ; apply: mulr_gt0 => //; apply: ha.
Qed.
Lemma psd_conj A (B : 'M[R]_n) : psd A -> psd (B *m A *m B^T).
Proof.
move=> [sa ha]; split; first exact: sym_conj.
by move=> v; rewrite -{1}(trmxK B) quad_cong.
Qed.
Lemma pd_conj A (B : 'M[R]_n) : B \in unitmx -> pd A -> pd (B *m A *m B^T).
Proof.
move=> uB [sa ha]; split; first exact: sym_conj.
move=> v v0; rewrite -{1}(trmxK B) quad_cong; apply: ha.
apply: contra v0 => /eqP h; rewrite -(mulKmx (_ : B^T \in unitmx) v) ?unitmx_tr //.
by rewrite h mulmx0.
Qed.

Lemma orthogonal_unit (Q : 'M[R]_n) : orthogonal Q -> Q \in unitmx.
Proof. by move/mulmx1_unit => []. Qed.
Lemma orthogonal_inv (Q : 'M[R]_n) : orthogonal Q -> invmx Q = Q^T.
Proof.
move=> h; rewrite -[LHS]mulmx1 -h mulKmx //; exact: orthogonal_unit.
Qed.
Lemma orthogonal_det (Q : 'M[R]_n) : orthogonal Q -> \det Q * \det Q = 1.
Proof.
by move=> h; rewrite -{2}(det_tr Q) -det_mulmx h det1.
Qed.

Definition sconj (Q : 'M[R]_n) (d : 'rV[R]_n) := Q *m diag_mx d *m Q^T.

Lemma sconj_sym Q d : sym (sconj Q d).
Proof. by apply: sym_conj; apply: sym_diag. Qed.

Lemma quad_delta A i : quad A (delta_mx i 0) = A i i.
Proof. by rewrite /quad trmx_delta -rowE -colE !mxE. Qed.
Lemma pd_diag_gt0 A i : pd A -> 0 < A i i.
Proof.
case=> _ h; rewrite -quad_delta; apply: h; apply/eqP => /matrixP/(_ i 0).
by rewrite !mxE !eqxx => /eqP; rewrite oner_eq0.
Qed.
Lemma psd_diag_ge0 A i : psd A -> 0 <= A i i.
Proof. by case=> _ h; rewrite -quad_delta; apply: h. Qed.

Lemma pd_diag (d : 'rV[R]_n) : (forall i, 0 < d 0 i) -> pd (diag_mx d).
Proof.
move=> h; split; first exact: sym_diag.
move=> v v0; rewrite quad_diag.
have [i hi] : exists i, v i 0 != 0.
  apply/existsP; rewrite -negb_forall; apply: contra v0 => /forallP h'.
  by apply/eqP/colP => i; rewrite mxE; apply/eqP.
apply: (@sumr_gt0_ex _ _ i).
  by move=> j; apply: mulr_ge0; [apply/ltW/h | apply: sqr_ge0].
by apply: mulr_gt0 => //; rewrite lt_def sqr_ge0 sqrf_eq0 hi.
Qed.
Lemma psd_diag (d : 'rV[R]_n) : (forall i, 0 <= d 0 i) -> psd (diag_mx d).
Proof.
move=> h; split; first exact: sym_diag.
move=> v; rewrite quad_diag; apply: sumr_ge0 => i _; apply: mulr_ge0 => //.
exact: sqr_ge0.
Qed.
Lemma pd_sconj Q d : orthogonal Q -> (forall i, 0 < d 0 i) -> pd (sconj Q d).
Proof. by move=> oQ h; apply: pd_conj; [exact: orthogonal_unit | exact: pd_diag]. Qed.
Lemma psd_sconj Q d : (forall i, 0 <= d 0 i) -> psd (sconj Q d).
Proof. by move=> h; apply: psd_conj; exact: psd_diag. Qed.

Lemma sconj_undiag Q d : orthogonal Q -> Q^T *m sconj Q d *m Q = diag_mx d.
Proof.
move=> oQ; rewrite /sconj !mulmxA orthogonalT // mul1mx -mulmxA orthogonalT //.
by rewrite mulmx1.
Qed.
Lemma pd_spectrum Q d : orthogonal Q -> pd (sconj Q d) -> forall i, 0 < d 0 i.
Proof.
move=> oQ h i.
have -> : d 0 i = diag_mx d i i by rewrite mxE eqxx.
rewrite -(sconj_undiag d oQ).
have -> : Q^T *m sconj Q d *m Q = Q^T *m sconj Q d *m (Q^T)^T by rewrite trmxK.
apply: pd_diag_gt0; apply: pd_conj => //; rewrite unitmx_tr.
exact: orthogonal_unit.
Qed.
Lemma psd_spectrum Q d : orthogonal Q -> psd (sconj Q d) -> forall i, 0 <= d 0 i.
Proof.
move=> oQ h i.
have -> : d 0 i = diag_mx d i i by rewrite mxE eqxx.
rewrite -(sconj_undiag d oQ).
have -> : Q^T *m sconj Q d *m Q = Q^T *m sconj Q d *m (Q^T)^T by rewrite trmxK.
by apply: psd_diag_ge0; apply: psd_conj.
Qed.
Lemma sconj_mul Q d e : orthogonal Q ->
  sconj Q d *m sconj Q e = sconj Q (\row_i (d 0 i * e 0 i)).
Proof.
move=> oQ; rewrite /sconj !mulmxA -(mulmxA (Q *m diag_mx d)) orthogonalT // mulmx1.
rewrite -(mulmxA Q); congr (_ *m _ *m _); apply/matrixP => i j.
rewrite mul_diag_mx !mxE; case: eqVneq => [->|] //; by rewrite ?mulr1n ?mulr0n ?mulr0.
Qed.
Lemma sconj1 Q : orthogonal Q -> sconj Q (const_mx 1) = 1%:M.
Proof. by move=> oQ; rewrite /sconj diag_const_mx mulmx1. Qed.
Lemma sconjD Q d e : sconj Q (d + e) = sconj Q d + sconj Q e.
Proof. by rewrite /sconj linearD /= mulmxDr mulmxDl. Qed.
Lemma sconjZ Q a d : sconj Q (a *: d) = a *: sconj Q d.
Proof. by rewrite /sconj linearZ /= -scalemxAr -scalemxAl. Qed.
Lemma sconj_det Q d : orthogonal Q -> \det (sconj Q d) = \prod_i d 0 i.
Proof.
move=> oQ; rewrite /sconj !det_mulmx det_tr mulrAC orthogonal_det // mul1r.
by rewrite det_diag.
Qed.
Lemma sconj_tr Q d : orthogonal Q -> \tr (sconj Q d) = \sum_i d 0 i.
Proof.
move=> oQ; rewrite /sconj mxtrace_mulC mulmxA orthogonalT // mul1mx.
by rewrite mxtrace_diag.
Qed.

Lemma pd_det_gt0 A : pd A -> 0 < \det A.
Proof.
move=> h; have [Q [d [oQ eA]]] := spectral (pd_sym h).
rewrite eA -/(sconj Q d) sconj_det //; apply: prodr_gt0 => i _.
by apply: (@pd_spectrum Q) => //; rewrite /sconj -eA.
Qed.
Lemma pd_unit A : pd A -> A \in unitmx.
Proof. by move/pd_det_gt0/lt0r_neq0; rewrite unitmxE unitfE. Qed.
Lemma pd_inv A : pd A -> pd (invmx A).
Proof.
move=> h; have uA := pd_unit h.
have -> : invmx A = invmx A *m A *m (invmx A)^T.
  by rewrite mulVmx // mul1mx trmx_inv (pd_sym h).
by apply: pd_conj => //; rewrite unitmx_inv.
Qed.

Lemma psd_sqrt A : psd A -> exists S, psd S /\ S *m S = A.
Proof.
move=> h; have [Q [d [oQ eA]]] := spectral (psd_sym h).
have dp : forall i, 0 <= d 0 i by apply: (@psd_spectrum Q) => //; rewrite /sconj -eA.
pose s : 'rV[R]_n := \row_i sqrt (d 0 i).
exists (sconj Q s); split.
  by apply: psd_sconj => i; rewrite mxE; apply/RleP; apply: sqrt_pos.
rewrite sconj_mul // eA -/(sconj Q d); congr (sconj _ _); apply/rowP => i.
by rewrite !mxE RmulE sqrt_sqrt //; apply/RleP.
Qed.
Lemma pd_sqrt A : pd A -> exists S, pd S /\ S *m S = A.
Proof.
move=> h; have [Q [d [oQ eA]]] := spectral (pd_sym h).
have dp : forall i, 0 < d 0 i by apply: (@pd_spectrum Q) => //; rewrite /sconj -eA.
pose s : 'rV[R]_n := \row_i sqrt (d 0 i).
exists (sconj Q s); split.
  apply: pd_sconj => // i; rewrite mxE; apply/RltP; apply: sqrt_lt_R0.
  exact/RltP.
rewrite sconj_mul // eA -/(sconj Q d); congr (sconj _ _); apply/rowP => i.
by rewrite !mxE RmulE sqrt_sqrt //; apply/RleP/ltW.
Qed.

Lemma psd_fdot_ge0 A B : psd A -> psd B -> 0 <= fdot A B.
Proof.
move=> ha hb; have [S [hS <-]] := psd_sqrt ha.
rewrite fdotE trmx_mul (psd_sym hS) -mulmxA mxtrace_mulC.
rewrite -{2}(psd_sym hS); apply: sumr_ge0 => i _.
by apply: psd_diag_ge0; apply: psd_conj.
Qed.

Lemma ln_prod (I : Type) (r : seq I) (F : I -> R) : (forall i, 0 < F i) ->
  ln (\prod_(i <- r) F i) = \sum_(i <- r) ln (F i).
Proof.
move=> h; elim: r => [|i r IH]; first by rewrite !big_nil ln_1.
rewrite !big_cons RmulE ln_mult ?IH //; first exact/RltP.
by apply/RltP; apply: prodr_gt0.
Qed.
End Quad.

Lemma ln_le_sub1 (x : R) : 0 < x -> ln x <= x - 1.
Proof.
move/RltP => x0; apply/RleP; have := exp_ineq1_le (ln x); rewrite exp_ln //.
toR; lra.
Qed.
Lemma ln_lt_sub1 (x : R) : 0 < x -> x != 1 -> ln x < x - 1.
Proof.
move/RltP => x0 /eqP x1; apply/RltP; have h : ln x <> 0%R.
  by move=> h; apply: x1; rewrite -(exp_ln x) // h exp_0.
have := exp_ineq1 _ h; rewrite exp_ln //.
toR; lra.
Qed.

Lemma ln_det_le n (M : 'M[R]_n) : pd M -> ln (\det M) <= \tr M - n%:R.
Proof.
move=> h; have [Q [d [oQ eM]]] := spectral (pd_sym h).
have dp : forall i, 0 < d 0 i by apply: (@pd_spectrum _ Q) => //; rewrite /sconj -eM.
rewrite eM -/(sconj Q d) sconj_det // sconj_tr // ln_prod //.
have -> : (n%:R : R) = \sum_(i < n) 1 by rewrite sumr_const card_ord.
rewrite -sumrB; apply: ler_sum => i _; exact: ln_le_sub1.
Qed.
Lemma ln_det_lt n (M : 'M[R]_n) : pd M -> M <> 1%:M -> ln (\det M) < \tr M - n%:R.
Proof.
move=> h hM; have [Q [d [oQ eM]]] := spectral (pd_sym h).
have dp : forall i, 0 < d 0 i by apply: (@pd_spectrum _ Q) => //; rewrite /sconj -eM.
have [i hi] : exists i, d 0 i != 1.
  apply/existsP; rewrite -negb_forall; apply/negP => /forallP h1; apply: hM.
  rewrite eM -(sconj1 oQ) /sconj; congr (_ *m diag_mx _ *m _).
  by apply/rowP => i; rewrite mxE; apply/eqP.
rewrite eM -/(sconj Q d) sconj_det // sconj_tr // ln_prod //.
have -> : (n%:R : R) = \sum_(i < n) 1 by rewrite sumr_const card_ord.
rewrite -sumrB (bigD1 i) //= [X in _ < X](bigD1 i) //=.
apply: ltr_le_add; first exact: ln_lt_sub1.
by apply: ler_sum => j _; exact: ln_le_sub1.
Qed.

Definition logdet n (M : 'M[R]_n) : R := ln (\det M).

Section Tangent.
Variables (n : nat) (X Y : 'M[R]_n).
Hypotheses (pX : pd X) (pY : pd Y).

Lemma tangent_reduce : exists M : 'M[R]_n, [/\ pd M,
  logdet M = logdet Y - logdet X, \tr M = \tr (invmx X *m Y) &
  (M = 1%:M -> Y = X)].
Proof.
have [S [pS eS]] := pd_sqrt pX.
have uS := pd_unit pS.
exists (invmx S *m Y *m (invmx S)^T); split.
- by apply: pd_conj => //; rewrite unitmx_inv.
- rewrite /logdet !det_mulmx det_tr det_inv.
  have hS := pd_det_gt0 pS; have hY := pd_det_gt0 pY.
  have -> : (\det S)^-1 * \det Y * (\det S)^-1 = \det Y / \det X.
    rewrite -eS det_mulmx; have := lt0r_neq0 hS => h0.
    by move: (\det S) (\det Y) h0 => s y h0; mcfield.
  have hX := pd_det_gt0 pX.
  rewrite RmulE RinvE' ln_mult ?ln_Rinv //; try exact/RltP.
  by apply: Rinv_0_lt_compat; apply/RltP.
- rewrite mxtrace_mulC mulmxA; congr (\tr (_ *m _)).
  rewrite trmx_inv (pd_sym pS) -eS.
  have E : (invmx S *m invmx S) *m (S *m S) = 1%:M.
    by rewrite mulmxA -(mulmxA (invmx S)) mulVmx // mulmx1 mulVmx.
  have uSS : S *m S \in unitmx by rewrite unitmx_mul uS.
  by rewrite -[LHS]mulmx1 -(mulmxV uSS) mulmxA E mul1mx.
- rewrite trmx_inv (pd_sym pS) => /(congr1 (fun Z => S *m Z *m S)).
  rewrite !mulmxA mulmxV // mul1mx -mulmxA mulVmx // !mulmx1 => ->.
  exact: eS.
Qed.

Lemma tr_inv_sub : \tr (invmx X *m Y) - n%:R = \tr (invmx X *m (Y - X)).
Proof.
rewrite mulmxBr linearB /= mulVmx; last exact: pd_unit.
by rewrite mxtrace1.
Qed.

Lemma logdet_tangent : logdet Y <= logdet X + \tr (invmx X *m (Y - X)).
Proof.
have [M [pM e1 e2 _]] := tangent_reduce.
have := ln_det_le pM; rewrite -/(logdet M) e1 e2 tr_inv_sub.
by rewrite ler_subl_addl.
Qed.
Lemma logdet_tangent_lt : Y <> X -> logdet Y < logdet X + \tr (invmx X *m (Y - X)).
Proof.
move=> hXY; have [M [pM e1 e2 e3]] := tangent_reduce.
have hM : M <> 1%:M by move=> /e3.
have := ln_det_lt pM hM; rewrite -/(logdet M) e1 e2 tr_inv_sub.
by rewrite ltr_subl_addl.
Qed.
End Tangent.
