(** Proofs about the Wishart distributions. *)
From Coq Require Import Reals Lra.
From mathcomp Require Import all_ssreflect all_fingroup all_algebra.
From Verif Require Import RStruct RTac LinTac S_Mat RMx NP M_Utils M_GL S_Fit P_Prox P_Fit P_GL P_LGL M_Wishart.
Import Order.TTheory GRing.Theory Num.Theory.

Set Implicit Arguments.
Unset Strict Implicit.
Unset Printing Implicit Defensive.
Local Open Scope ring_scope.

Section NIW.
Variables (D : nat).
Implicit Types (d : niw D).
Lemma n0 n : (0 < n)%N -> (n%:R : R) != 0. Proof. by case: n => // n _; rewrite pnatr_eq0. Qed.

(** what the posterior parameters are, without the mean *)
Definition colsum n (X : 'M[R]_(n, D)) : 'rV[R]_D := const_mx 1 *m X.
Lemma mean_sum n (X : 'M[R]_(n, D)) : (0 < n)%N -> n%:R *: (\row_j ((\sum_i X i j) / n%:R) : 'rV[R]_D) = colsum X.
Proof.
move=> hn; apply/rowP => j; rewrite !mxE mulrC divfK ?n0 //.
by apply: eq_bigr => i _; rewrite mxE mul1r.
Qed.
Lemma posterior_mu n d (X : 'M[R]_(n, D)) : (0 < n)%N ->
  niw_mu (niw_posterior d X) = (niw_kappa d + n%:R)^-1 *: (niw_kappa d *: niw_mu d + colsum X).
Proof. by move=> hn; rewrite /= mean_sum. Qed.

Lemma gram_sum n (X : 'M[R]_(n, D)) : X^T *m X = \sum_i ((row i X)^T *m row i X).
Proof.
apply/matrixP => a b; rewrite summxE mxE; apply: eq_bigr => i _.
by rewrite !mxE big_ord1 !mxE.
Qed.
Lemma colsum_row n (X : 'M[R]_(n, D)) : colsum X = \sum_i row i X.
Proof. by apply/rowP => j; rewrite summxE !mxE; apply: eq_bigr => i _; rewrite !mxE mul1r. Qed.

Definition outer (x : 'rV[R]_D) : 'M[R]_D := x^T *m x.
Lemma outerB x y : outer (x - y) = outer x - x^T *m y - y^T *m x + outer y.
Proof. by rewrite /outer [(x - y)^T]linearB /= mulmxBl !mulmxBr; lin. Qed.

(** completing the square *)
Lemma complete_square n d (X : 'M[R]_(n, D)) mu : (0 < n)%N -> 0 < niw_kappa d ->
  w_S (niw_iw (niw_posterior d X)) + niw_kappa (niw_posterior d X) *: outer (mu - niw_mu (niw_posterior d X))
  = w_S (niw_iw d) + niw_kappa d *: outer (mu - niw_mu d) + \sum_i outer (row i X - mu).
Proof.
move=> hn k0.
set m := niw_mu (niw_posterior d X).
have em : (niw_kappa d + n%:R) *: m = niw_kappa d *: niw_mu d + colsum X.
  by rewrite /m posterior_mu // scalerA divff ?scale1r // gt_eqF // addr_gt0 // ltr0n.
have -> : w_S (niw_iw (niw_posterior d X)) =
   w_S (niw_iw d) + X^T *m X + niw_kappa d *: outer (niw_mu d) - (niw_kappa d + n%:R) *: outer m by [].
have -> : niw_kappa (niw_posterior d X) = niw_kappa d + n%:R by [].
rewrite !outerB.
have -> : \sum_i outer (row i X - mu) = X^T *m X - (colsum X)^T *m mu - mu^T *m colsum X + n%:R *: outer mu.
  under eq_bigr do rewrite outerB.
  rewrite !big_split /= -gram_sum colsum_row; congr (_ + _ + _ + _).
  - by rewrite sumrN [(\sum_i _)^T]linear_sum mulmx_suml.
  - by rewrite sumrN mulmx_sumr.
  - by rewrite sumr_const card_ord scaler_nat.
have e1 : (niw_kappa d + n%:R) *: (mu^T *m m) = niw_kappa d *: (mu^T *m niw_mu d) + mu^T *m colsum X.
  by rewrite scalemxAr em mulmxDr -scalemxAr.
have e2 : (niw_kappa d + n%:R) *: (m^T *m mu) = niw_kappa d *: ((niw_mu d)^T *m mu) + (colsum X)^T *m mu.
  by rewrite scalemxAl -linearZ /= em linearD /= mulmxDl linearZ /= -scalemxAl.
move: e1 e2; move: (niw_kappa d : R) (n%:R : R) => k c e1 e2.
rewrite !scalerDr !scalerN e1 e2.
move: (outer m) (outer mu) (outer (niw_mu d)) (X^T *m X) (w_S _) => A B C E F.
move: (mu^T *m _) (mu^T *m _) (_ *m mu) (_ *m mu) => a1 a2 a3 a4.
by lin.
Qed.

Lemma posterior_perm n d (X : 'M[R]_(n, D)) (s : 'S_n) :
  niw_posterior d (row_perm s X) = niw_posterior d X.
Proof.
have e1 : (row_perm s X)^T *m row_perm s X = X^T *m X.
  apply/matrixP => a b; rewrite !mxE [RHS](reindex_inj (@perm_inj _ s)) /=.
  by apply: eq_bigr => i _; rewrite !mxE.
have e2 : \row_j ((\sum_i row_perm s X i j) / n%:R) = \row_j ((\sum_i X i j) / n%:R).
  apply/rowP => j; rewrite !mxE [in RHS](reindex_inj (@perm_inj _ s)) /=; congr (_ / _).
  by apply: eq_bigr => i _; rewrite !mxE.
by rewrite /niw_posterior e1 e2.
Qed.

Lemma posterior_col n m d (X : 'M[R]_(n, D)) (Y : 'M[R]_(m, D)) : (0 < n)%N -> (0 < m)%N -> 0 < niw_kappa d ->
  niw_posterior (niw_posterior d X) Y = niw_posterior d (col_mx X Y).
Proof.
move=> hn hm k0.
have hnm : (0 < n + m)%N by rewrite addn_gt0 hn.
have kn : niw_kappa d + n%:R != 0 by rewrite gt_eqF // addr_gt0 // ltr0n.
have ec : colsum (col_mx X Y) = colsum X + colsum Y.
  rewrite !colsum_row big_split_ord /=.
  by congr (_ + _); apply: eq_bigr => i _; rewrite ?rowKu ?rowKd.
have eg : (col_mx X Y)^T *m col_mx X Y = X^T *m X + Y^T *m Y by rewrite tr_col_mx mul_row_col.
have emu : niw_mu (niw_posterior (niw_posterior d X) Y) = niw_mu (niw_posterior d (col_mx X Y)).
  rewrite !posterior_mu // [niw_kappa (niw_posterior d X)]/= scalerA mulfV // scale1r ec addrA natrD.
  by rewrite -addrA [_ + (_ + _)]addrA.
have ek : niw_kappa (niw_posterior (niw_posterior d X) Y) = niw_kappa (niw_posterior d (col_mx X Y)).
  by rewrite /= natrD addrA.
have en : w_nu (niw_iw (niw_posterior (niw_posterior d X) Y)) = w_nu (niw_iw (niw_posterior d (col_mx X Y))).
  by rewrite /= natrD addrA.
have eS : w_S (niw_iw (niw_posterior (niw_posterior d X) Y)) = w_S (niw_iw (niw_posterior d (col_mx X Y))).
  have k1 : 0 < niw_kappa (niw_posterior d X) by rewrite /= addr_gt0 // ltr0n.
  have q1 := complete_square Y 0 hm k1; have q2 := complete_square X 0 hn k0.
  have q3 := complete_square (col_mx X Y) 0 hnm k0.
  have : w_S (niw_iw (niw_posterior (niw_posterior d X) Y)) + niw_kappa (niw_posterior (niw_posterior d X) Y) *:
      outer (0 - niw_mu (niw_posterior (niw_posterior d X) Y)) =
    w_S (niw_iw (niw_posterior d (col_mx X Y))) + niw_kappa (niw_posterior d (col_mx X Y)) *:
      outer (0 - niw_mu (niw_posterior d (col_mx X Y))).
    rewrite q1 q2 q3 -addrA; congr (_ + _); rewrite big_split_ord /=; congr (_ + _).
      by apply: eq_bigr => i _; rewrite rowKu.
    by apply: eq_bigr => i _; rewrite rowKd.
  by rewrite ek emu => /addIr.
have eta (x : niw D) : x = NIW (niw_mu x) (niw_2d x) (niw_kappa x) (Wishart (w_nu (niw_iw x)) (w_S (niw_iw x))).
  by case: x => ? ? ? [].
by rewrite [LHS]eta [RHS]eta emu ek en eS.
Qed.
Lemma posterior_S_pd n d (X : 'M[R]_(n, D)) : (0 < n)%N -> 0 < niw_kappa d -> pd (w_S (niw_iw d)) ->
  pd (w_S (niw_iw (niw_posterior d X))).
Proof.
move=> hn k0 hS.
have := complete_square X (niw_mu (niw_posterior d X)) hn k0.
have -> : outer (niw_mu (niw_posterior d X) - niw_mu (niw_posterior d X)) = 0 by rewrite subrr /outer trmx0 mul0mx.
rewrite scaler0 addr0 => ->.
have po x : psd (outer x) by rewrite /outer -{2}[x]trmxK; exact: psd_gram.
rewrite -addrA; apply: pdD_psd => //; apply: psdD; first by apply: psdZ; [exact: ltW | exact: po].
by elim/big_ind: _ => [|x y|i _]; [exact: psd0 | exact: psdD | exact: po].
Qed.

(** log-likelihoods of positive definite matrices *)
Lemma fastE (A : 'M[R]_D) : pd A -> fast_logdet A = Fin (logdet A).
Proof. by move=> h; rewrite /fast_logdet pd_det_gt0. Qed.
Lemma sum_mulE (A B : 'M[R]_D) : np_sum_mul A B = fdot A B. Proof. by []. Qed.
Lemma pinvE pinvh (A : 'M[R]_D) : pinvh_ok pinvh -> pd A -> pinvh A = invmx A.
Proof. by move=> hp h; apply: hp; [exact: pd_sym | exact: pd_unit]. Qed.
Lemma pdZ c (A : 'M[R]_D) : 0 < c -> pd A -> pd (c *: A).
Proof.
move=> c0 [h1 h2]; split=> [|v v0]; first by rewrite /sym linearZ /= h1.
by rewrite /quad -scalemxAr -scalemxAl mxE mulr_gt0 // h2.
Qed.
Lemma logdet_inv (A : 'M[R]_D) : pd A -> logdet (invmx A) = - logdet A.
Proof. by move=> h; rewrite /logdet det_inv RinvE'; apply: ln_Rinv; apply/RltP; exact: pd_det_gt0. Qed.
Lemma ln_exprn (x : R) k : 0 < x -> ln (x ^+ k) = k%:R * ln x.
Proof.
move=> x0; elim: k => [|k IH]; first by rewrite expr0 mul0r ln_1.
have e : ln (x * x ^+ k) = ln x + ln (x ^+ k) by apply: ln_mult; apply/RltP => //; exact: exprn_gt0.
by rewrite exprS e IH mulrS mulrDl mul1r.
Qed.
Lemma logdetZ c (A : 'M[R]_D) : 0 < c -> pd A -> logdet (c *: A) = D%:R * ln c + logdet A.
Proof.
move=> c0 h; rewrite /logdet detZ -ln_exprn //.
by apply: ln_mult; apply/RltP; [exact: exprn_gt0 | exact: pd_det_gt0].
Qed.
Lemma wmax (m : R) (S K : 'M[R]_D) : 0 < m -> pd S -> pd K -> K <> m *: invmx S ->
  m * logdet K - fdot S K < m * logdet (m *: invmx S) - fdot S (m *: invmx S).
Proof.
move=> m0 hS hK ne.
have hS' := pd_inv hS; have hm := pdZ m0 hS'.
have := logdet_tangent_lt hm hK ne.
have -> : invmx (m *: invmx S) = m^-1 *: S.
  have hu : m \is a GRing.unit by rewrite unitfE gt_eqF.
  by rewrite invmxZ ?invmxK //; exact: pd_unit.
rewrite -scalemxAl mxtraceZ tr_fdot; last exact: pd_sym.
rewrite fdotBr; move: (fdot S K : R) (fdot S (m *: invmx S) : R) (logdet K : R) (logdet (m *: invmx S) : R) => a b x y h.
have : m * x < m * (y + m^-1 * (a - b)) by rewrite ltr_pmul2l.
rewrite mulrDr mulrA mulfV ?gt_eqF // mul1r => h'.
by rewrite ltr_subl_addl addrC -addrA [- b + a]addrC.
Qed.
(** the log-likelihoods in closed form *)
Lemma iw_llE pinvh mg (w : wishart D) X : pinvh_ok pinvh -> pd (w_S w) -> pd X ->
  inverse_wishart_log_likelihood pinvh mg w X =
  Fin (2%:R^-1 * ((w_nu w + D%:R + 1) * logdet (invmx X) - fdot (w_S w) (invmx X)
       + (w_nu w * logdet (w_S w) - w_nu w * D%:R * ln 2%:R - 2%:R * mg (1 / 2%:R * w_nu w) D))).
Proof.
move=> hp hS hX; rewrite /inverse_wishart_log_likelihood !fastE // pinvE // sum_mulE /= logdet_inv //.
congr Fin; move: (fdot _ _ : R) => a; move: (logdet X : R) => b; move: (logdet _ : R) => c; move: (mg _ _ : R) => d; move: (ln _ : R) => e; move: (w_nu w : R) => f; move: (D%:R : R) => g.
by mcfield.
Qed.
Lemma w_llE pinvh mg (w : wishart D) X : pinvh_ok pinvh -> pd (w_S w) -> pd X ->
  wishart_log_likelihood pinvh mg w X =
  Fin (2%:R^-1 * ((w_nu w - D%:R - 1) * logdet X - fdot (invmx (w_S w)) X
       - (w_nu w * logdet (w_S w) + w_nu w * D%:R * ln 2%:R + 2%:R * mg (1 / 2%:R * w_nu w) D))).
Proof.
move=> hp hS hX; rewrite /wishart_log_likelihood !fastE // pinvE // sum_mulE /= fdotC.
congr Fin; move: (fdot _ _ : R) => a; move: (logdet X : R) => b; move: (logdet _ : R) => c; move: (mg _ _ : R) => d; move: (ln _ : R) => e; move: (w_nu w : R) => f; move: (D%:R : R) => g.
by mcfield.
Qed.
Lemma quad_outer (K : 'M[R]_D) (x : 'rV[R]_D) : quad K x^T = fdot (outer x) K.
Proof. by rewrite /outer fdot_outer. Qed.
Lemma niw_llE pinvh mg mvn d mu X : pinvh_ok pinvh ->
  (forall x m C, pd C -> mvn x m C = Fin (gauss_logpdf (invmx C) m x)) ->
  niw_2d d = false -> 0 < niw_kappa d -> pd (w_S (niw_iw d)) -> pd X ->
  niw_log_likelihood pinvh mg mvn d mu X =
  Val (Fin (2%:R^-1 * ((w_nu (niw_iw d) + D%:R + 2%:R) * logdet (invmx X)
     - fdot (w_S (niw_iw d) + niw_kappa d *: outer (mu - niw_mu d)) (invmx X)
     + (w_nu (niw_iw d) * logdet (w_S (niw_iw d)) - w_nu (niw_iw d) * D%:R * ln 2%:R
        - 2%:R * mg (1 / 2%:R * w_nu (niw_iw d)) D + D%:R * ln (niw_kappa d) - D%:R * ln (2%:R * PI))))).
Proof.
move=> hp hm h2 k0 hS hX; rewrite /niw_log_likelihood h2 /= iw_llE //.
have k1 : 0 < (niw_kappa d)^-1 by rewrite invr_gt0.
have hC := pdZ k1 hX.
rewrite hm // /=; congr (Val (Fin _)); rewrite /gauss_logpdf.
have -> : invmx ((niw_kappa d)^-1 *: X) = niw_kappa d *: invmx X.
  by rewrite invmxZ ?invrK //; exact: pd_unit.
rewrite -/(logdet _) logdetZ //; last exact: pd_inv.
rewrite quad_outer fdotZr fdotDl fdotZl.
move: (fdot _ _ : R) => a; move: (fdot _ _ : R) => a'; move: (logdet (invmx X) : R) => b; move: (logdet _ : R) => c; move: (mg _ _ : R) => e; move: (ln _ : R) => f; move: (ln _ : R) => f'; move: (ln _ : R) => f''; move: (w_nu _ : R) => g; move: (D%:R : R) => h; move: (niw_kappa d : R) => k.
by mcfield.
Qed.
Lemma gaussE (K : 'M[R]_D) mu x : gauss_logpdf K mu x =
  2%:R^-1 * (logdet K - D%:R * ln (2%:R * PI) - fdot (outer (x - mu)) K).
Proof. by rewrite /gauss_logpdf quad_outer. Qed.
Lemma niw_bayes pinvh mg mvn n d (X : 'M[R]_(n, D)) : pinvh_ok pinvh ->
  (forall x m C, pd C -> mvn x m C = Fin (gauss_logpdf (invmx C) m x)) ->
  niw_2d d = false -> 0 < niw_kappa d -> pd (w_S (niw_iw d)) -> (0 < n)%N ->
  let post := niw_posterior d X in
  exists c, forall mu Sigma, pd Sigma -> exists a b,
   [/\ niw_log_likelihood pinvh mg mvn (NIW (niw_mu post) false (niw_kappa post) (niw_iw post)) mu Sigma = Val (Fin a),
       niw_log_likelihood pinvh mg mvn d mu Sigma = Val (Fin b) &
       a = c + b + \sum_i gauss_logpdf (invmx Sigma) mu (row i X)].
Proof.
move=> hp hm h2 k0 hS hn post.
have kp : 0 < niw_kappa post by rewrite /= addr_gt0 // ltr0n.
have pS : pd (w_S (niw_iw post)) by exact: posterior_S_pd.
pose c0 (w : wishart D) k : R := w_nu w * logdet (w_S w) - w_nu w * D%:R * ln 2%:R
        - 2%:R * mg (1 / 2%:R * w_nu w) D + D%:R * ln k - D%:R * ln (2%:R * PI).
exists (2%:R^-1 * (c0 (niw_iw post) (niw_kappa post) - c0 (niw_iw d) (niw_kappa d) + n%:R * (D%:R * ln (2%:R * PI)))) => mu Sigma hSig.
eexists; eexists; split.
- by rewrite niw_llE.
- by rewrite niw_llE.
rewrite complete_square //.
have -> : \sum_i gauss_logpdf (invmx Sigma) mu (row i X) = \sum_(i < n) (2%:R^-1 * (logdet (invmx Sigma) - D%:R * ln (2%:R * PI) - fdot (outer (row i X - mu)) (invmx Sigma))).
  by apply: eq_bigr => i _; exact: gaussE.
rewrite -mulr_sumr sumrB sumr_const card_ord.
rewrite fdotDl; have -> : fdot (\sum_i outer (row i X - mu)) (invmx Sigma) = \sum_i fdot (outer (row i X - mu)) (invmx Sigma).
  by rewrite fdotC fdot_sumr; apply: eq_bigr => i _; rewrite fdotC.
rewrite -[(_ - _) *+ n]mulr_natl /c0.
rewrite [niw_iw (NIW _ _ _ _)]/= [niw_kappa (NIW _ _ _ _)]/= -/post -[w_nu (niw_iw post)]/(w_nu (niw_iw d) + n%:R).
move: (\sum_i _ : R) => a; move: (fdot _ _ : R) => b; move: (logdet (invmx Sigma) : R) => c.
move: (mg _ _ : R) => e; move: (mg _ _ : R) => f; move: (logdet _ : R) => g; move: (logdet _ : R) => g'.
move: (ln 2%:R : R) (ln (2%:R * PI) : R) (ln (niw_kappa d) : R) (ln (niw_kappa post) : R) => l1 l2 l3 l4.
move: (w_nu (niw_iw d) : R) (n%:R : R) (D%:R : R) => h i j.
by mcfield.
Qed.
Lemma niw_mode_max pinvh mg mvn d mu X : pinvh_ok pinvh ->
  (forall x m C, pd C -> mvn x m C = Fin (gauss_logpdf (invmx C) m x)) ->
  niw_2d d = false -> 0 < niw_kappa d -> pd (w_S (niw_iw d)) -> pd X -> 0 < w_nu (niw_iw d) + D%:R + 2%:R ->
  let md := niw_mode d in (mu, X) <> md ->
  exists a b, [/\ niw_log_likelihood pinvh mg mvn d mu X = Val (Fin a),
    niw_log_likelihood pinvh mg mvn d md.1 md.2 = Val (Fin b) & a < b].
Proof.
move=> hp hm h2 k0 hS hX m0 md ne.
have hM : pd md.2 by apply: pdZ => //; rewrite invr_gt0.
eexists; eexists; split; [by rewrite niw_llE | by rewrite niw_llE |].
rewrite ltr_pmul2l ?invr_gt0 ?ltr0Sn // ltr_add2r.
have o0 : outer (0 : 'rV[R]_D) = 0 by rewrite /outer trmx0 mul0mx.
rewrite [md.1]/= subrr o0 scaler0 addr0 fdotDl fdotZl -quad_outer.
have emd : invmx md.2 = (w_nu (niw_iw d) + D%:R + 2%:R) *: invmx (w_S (niw_iw d)).
  by rewrite invmxZ ?invrK //; exact: pd_unit.
rewrite emd; have hXi := pd_inv hX.
have q0 : 0 <= niw_kappa d * quad (invmx X) (mu - niw_mu d)^T.
  by rewrite mulr_ge0 ?(ltW k0) //; case: (pd_psd hXi).
set w := (w_nu _ + _ + _) in m0 emd *.
have [e|/eqP ne2] := eqVneq (invmx X) (w *: invmx (w_S (niw_iw d))).
  rewrite e; have nm : (mu - niw_mu d)^T != 0.
    apply/eqP => /(congr1 trmx); rewrite trmxK trmx0 => /eqP; rewrite subr_eq0 => /eqP em.
    apply: ne; rewrite em /md /niw_mode; congr (_, _).
    by rewrite -[X]invmxK e invmxZ ?invmxK // -e; exact: pd_unit.
  rewrite -e; have [_ hq] := hXi; have := mulr_gt0 k0 (hq _ nm).
  rewrite opprD addrA => h; rewrite ltr_subl_addr ltr_addl; exact: h.
have := wmax m0 hS hXi ne2 => h.
by rewrite opprD addrA; apply: le_lt_trans h; rewrite ler_subl_addr ler_addl.
Qed.
End NIW.
