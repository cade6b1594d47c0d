(** C199: the prior's constant of the Laplace scores. *)
From Coq Require Import Reals Lra ClassicalEpsilon.
From mathcomp Require Import all_ssreflect all_algebra.
From Verif Require Import RStruct RTac LinTac S_Mat S_Fit NP M_Utils M_GL M_Fit M_GWishart M_GWPrior.
From Verif Require Import RMx P_Prox P_Eigh P_LGL P_Fit P_GWishart P_Gauss6 T_GWishart.
Import Order.TTheory GRing.Theory Num.Theory.

Set Implicit Arguments.
Unset Strict Implicit.
Unset Printing Implicit Defensive.
Local Open Scope ring_scope.

(** specification *)
Definition svds_ok p (svd : 'M[R]_p -> 'M[R]_p * 'rV[R]_p * 'M[R]_p) : Prop := forall P, pd P -> let: (U, s, Vh) := svd P in svd_ok U s Vh P.
Definition cholu_ok (chol : forall d, 'M[R]_d -> 'M[R]_d) : Prop := forall d (A : 'M[R]_d), pd A -> chol_upper (chol d A) A.
(** the optimiser does not move when the gradient at the start is zero *)
Definition stays p (minimize : ('M[R]_p -> xR * 'M[R]_p) -> 'M[R]_p -> 'M[R]_p) : Prop :=
  forall f x0, (f x0).2 = 0 -> minimize f x0 = x0.

(** where no samples are refused, so is every score *)
Theorem C199_refused p (empcov : seq 'rV[R]_p -> res (option 'M[R]_p)) pinvh minimize svd chol e : empcov [::] = Raise e ->
  forall diag X N d0 S0 dof (V : 'I_dof -> 'I_p * 'I_p), gwishart_score empcov pinvh minimize svd chol diag X N d0 S0 V = Raise e.
Proof. by move=> h *; rewrite /gwishart_score /gw_fit h. Qed.
Print Assumptions C199_refused.

Lemma fill1 p (N : 'M[bool]_p) : mask_ok N -> precision_selection N 1%:M = 1%:M :> 'M[R]_p.
Proof.
move=> [hN _]; apply/matrixP => i j; rewrite /precision_selection fillE !mxE; have [->|ij] := eqVneq i j.
  by rewrite hN ltnn addr0.
by rewrite !if_same addr0.
Qed.
(** where they give nan, the constant of the prior is taken at the identity, whatever the prior scale is *)
Theorem C199_identity p (empcov : seq 'rV[R]_p -> res (option 'M[R]_p)) pinvh minimize svd chol : empcov [::] = Val None -> stays minimize ->
  forall diag X N d0 S0 dof (V : 'I_dof -> 'I_p * 'I_p), mask_ok N -> forall score P,
  gwishart_score empcov pinvh minimize svd chol diag X N d0 S0 V = Val (score, P) ->
  score = gw_score p (gw_constant svd chol diag P ((size X)%:R + d0) V) (gw_constant svd chol diag 1%:M d0 V) (size X).
Proof.
move=> h st diag X N d0 S0 dof V mN score P; rewrite /gwishart_score /gw_fit h /=.
rewrite st // fill1 //; case: (empcov X) => // E [<- ->].
by [].
Qed.
Print Assumptions C199_identity.

Lemma lnM' (a b : R) : 0 < a -> 0 < b -> ln (a * b) = ln a + ln b.
Proof. by move=> /RltP a0 /RltP b0; exact: ln_mult. Qed.
Lemma lnX (c : R) k : 0 < c -> ln (c ^+ k) = k%:R * ln c.
Proof.
move=> c0; elim: k => [|k IH]; first by rewrite expr0 ln_1 mul0r.
rewrite exprS [ln _]ln_mult ?IH; try by apply/RltP; rewrite ?exprn_gt0.
by rewrite -addn1 natrD; move: (k%:R : R) (ln c); clear; move=> x y; rewrite mulrDl mul1r addrC.
Qed.
Lemma lnV2 (c : R) : 0 < c -> ln ((c ^-1) ^+ 2) = - (2%:R * ln c).
Proof. by move=> c0; rewrite lnX ?invr_gt0 // RinvE' ln_Rinv; [rewrite RoppE' mulrN | apply/RltP]. Qed.
Lemma lapH_scale p (Q : 'M[R]_p) (c dn : R) dof (V : 'I_dof -> 'I_p * 'I_p) : laplace_H (c *: Q) dn V = c ^+ 2 *: laplace_H Q dn V.
Proof.
apply/matrixP => e f; rewrite !mxE.
have t a b : laplace_tmp2 (c *: Q) V a b = c ^+ 2 * laplace_tmp2 Q V a b.
  rewrite /laplace_tmp2 !mxE; move: (Q _ _ : R) (Q _ _ : R) (Q _ _ : R) (Q _ _ : R) (Q _ _ : R) (Q _ _ : R) (Q _ _ : R) (Q _ _ : R) => x1 x2 x3 x4 x5 x6 x7 x8.
  by rewrite expr2; move: (c : R) => y; mcring.
by rewrite !t; case: ifP => _; rewrite [in LHS]mulrCA -[LHS]mulrA.
Qed.
Lemma constant_scalar p (c dn : R) dof (V : 'I_dof -> 'I_p * 'I_p) svd chol diag : svds_ok svd -> cholu_ok chol -> 0 < c -> 2%:R < dn ->
  injective V -> (forall e, ((V e).1 <= (V e).2)%N) ->
  gw_constant svd chol diag c%:M dn V = gw_constant svd chol diag 1%:M dn V + ((dn - 2%:R) / 2%:R * p%:R + dof%:R) * ln c.
Proof.
move=> hs hc c0 d2 iV oV; have p1 : pd (1%:M : 'M[R]_p) by exact: pd1.
have pc : pd (c%:M : 'M[R]_p) by rewrite -scalemx1; apply: pdZ.
rewrite /gw_constant; have := hs _ pc; have := hs _ p1; case: (svd 1%:M) => [[U1 s1] Vh1] h1; case: (svd c%:M) => [[U s] Vh] h.
rewrite (svd_inv h pc) (svd_inv h1 p1) (svd_logdet h pc) (svd_logdet h1 p1).
have iE : invmx (c%:M : 'M[R]_p) = c^-1 *: invmx 1%:M by rewrite invmx1 scalemx1 invmx_scalar.
have ld : logdet (c%:M : 'M[R]_p) = p%:R * ln c by rewrite /logdet det_scalar lnX.
have ld1 : logdet (1%:M : 'M[R]_p) = 0 by rewrite /logdet det1 ln_1.
have nd := lapH_nd (pd_inv p1) d2 iV oV.
have ci0 : 0 < c^-1 ^+ 2 by rewrite exprn_gt0 // invr_gt0.
have key : (if diag then gw_logdetHdiag (laplace_diag (invmx c%:M) dn V) else gw_logdetH (chol dof (- laplace_H (invmx c%:M) dn V))) =
  (if diag then gw_logdetHdiag (laplace_diag (invmx 1%:M) dn V) else gw_logdetH (chol dof (- laplace_H (invmx 1%:M) dn V))) - dof%:R * (2%:R * ln c).
  have E : - laplace_H (invmx c%:M) dn V = c^-1 ^+ 2 *: (- laplace_H (invmx 1%:M) dn V) by rewrite iE lapH_scale scalerN.
  case: diag; last first.
    rewrite E !(chol_logdet (hc _ _ _)) //; last by apply: pdZ.
    by rewrite /logdet detZ (lnM' (exprn_gt0 dof ci0) (pd_det_gt0 nd)) (lnX dof ci0) lnV2 // mulrN addrC.
  have -> : dof%:R * (2%:R * ln c) = \sum_(e < dof) 2%:R * ln c by rewrite sumr_const card_ord mulr_natl.
  rewrite /gw_logdetHdiag -sumrB; apply: eq_bigr => e _; rewrite !diag_lap.
  have -> : - laplace_H (invmx c%:M) dn V e e = c^-1 ^+ 2 * - laplace_H (invmx 1%:M) dn V e e by have := congr1 (fun A : 'M[R]_dof => A e e) E; rewrite !mxE.
  have d0 : 0 < - laplace_H (invmx 1%:M) dn V e e by have := pd_diag_gt0 e nd; rewrite mxE.
  by rewrite lnM' // lnV2 // addrC.
rewrite key ld ld1 /gw_lognormconst /gw_logh; move: (if diag then _ else _) (ln c) (ln _) (dof%:R : R) (p%:R : R) (dn - 2%:R) => x1 x2 x3 x4 x5 x6; clear.
by mclra.
Qed.
(** the prior of bayesian_graphical_lasso (lines 383-384): d0 = n_dim + 2, S0 = identity. Its mode is n_dim times the identity for every graph; with
    the constant taken there, as for the posterior, the score would be lower by (n_dim^2 / 2 + dof) log(n_dim): by log(n_dim) more for each edge *)
Theorem C199_edges_favoured_refuted p (empcov : seq 'rV[R]_p -> res (option 'M[R]_p)) pinvh minimize svd chol : (0 < p)%N ->
  empcov [::] = Val None -> stays minimize -> svds_ok svd -> cholu_ok chol ->
  forall diag X N dof (V : 'I_dof -> 'I_p * 'I_p), mask_ok N -> lists N V -> forall score P,
  gwishart_score empcov pinvh minimize svd chol diag X N (p%:R + 2%:R) 1%:M V = Val (score, P) ->
  mode_of N 1%:M (p%:R + 2%:R) (p%:R%:M) /\
  score = gw_score p (gw_constant svd chol diag P ((size X)%:R + (p%:R + 2%:R)) V) (gw_constant svd chol diag p%:R%:M (p%:R + 2%:R) V) (size X)
          + (p%:R ^+ 2 / 2%:R + dof%:R) * ln p%:R.
Proof.
move=> p0 h st hs hc diag X N dof V mN lN score P E; have pp : 0 < p%:R :> R by rewrite ltr0n.
have pc : pd (p%:R%:M : 'M[R]_p) by rewrite -scalemx1; apply: pdZ => //; exact: pd1.
split.
  split=> //; first by split=> // i j; rewrite negb_or mxE; have [->|//] := eqVneq i j; rewrite (proj1 mN).
  by move=> i j _; rewrite addrK invmx_scalar !mxE; case: eqP => _; rewrite ?mulr0 // mulr1n divff // gt_eqF.
rewrite (C199_identity h st mN E) (@constant_scalar _ p%:R) //; [|by rewrite ltr_addr|exact: lN.1|exact: (lists_ord mN lN)].
rewrite /gw_score addrK expr2; set a := gw_constant _ _ _ P _ _; set b := gw_constant _ _ _ _ _ _.
move: (a : R) (b : R) ((size X)%:R : R) (ln (2%:R * PI)) (ln p%:R) (dof%:R : R) (p%:R : R).
by clear; move=> x1 x2 x0 x3 x4 x5 x6; mclra.
Qed.
Print Assumptions C199_edges_favoured_refuted.

(** the posterior side is right: an optimiser that ends at a stationary positive definite point gives the mode of the posterior with parameters
    n_samples emp_cov + S0 and n_samples + d0, and the posterior constant is Laplace's approximation there up to a number that does not depend on the graph *)
Theorem C199_posterior p (empcov : seq 'rV[R]_p -> res (option 'M[R]_p)) pinvh minimize svd chol : pinvh_ok pinvh -> svds_ok svd -> cholu_ok chol ->
  forall X N d0 S0 dof (V : 'I_dof -> 'I_p * 'I_p) E, mask_ok N -> lists N V -> empcov X = Val (Some E) -> sym E -> sym S0 ->
  let n := (size X)%:R : R in let dn := n + d0 in 2%:R < dn ->
  let C := (dn - 2%:R)^-1 *: (n *: E + S0) in let x := minimize (covsel pinvh N C) 1%:M in
  (covsel pinvh N C x).2 = 0 -> pd (precision_selection N x) ->
  forall diag score P, gwishart_score empcov pinvh minimize svd chol diag X N d0 S0 V = Val (score, P) ->
  exists P0 scatter, mode_of N (n *: E + S0) dn P /\
  score = laplace_approx dof (gw_logdensity (n *: E + S0) dn P) (if diag then \sum_e ln (- hessian P dn V e e) else ln (\det (- hessian P dn V)))
          + ((dn - 2%:R) * p%:R - p%:R * ln 2%:R) - gw_constant svd chol diag P0 d0 V - n * p%:R * ln (2%:R * PI) / 2%:R /\
  gw_fit empcov pinvh minimize [::] N d0 S0 = Val (P0, scatter).
Proof.
move=> hv hs hc X N d0 S0 dof V E mN lN eE sE s0 n dn hd C x gx px diag score P.
have sD : sym (n *: E + S0) by rewrite /sym linearD /= linearZ /= sE s0.
have sC : sym C by rewrite /sym /C linearZ /= sD.
have n0 : dn - 2%:R != 0 by rewrite subr_eq0 gt_eqF.
rewrite /gwishart_score; case e0: (gw_fit _ _ _ [::] _ _ _) => [[P0 S']|] //.
rewrite /gw_fit eE /= -/n -/dn -/C -/x => -[es eP]; exists P0, S'.
have hm : mode_of N (n *: E + S0) dn P.
  rewrite -eP; split=> //; last first.
    move=> i j /(proj1 (covsel_stat hv mN.2 sC px) gx i j); rewrite /precision_selection => ->.
    by rewrite mxE mulrA divff // mul1r.
  split=> // i j; rewrite /precision_selection fillE negb_or => /andP[/negbTE h1 /negbTE h2].
  by rewrite h1 h2; case: (_ < _)%N; rewrite ?addr0 ?add0r.
split=> //; split=> //.
have pP : pd P by case: hm => _ [].
have := hs _ pP; move: es; rewrite eP -/x /gw_score /gw_constant; case: (svd P) => [[U s] Vh] es hsv; rewrite -es -/n; congr (_ - _ - _).
case: (diag); first exact: (C99_diaglaplace sD hd hm lN hsv).
apply: (C99_laplace sD hd hm lN hsv); apply: hc; rewrite (svd_inv hsv pP).
exact: (lapH_nd (pd_inv pP) hd lN.1 (lists_ord mN lN)).
Qed.
Print Assumptions C199_posterior.

Lemma chol_upper_exists n (A : 'M[R]_n) : pd A -> exists L, chol_upper L A.
Proof.
elim: n A => [|n IH] A pA; first by exists 0; split=> [[]|[]|] //; apply/matrixP => -[].
change ('M[R]_(1 + n)) in A; pose a : R := A 0 0; pose B := ursubmx A; pose D := drsubmx A; have sA := proj1 pA.
have a0 : 0 < a by exact: pd_diag_gt0.
have eA : A = block_mx a%:M B B^T D.
  rewrite -[LHS]submxK; congr block_mx; last by rewrite /B trmx_ursub sA.
  by apply/matrixP => i j; rewrite !ord1 !mxE eqxx mulr1n /a; congr (A _ _); apply: val_inj.
have pS : pd (D - a^-1 *: (B^T *m B)).
  have := @schur_dr 1 n A pA; rewrite eA block_mxKul block_mxKur block_mxKdl block_mxKdr invmx_scalar.
  by rewrite mul_mx_scalar -scalemxAl.
have [L' [t' d' e']] := IH _ pS.
exists (block_mx (sqrt a)%:M ((sqrt a)^-1 *: B) 0 L'); split.
- move=> i j; change ('I_(1 + n)) in i; change ('I_(1 + n)) in j; rewrite -(splitK i) -(splitK j); case: (split i) => i'; case: (split j) => j'; rewrite /=.
  + by rewrite !ord1.
  + by rewrite ord1.
  + by move=> _; rewrite [LHS](@block_mxEdl _ 1 n 1 n) mxE.
  + by rewrite ltn_add2l => /t' h; rewrite [LHS](@block_mxEdr _ 1 n 1 n).
- move=> i; change ('I_(1 + n)) in i; rewrite -(splitK i); case: (split i) => i'; rewrite /=; last by rewrite [X in 0 < X](@block_mxEdr _ 1 n 1 n).
  rewrite [X in 0 < X](@block_mxEul _ 1 n 1 n) ord1 mxE eqxx mulr1n; apply/RltP; apply: sqrt_lt_R0; exact/RltP.
- have s0 : sqrt a != 0 by rewrite gt_eqF //; apply/RltP; apply: sqrt_lt_R0; apply/RltP.
  have ss : sqrt a * sqrt a = a by apply: sqrt_sqrt; apply/RleP; exact: ltW.
  apply: etrans (esym eA); change ((block_mx (sqrt a)%:M ((sqrt a)^-1 *: B) 0 L' : 'M[R]_(1 + n))^T *m (block_mx (sqrt a)%:M ((sqrt a)^-1 *: B) 0 L' : 'M[R]_(1 + n)) = block_mx a%:M B B^T D).
  rewrite (@tr_block_mx _ 1 n 1 n) (@mulmx_block _ 1 n 1 n 1 n) !trmx0 !mul0mx !mulmx0 !addr0 !tr_scalar_mx e'; congr block_mx.
  + by rewrite -scalar_mxM ss.
  + by rewrite mul_scalar_mx scalerA mulfV // scale1r.
  + by rewrite [X in X *m _]linearZ /= mul_mx_scalar scalerA mulfV // scale1r.
  + by rewrite [X in X *m _]linearZ /= -scalemxAl -scalemxAr scalerA -invfM ss addrC subrK.
Qed.
(** the hypotheses are met: two variables, the graph with one edge *)
Example C199_case : exists (svd : 'M[R]_2 -> 'M[R]_2 * 'rV[R]_2 * 'M[R]_2) (minimize : ('M[R]_2 -> xR * 'M[R]_2) -> 'M[R]_2 -> 'M[R]_2)
    (N : 'M[bool]_2) (V : 'I_3 -> 'I_2 * 'I_2) (empcov : seq 'rV[R]_2 -> res (option 'M[R]_2)) chol,
  [/\ svds_ok svd, cholu_ok chol /\ stays minimize, mask_ok N, lists N V & empcov [::] = Val None /\
      exists sP, gwishart_score empcov id minimize svd chol true [:: 0] N (2%:R + 2%:R) 1%:M V = Val sP].
Proof.
have [eigh He] := eigh_exists 2.
have [chol hc] : exists chol, cholu_ok chol.
  have h d (A : 'M[R]_d) : exists L, pd A -> chol_upper L A.
    by have [/chol_upper_exists [L hL]|n] := Classical_Prop.classic (pd A); [exists L | exists 0].
  exists (fun d A => proj1_sig (constructive_indefinite_description _ (h d A))) => d A pA.
  by case: constructive_indefinite_description => /= L; apply.
exists (fun P => ((eigh P).2, (eigh P).1, (eigh P).2^T)), (fun f x0 => x0), (\matrix_(i, j) (i <= j)%N),
  (fun e => nth (0, 0) [:: (0, 0); (0, 1); (1, 1)] e), (fun X => Val (if X is [::] then None else Some 0)), chol.
split=> //; last by split=> //; eexists; reflexivity.
- move=> P hP; have := He P (proj1 hP); case: (eigh P) => d Q /= [oQ eP]; split=> //=; first by rewrite trmxK.
  move=> i; have := (pd_psd hP).2 (Q *m delta_mx i 0); rewrite {1}eP /quad trmx_mul !mulmxA -[_ *m Q^T *m Q]mulmxA oQ mulmx1.
  by rewrite -[_ *m Q^T *m Q]mulmxA oQ mulmx1 -/(quad (diag_mx d) (delta_mx i 0)) quad_delta mxE eqxx.
- split=> [i|i j]; rewrite mxE ?leqnn //.
- split=> [[[|[|[|e]]] he] // [[|[|[|f]]] hf] // _|[i j]]; try exact: val_inj.
  rewrite mxE; split=> [[[[|[|[|e]]] he]] // [<- <-] //|].
  case: i => [[|[|i]] hi]; case: j => [[|[|j]] hj] //= _.
  + by exists 0; congr pair; apply: val_inj.
  + by exists 1; congr pair; apply: val_inj.
  + by exists (inord 2); rewrite inordK //; congr pair; apply: val_inj.
Qed.
(** and those of C199_posterior, which the case above completes: one sample with the identity as covariance, S0 = 2 I and d0 = 4 *)
Example C199_posterior_case : let N : 'M[bool]_2 := \matrix_(i, j) (i <= j)%N in let X : seq 'rV[R]_2 := [:: 0] in
  let n := (size X)%:R : R in let dn := n + 4%:R in let C := (dn - 2%:R)^-1 *: (n *: 1%:M + 2%:R%:M) in
  [/\ pinvh_ok (@invmx _ 2), mask_ok N, 2%:R < dn, (covsel (@invmx _ 2) N C 1%:M).2 = 0 & pd (precision_selection N (1%:M : 'M[R]_2))].
Proof.
move=> N X n dn C; have mN : mask_ok N by split=> [i|i j]; rewrite mxE ?leqnn.
have p1 : pd (precision_selection N (1%:M : 'M[R]_2)) by rewrite fill1 //; exact: pd1.
have hv : pinvh_ok (@invmx _ 2) by move=> A.
have h2 : 2%:R < dn by rewrite /dn /n /=; mclra.
have eC : C = 1%:M.
  rewrite /C /dn /n /= scale1r -raddfD /= -scalemx1 scalerA scalemx1; congr (_%:M); mcfield.
split=> //; apply/covsel_stat => //; first exact: mN.2.
  by rewrite eC /sym trmx1.
by move=> i j _; rewrite eC -/(precision_selection N _) fill1 // invmx1.
Qed.
