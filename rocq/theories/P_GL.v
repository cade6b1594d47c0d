(** Proofs about the graphical lasso model. *)
From Coq Require Import Reals Lra Psatz Classical_Prop.
From mathcomp Require Import all_ssreflect all_algebra.
From Verif Require Import RStruct RTac LinTac Spectral S_Mat RMx ADMM NP M_Prox S_Prox P_Eigh.
From Verif Require Import P_Prox P_Prox2 P_Rules M_Loop P_Loop M_GL S_GL.
Import Order.TTheory GRing.Theory Num.Theory.

Set Implicit Arguments.
Unset Strict Implicit.
Unset Printing Implicit Defensive.
Local Open Scope ring_scope.

Lemma fdot_asym n (A E : 'M[R]_n) : sym E -> fdot (2%:R^-1 *: (A + A^T)) E = fdot A E.
Proof.
move=> sE; rewrite fdotZl fdotDl -[fdot A^T E]fdot_tr trmxK sE.
by move: (fdot A E) => x; mcfield.
Qed.

Lemma np_minP (x y : R) : [/\ np_min x y <= x, np_min x y <= y & np_min x y = x \/ np_min x y = y].
Proof.
by rewrite /np_min; case: (ltrP y x) => h; split=> //; [apply: ltW | right | left].
Qed.

Lemma unique_min_eq T (D : T -> Prop) (f : T -> R) x y :
  unique_minimiser D f x -> unique_minimiser D f y -> x = y.
Proof.
move=> [Dx hx] [Dy hy]; apply: NNPP => ne.
have h1 := hy _ Dx ne; have h2 : f x < f y by apply: hx => // e; apply: ne.
by have := lt_trans h1 h2; rewrite ltxx.
Qed.

Section GL.
Variables (n : nat) (eigh : eigh_t n).
Hypothesis He : eigh_ok eigh.
Variables (S : 'M[R]_n).
Hypothesis sS : sym S.
Implicit Types K Z U A : 'M[R]_n.

Lemma gl_A_sym Z U : sym (gl_A Z U).
Proof. exact: sym_halfsum. Qed.

Lemma gl_sSA Z U rho : sym (S - rho *: gl_A Z U).
Proof. by apply: symB => //; apply: symZ; apply: gl_A_sym. Qed.

Lemma gl_K_pd alpha om rho Z U : 0 < rho -> pd (gl_updates eigh S alpha om rho Z U).1.1.
Proof.
move=> r0; apply: (proj1 (prox_logdet_spec He (gl_sSA _ _ _) _)).
by rewrite div1r invr_gt0.
Qed.

Lemma gl_sym_gen alpha om rho Z U : 0 < rho -> sym U -> om = 1 \/ sym Z ->
  let r := gl_updates eigh S alpha om rho Z U in sym r.1.2 /\ sym r.2.
Proof.
move=> r0 sU H; have pK := gl_K_pd alpha om Z U r0.
rewrite /gl_updates /= in pK *; set K := prox_logdet _ _ _ in pK *.
have sKh : sym (om *: K - (1 - om) *: Z).
  case: H => [->|sZ].
    by rewrite subrr scale0r subr0 scale1r; apply: pd_sym.
  by apply: symB; apply: symZ => //; apply: pd_sym.
have sZ' : sym (soft_thresholding_off_diagonal (om *: K - (1 - om) *: Z + U) (alpha / rho)).
  by apply: sod_sym; apply: symD.
by split=> //; apply: symD => //; apply: symB.
Qed.

Lemma gl_diag alpha rho Z U i : 0 < rho -> (forall i, U i i = 0) ->
  let r := gl_updates eigh S alpha 1 rho Z U in 0 < r.1.2 i i /\ r.2 i i = 0.
Proof.
move=> r0 dU; have pK := gl_K_pd alpha 1 Z U r0.
rewrite /gl_updates /= in pK *; set K := prox_logdet _ _ _ in pK *.
rewrite subrr scale0r subr0 scale1r.
have e : soft_thresholding_off_diagonal (K + U) (alpha / rho) i i = K i i.
  by rewrite sod_diag mxE dU addr0.
split; first by rewrite e; apply: pd_diag_gt0.
by rewrite mxE dU add0r [LHS]mxE [X in _ + X]mxE e subrr.
Qed.

(** * one iteration is one ADMM step *)
Definition gl_f K : R := \tr (S *m K) - logdet K.
Local Notation dm := (mat_ip n n).
Local Notation step alpha rho := (admm_step dm dm (fun x : 'M[R]_n => x) (fun x => x) (@pd n) gl_f
  (fun Z => alpha * l1od Z) rho).
Local Notation gkkt alpha rho := (kkt dm dm (fun x : 'M[R]_n => x) (fun x => x) (@pd n) gl_f
  (fun Z => alpha * l1od Z) rho).

Lemma gl_step alpha rho Z U K Z' U' : 0 <= alpha -> 0 < rho ->
  gl_updates eigh S alpha 1 rho Z U = (K, Z', U') -> step alpha rho Z U K Z' U'.
Proof.
move=> a0 r0 [].
rewrite subrr scale0r subr0 scale1r div1r.
set A := gl_A Z U => eK; rewrite eK => eZ eU.
have sA : sym A by apply: gl_A_sym.
have pK : pd K.
  rewrite -eK; apply: (proj1 (prox_logdet_spec He (gl_sSA _ _ _) _)).
  by rewrite invr_gt0.
split.
- split=> // Y pY; have := prox_logdet_subgrad He sA sS r0 pY.
  rewrite eK /gl_f /= !fdotZl.
  have sE : sym (Y - K) by apply: symB; apply: pd_sym.
  have -> : fdot (K - A) (Y - K) = fdot (K - Z + U) (Y - K).
    rewrite fdotBl /A /gl_A fdot_asym // -fdotBl.
    by congr fdot; lin.
  by [].
- move=> W /=; have l0 : 0 <= alpha / rho by apply: divr_ge0 => //; apply: ltW.
  have := sod_subgrad (K + U) W l0; rewrite eZ fdotZl.
  have h : rho * (alpha / rho) = alpha by rewrite mulrCA mulfV ?mulr1 // lt0r_neq0.
  by rewrite -(ler_pmul2l r0) mulrDr !(mulrA rho (alpha / rho)) h.
- by rewrite -eU eZ; lin.
Qed.

(** * stationary points *)
Lemma gl_fixed_opt alpha rho Z U K : 0 <= alpha -> 0 < rho ->
  gl_updates eigh S alpha 1 rho Z U = (K, Z, U) ->
  K = Z /\ gl_optimum S alpha Z.
Proof.
move=> a0 r0 /(gl_step a0 r0) /step_fixed [e k].
split=> //; have := kkt_opt (fun x y => erefl) (fun x w => erefl) k.
by rewrite e.
Qed.

(** second order expansion of log det along a segment *)
Lemma ln_lower (x : R) : - (2%:R^-1) <= x -> x - 2%:R * x ^+ 2 <= ln (1 + x).
Proof.
move=> hx; have p : 0 < 1 + x by mclra.
have h := ln_le_sub1 (_ : 0 < (1 + x)^-1).
have {h} := h; rewrite invr_gt0 => /(_ p).
have -> : ln (1 + x)^-1 = - ln (1 + x) by rewrite RinvE' ln_Rinv //; apply/RltP.
have -> : (1 + x)^-1 = 1 - x / (1 + x).
  have pn : 1 + x != 0 by apply: lt0r_neq0.
  by mcfield.
have h2 : x - 2%:R * x ^+ 2 <= x / (1 + x).
  rewrite ler_pdivl_mulr //; toR; nra.
by move: h2; move: (x / (1 + x)) (ln (1 + x)) => u v h2 h; clear -h h2; mclra.
Qed.

Lemma psd_le_sconj (m : 'rV[R]_n) : exists c, 0 < c /\ forall i, `|m 0 i| <= c.
Proof.
exists (1 + \sum_i `|m 0 i|); split.
  by apply: ltr_paddr; [apply: sumr_ge0 | exact: ltr01].
move=> i; rewrite (bigD1 i) //= addrCA ler_addl; apply: addr_ge0; first exact: ler01.
exact: sumr_ge0.
Qed.

Lemma logdet_expand K E : pd K -> sym E -> exists C delta, [/\ 0 < delta, 0 <= C &
  forall t, 0 < t -> t <= delta -> pd (K + t *: E) /\
    logdet K + t * \tr (invmx K *m E) - C * t ^+ 2 <= logdet (K + t *: E)].
Proof.
move=> pK sE; have [T [pT eT]] := pd_sqrt pK; have uT := pd_unit pT.
have sT := pd_sym pT.
have [M defM] : {M | M = invmx T *m E *m invmx T} by eexists.
have sM : sym M.
  by rewrite defM /sym !trmx_mul trmx_inv sT sE mulmxA.
have [Q [m [oQ eM]]] := spectral sM.
have [c [c0 hc]] := psd_le_sconj m.
have eE : E = T *m M *m T.
  by rewrite defM !mulmxA mulmxV // mul1mx -mulmxA mulVmx // mulmx1.
exists (2%:R * \sum_i m 0 i ^+ 2), (2%:R * c)^-1; split.
- by rewrite invr_gt0; apply: mulr_gt0 => //; mclra.
- by apply: mulr_ge0; [mclra | apply: sumr_ge0 => i _; apply: sqr_ge0].
move=> t t0 td.
have htm i : - (2%:R^-1) <= t * m 0 i.
  have h1 : `|t * m 0 i| <= 2%:R^-1.
    rewrite normrM (gtr0_norm t0); apply: le_trans (_ : (2%:R * c)^-1 * c <= _).
      by apply: ler_pmul => //; apply: ltW.
    by rewrite invfM -mulrA mulVf ?mulr1 // lt0r_neq0.
  by have := ler_norm (- (t * m 0 i)); rewrite normrN => h2; clear -h1 h2; mclra.
have eN : K + t *: E = T *m sconj Q (\row_i (1 + t * m 0 i)) *m T^T.
  have -> : sconj Q (\row_i (1 + t * m 0 i)) = 1%:M + t *: M.
    rewrite eM -/(sconj Q m) -sconjZ -(sconj1 oQ) -sconjD; congr sconj.
    by apply/rowP => i; rewrite !mxE.
  by rewrite sT mulmxDr mulmxDl mulmx1 eT -scalemxAr -scalemxAl -eE.
have pos i : 0 < (\row_i (1 + t * m 0 i) : 'rV[R]_n) 0 i.
  by rewrite mxE; have := htm i; move: (t * m 0 i) => x h; clear -h; mclra.
have pN : pd (sconj Q (\row_i (1 + t * m 0 i))) by apply: pd_sconj.
split; first by rewrite eN; apply: pd_conj.
have -> : logdet (K + t *: E) = logdet K + \sum_i ln (1 + t * m 0 i).
  have dS : \det (K + t *: E) = \det K * \prod_i (1 + t * m 0 i).
    rewrite eN det_mulmx det_mulmx det_tr sconj_det // mulrAC -eT det_mulmx; congr (_ * _).
    by apply: eq_bigr => i _; rewrite mxE.
  have pos' i : 0 < 1 + t * m 0 i by have := pos i; rewrite mxE.
  rewrite /logdet dS RmulE ln_mult //; last 2 first.
  - by apply/RltP; apply: pd_det_gt0.
  - by apply/RltP; apply: prodr_gt0.
  by rewrite ln_prod.
have -> : \tr (invmx K *m E) = \sum_i m 0 i.
  have -> : \tr (invmx K *m E) = \tr M.
    rewrite defM [RHS]mxtrace_mulC mulmxA; congr (\tr (_ *m _)).
    have uK := pd_unit pK.
    have e1 : (invmx T *m invmx T) *m K = 1%:M.
      by rewrite -eT mulmxA -(mulmxA (invmx T)) mulVmx // mulmx1 mulVmx.
    by rewrite -[RHS]mulmx1 -(mulmxV uK) mulmxA e1 mul1mx.
  by rewrite eM -/(sconj Q m) sconj_tr.
rewrite -addrA ler_add2l mulr_sumr mulr_sumr mulr_suml -sumrB.
apply: ler_sum => i _; have := ln_lower (htm i).
by move: (ln _) => l; move: (m 0 i) => x h; clear -h; mclra.
Qed.

Lemma le0_lim_delta (a b delta : R) : 0 < delta ->
  (forall t, 0 < t -> t <= delta -> 0 <= a + t * b) -> 0 <= a.
Proof.
move=> d0 h; apply: (@le0_lim _ (delta * b)) => t t0 t1.
rewrite mulrA; apply: h; first exact: mulr_gt0.
by rewrite ler_pimull // ltW.
Qed.

(** first order optimality for f + g, g convex on symmetric matrices *)
Lemma opt_subgrad (g : 'M[R]_n -> R) K :
  convex_on (@sym n) g -> minimiser (@pd n) (fun X => gl_f X + g X) K ->
  forall Y, sym Y -> g K + fdot (invmx K - S) (Y - K) <= g Y.
Proof.
move=> cg [pK hK] Y sY; have sK := pd_sym pK.
have sE : sym (Y - K) by apply: symB.
have [C [delta [d0 C0 hx]]] := logdet_expand pK sE.
rewrite -subr_ge0; have d1 : 0 < np_min 1 delta.
  by rewrite /np_min; case: ifP => _ //; exact: ltr01.
apply: (@le0_lim_delta _ C (np_min 1 delta)) => // t t0 td.
have [t1 t2] : t <= 1 /\ t <= delta.
  move: td; rewrite /np_min; case: (ltrP delta 1) => h td; split=> //.
    by apply: le_trans td _; apply: ltW.
  exact: le_trans td h.
have [pN hN] := hx _ t0 t2.
have [_ hg] := cg _ _ _ sK sY t0 t1.
have := hK _ pN; rewrite /gl_f !tr_fdot //.
rewrite tr_fdot in hN; last exact: sym_inv.
rewrite fdotDr fdotZr (fdotBl (invmx K)).
rewrite -(pmulr_rge0 _ t0).
move: hN hg; move: (logdet _) (logdet _) (fdot S K) (fdot S (Y - K)) (fdot (invmx K) (Y - K)).
move: (g K) (g Y) (g (K + _)) => gK gY gN lK lN sk se ie hN hg h.
have -> : t * (gY - (gK + (ie - se)) + t * C) =
  ((1 - t) * gK + t * gY) - gK - t * ie + t * se + C * t ^+ 2 by mcring.
by clear -hN hg h; mclra.
Qed.

Lemma l1odZ c (X : 'M[R]_n) : 0 <= c -> l1od (c *: X) = c * l1od X.
Proof.
move=> c0; rewrite /l1od mulr_sumr; apply: eq_bigr => i _; rewrite mulr_sumr.
by apply: eq_bigr => j _; rewrite mxE normrM ger0_norm.
Qed.
Lemma l1odD (X Y : 'M[R]_n) : l1od (X + Y) <= l1od X + l1od Y.
Proof.
rewrite /l1od -big_split; apply: ler_sum => i _; rewrite -big_split.
by apply: ler_sum => j _; rewrite mxE; apply: ler_norm_add.
Qed.
Lemma l1od_convex alpha (D : 'M[R]_n -> Prop) : 0 <= alpha -> (forall X Y t, D X -> D Y -> D (X + t *: (Y - X))) ->
  convex_on D (fun X : 'M[R]_n => alpha * l1od X).
Proof.
move=> a0 hD X Y t DX DY t0 t1; split; first exact: hD.
have -> : X + t *: (Y - X) = (1 - t) *: X + t *: Y by lin.
rewrite !(mulrCA _ alpha) -mulrDr; apply: ler_wpmul2l => //.
apply: le_trans (l1odD _ _) _.
by rewrite !l1odZ // ?subr_ge0 // ltW.
Qed.

(** every optimum has a multiplier, and is left unchanged by an iteration *)
Lemma l1od_half (W : 'M[R]_n) : l1od (2%:R^-1 *: (W + W^T)) <= l1od W.
Proof.
rewrite l1odZ; last by mclra.
have h := l1odD W W^T.
have e : l1od W^T = l1od W.
  rewrite !l1odE exchange_big; apply: eq_bigr => i _; apply: eq_bigr => j _.
  by rewrite mxE eq_sym.
by rewrite e in h; move: h; move: (l1od _) (l1od _) => x y h; mclra.
Qed.

Lemma l1od_subgrad_all alpha K G : 0 <= alpha -> sym K -> sym G ->
  (forall Y, sym Y -> alpha * l1od K + fdot G (Y - K) <= alpha * l1od Y) ->
  forall Y, alpha * l1od K + fdot G (Y - K) <= alpha * l1od Y.
Proof.
move=> a0 sK sG h Y; have := h _ (sym_halfsum Y).
rewrite (fdotBr _ _ G) (fdotC G) fdot_asym // (fdotC Y) -fdotBr => h1.
by apply: le_trans h1 _; apply: ler_wpmul2l => //; apply: l1od_half.
Qed.

Lemma gl_f_subg K Y : pd K -> pd Y -> gl_f K + fdot (S - invmx K) (Y - K) <= gl_f Y.
Proof.
move=> pK pY; rewrite /gl_f !tr_fdot //.
have := logdet_tangent pK pY; rewrite tr_fdot; last by apply: sym_inv; apply: pd_sym.
rewrite fdotBl (fdotBr _ _ S).
by move: (logdet _) (logdet _) (fdot _ _) (fdot _ _) (fdot _ _) => a b c e d h; mclra.
Qed.

Lemma gl_kkt alpha rho K : 0 <= alpha -> 0 < rho -> gl_optimum S alpha K ->
  gkkt alpha rho K (rho^-1 *: (invmx K - S)).
Proof.
move=> a0 r0 mK; have pK := proj1 mK; have sK := pd_sym pK.
have rn : rho != 0 by apply: lt0r_neq0.
split.
  split=> // Y pY; rewrite /= scalerA mulNr mulfV // scaleN1r opprB.
  exact: gl_f_subg.
move=> Y /=; rewrite scalerA mulfV // scale1r.
apply: l1od_subgrad_all => //; first by apply: symB => //; apply: sym_inv.
apply: opt_subgrad => //; apply: l1od_convex => // X Z t sX sZ.
by apply: symD => //; apply: symZ; apply: symB.
Qed.

Lemma gl_opt_fixed alpha rho K : 0 <= alpha -> 0 < rho -> gl_optimum S alpha K ->
  let U := rho^-1 *: (invmx K - S) in
  gl_updates eigh S alpha 1 rho K U = (K, K, U).
Proof.
move=> a0 r0 mK; have [[pK _] kg] := gl_kkt a0 r0 mK.
rewrite /=; set U := rho^-1 *: _ in kg *; rewrite /gl_updates.
have rn : rho != 0 by apply: lt0r_neq0.
have sK := pd_sym pK.
have sU : sym U by apply: symZ; apply: symB => //; apply: sym_inv.
have eA : gl_A K U = K - U.
  rewrite /gl_A (symB sK sU).
  by move: (K - U) => X; lin.
have eK : prox_logdet eigh (S - rho *: gl_A K U) (1 / rho) = K.
  rewrite div1r; apply: (prox_logdet_char He) => //.
  - exact: gl_sSA.
  - by rewrite invr_gt0.
  rewrite invrK eA scalerBr /U scalerA mulfV // scale1r.
  by move: (invmx K) (rho *: K) => X Y; lin.
rewrite eK subrr scale0r subr0 scale1r.
have eZ : soft_thresholding_off_diagonal (K + U) (alpha / rho) = K.
  have l0 : 0 <= alpha / rho by apply: divr_ge0 => //; apply: ltW.
  apply: (unique_min_eq (sod_unique (K + U) l0)).
  apply: subgrad_unique => Y; have h := kg Y; rewrite /= fdotZl in h.
  rewrite -(ler_pmul2l r0) mulrDr !(mulrA rho (alpha / rho)).
  have -> : rho * (alpha / rho) = alpha by rewrite mulrCA mulfV ?mulr1.
  by have -> : K + U - K = U by lin.
by rewrite eZ subrr addr0.
Qed.
Lemma gl_opt_diag alpha K i : 0 <= alpha -> gl_optimum S alpha K -> invmx K i i = S i i.
Proof.
move=> a0 mK; have [_ kg] := gl_kkt a0 (ltr01 : 0 < (1 : R)) mK.
have h t : 0 <= - (t * (invmx K i i - S i i)).
  have := kg (K + t *: delta_mx i i) => /=.
  have -> : l1od (K + t *: delta_mx i i) = l1od K.
    rewrite !l1odE; apply: eq_bigr => a _; apply: eq_bigr => b _.
    case: eqP => // ab; rewrite !mxE; case: eqP => [ai|_]; last by rewrite mulr0 addr0.
    by case: eqP => [e|_]; [case: ab; rewrite e ai | rewrite mulr0 addr0].
  rewrite invr1 !scale1r (_ : K + _ - K = t *: delta_mx i i); last by lin.
  rewrite fdotZr.
  have -> : fdot (invmx K - S) (delta_mx i i) = invmx K i i - S i i.
    rewrite /fdot (bigD1 i) //= (bigD1 i) //= !big1 ?addr0; first by rewrite !mxE !eqxx mulr1.
      by move=> a ai; rewrite big1 // => b _; rewrite [X in _ * X]mxE (negbTE ai) mulr0.
    by move=> a ai; rewrite [X in _ * X]mxE (negbTE ai) andbF mulr0.
  by move: (_ - S i i) (alpha * _) => x y h; mclra.
have h1 := h 1; have h2 := h (-1).
by move: h1 h2; move: (invmx K i i) (S i i) => x y h1 h2; mclra.
Qed.

(** * over-relaxation *)
Lemma gl_relax_fixed alpha om rho Z U K : 0 < rho -> 1 < om -> om < 2%:R ->
  gl_updates eigh S alpha om rho Z U = (K, Z, U) ->
  [/\ pd K, Z = (om / (2%:R - om)) *: K &
    forall i, invmx K i i = S i i - rho * (om / (2%:R - om) - 1) * K i i].
Proof.
move=> r0 o1 o2 e; have pK := gl_K_pd alpha om Z U r0; rewrite e /= in pK.
case: e; rewrite div1r; set A := gl_A Z U => eK; rewrite eK => eZ eU.
have on : 2%:R - om != 0 :> R by rewrite subr_eq0 eq_sym lt_eqF.
have eH : om *: K - (1 - om) *: Z = Z.
  move: eU; rewrite eZ; move: (om *: K - _) => H h.
  have -> : H = (U + (H - Z)) - U + Z by lin.
  by rewrite h; lin.
have eZK : Z = (om / (2%:R - om)) *: K.
  apply: (scalerI on); rewrite scalerA mulrCA mulfV // mulr1.
  have -> : om *: K = (om *: K - (1 - om) *: Z) + (1 - om) *: Z by lin.
  rewrite {1}eH; move: (om) => o; by lin.
have dU i : U i i = 0.
  have := sod_diag (om *: K - (1 - om) *: Z + U) (alpha / rho) i.
  rewrite eZ eH mxE => h.
  by apply: (@addrI _ (Z i i)); rewrite -h addr0.
split=> // i.
have rv : 0 < rho^-1 by rewrite invr_gt0.
have [_] := prox_logdet_spec He (gl_sSA Z U rho) rv; rewrite eK invrK => ->.
rewrite /gl_A !mxE !dU eZK !mxE.
by move: (S i i) (om / _) (K i i) => s c k; mcfield.
Qed.

Lemma gl_relax_not_opt alpha om rho Z U K (i0 : 'I_n) : 0 <= alpha -> 0 < rho ->
  1 < om -> om < 2%:R ->
  gl_updates eigh S alpha om rho Z U = (K, Z, U) ->
  ~ gl_optimum S alpha Z /\ ~ gl_optimum S alpha K.
Proof.
move=> a0 r0 o1 o2 /(gl_relax_fixed r0 o1 o2) [pK eZ hK].
have c1 : 1 < om / (2%:R - om).
  by rewrite ltr_pdivl_mulr; mclra.
move: eZ hK c1; move: (om / _) => c eZ hK c1.
have cn : c != 0 by apply: lt0r_neq0; mclra.
have k0 := pd_diag_gt0 i0 pK; have ki := pd_diag_gt0 i0 (pd_inv pK).
have hk := hK i0.
split=> m; have := gl_opt_diag i0 a0 m.
  rewrite eZ invmxZ; last by rewrite unitmxZ ?unitfE //; apply: pd_unit.
  rewrite mxE => h.
  have e : invmx K i0 i0 = c * S i0 i0 by rewrite -h mulrA mulfV ?mul1r.
  have s0 : 0 < S i0 i0 by rewrite -h; apply: mulr_gt0 => //; rewrite invr_gt0; mclra.
  move: e; rewrite hk; move: s0 k0; move: (S i0 i0) (K i0 i0) => s k s0 k0 e.
  have : 0 < (c - 1) * s by apply: mulr_gt0 => //; mclra.
  have : 0 < rho * (c - 1) * k by apply: mulr_gt0 => //; apply: mulr_gt0 => //; mclra.
  by move=> h1 h2; clear -e h1 h2; mclra.
rewrite hk; have : 0 < rho * (c - 1) * K i0 i0 by apply: mulr_gt0 => //; apply: mulr_gt0 => //; mclra.
by move: (S i0 i0) (rho * _ * _) => s k h1 h2; mclra.
Qed.

(** * the loop *)
Section LoopGL.
Variable p : gl_params.
Hypothesis rho0 : 0 < gl_rho0 p.
Hypothesis ti : 0 < tau_inc (gl_rho_options p).
Hypothesis td : 0 < tau_dec (gl_rho_options p).

Local Opaque gl_updates.
Local Notation body := (gl_body eigh S p).
Local Notation upd s := (gl_updates eigh S (gl_alpha p) (gl_over_relax p) (gl_rho s) (gl_Z s) (gl_U s)).

Lemma gl_body_state j s : let r := upd s in
  exists rho' c, [/\ 0 < gl_rho s -> 0 < rho',
    out_state (body j s).1 = GLState r.1.2 (c *: r.2) r.1.2 rho' r.1.1 &
    is_break (body j s).1 -> rho' = gl_rho s /\ c = 1].
Proof.
rewrite /= /gl_body; case: (gl_updates _ _ _ _ _ _ _) => [[K Z] U] /=.
case: (stop_test _) => /=; first by exists (gl_rho s), 1; split=> //; rewrite scale1r.
set r' := update_rho _ _ _ _; exists r', (gl_rho s / r'); split=> //.
by move=> h; apply: rho_pos.
Qed.

(** C12 *)
Lemma gl_loop_sym st : 0 < gl_rho st -> sym (gl_U st) -> gl_over_relax p = 1 \/ sym (gl_Z st) ->
  (0 < gl_max_iter p)%N -> let e := gl_loop eigh S p st in
  sym (gl_Z (le_state e)) /\ pd (gl_K (le_state e)).
Proof.
move=> r0 sU sZ m0; rewrite /gl_loop /=.
pose I (s : gl_state n) := [/\ 0 < gl_rho s, sym (gl_U s) & gl_over_relax p = 1 \/ sym (gl_Z s)].
pose Q (s : gl_state n) := sym (gl_Z s) /\ pd (gl_K s).
apply: (@py_for_post _ _ body I Q) => // j s [rs su sz].
have [rho' [c [rp -> _]]] := gl_body_state j s.
have [h1 h2] := gl_sym_gen (gl_alpha p) rs su sz.
split; first by split=> /=; [apply: rp | apply: symZ | right].
by split=> //=; apply: gl_K_pd.
Qed.

Lemma gl_loop_diag st i : 0 < gl_rho st -> gl_over_relax p = 1 -> (forall i, gl_U st i i = 0) ->
  (0 < gl_max_iter p)%N -> 0 < gl_Z (le_state (gl_loop eigh S p st)) i i.
Proof.
move=> r0 om dU m0; rewrite /gl_loop.
pose I (s : gl_state n) := 0 < gl_rho s /\ forall i, gl_U s i i = 0.
pose Q (s : gl_state n) := is_true (0 < gl_Z s i i).
apply: (@py_for_post _ _ body I Q) => // j s [rs du].
have [rho' [c [rp -> _]]] := gl_body_state j s; rewrite om.
split; last by case: (gl_diag (gl_alpha p) (gl_Z s) i rs du).
split=> /=; first exact: rp.
move=> k; case: (gl_diag (gl_alpha p) (gl_Z s) k rs du) => _ h.
by rewrite mxE h mulr0.
Qed.

(** C14: constant rho *)
Section Const.
Hypothesis om1 : gl_over_relax p = 1.
Hypothesis ti1 : tau_inc (gl_rho_options p) = 1.
Hypothesis td1 : tau_dec (gl_rho_options p) = 1.
Hypothesis a0 : 0 <= gl_alpha p.

Lemma rho_const r a b : update_rho (gl_rho_options p) r a b = r.
Proof. by rewrite /update_rho ti1 td1 mul1r divr1; case: ifP => //; case: ifP. Qed.

Lemma gl_body_const j s : 0 < gl_rho s -> let r := upd s in
  out_state (body j s).1 = GLState r.1.2 r.2 r.1.2 (gl_rho s) r.1.1.
Proof.
move=> rs; rewrite /= /gl_body; case: (gl_updates _ _ _ _ _ _ _) => [[K Z] U] /=.
by case: (stop_test _) => //=; rewrite rho_const divff ?scale1r // lt0r_neq0.
Qed.

Lemma gl_break1 j s : 0 < gl_rho s -> gl_Zold s = gl_Z s -> 0 <= gl_rtol p -> 0 <= gl_tol p ->
  let r := upd s in
  fnorm2 (r.2 - gl_U s) <= (n%:R * gl_tol p) ^+ 2 ->
  gl_rho s ^+ 2 * fnorm2 (r.1.2 - gl_Z s) <= (n%:R * gl_tol p) ^+ 2 ->
  is_break (body j s).1.
Proof.
move=> rs old rt0 t0 /=; rewrite /gl_body.
case E: (gl_updates _ _ _ _ _ _ _) => [[K Z] U] /= h1 h2.
rewrite om1 in E; have [_ _ eU] := gl_step a0 rs E.
have nt0 : 0 <= n%:R * gl_tol p by apply: mulr_ge0 => //; apply: ler0n.
have sq : sqrt (n * n)%:R = n%:R :> R by rewrite natrM sqrt_square //; apply/RleP; apply: ler0n.
case: (boolP (stop_test _)) => //= /negP [].
rewrite /stop_test /= sq old !np_normE; apply/andP; split.
- apply: le_trans (_ : n%:R * gl_tol p <= _); last first.
    rewrite ler_addl; apply: mulr_ge0 => //.
    by apply: le_trans (proj1 (np_max_ge _ _)); apply: fnorm_ge0.
  rewrite -(@ler_pexpn2r _ 2) ?nnegrE ?fnorm_ge0 // fnorm_sqr.
  by move: h1; rewrite eU; congr (fnorm2 _ <= _); lin.
- apply: le_trans (_ : n%:R * gl_tol p <= _); last first.
    rewrite ler_addl; apply: mulr_ge0; last exact: fnorm_ge0.
    by apply: mulr_ge0 => //; apply: ltW.
  rewrite -(@ler_pexpn2r _ 2) ?nnegrE //; last by apply: mulr_ge0; [apply: ltW | apply: fnorm_ge0].
  by rewrite exprMn fnorm_sqr.
Qed.

Section Run.
Variable st : gl_state n.
Hypothesis rst : 0 < gl_rho st.
Local Notation it := (iter_state body 0 st).

Lemma it_rho k : gl_rho (it k) = gl_rho st.
Proof. by elim: k => //= k IH; rewrite gl_body_const IH. Qed.

Lemma it_step k : step (gl_alpha p) (gl_rho st) (gl_Z (it k)) (gl_U (it k)) (gl_K (it k.+1))
  (gl_Z (it k.+1)) (gl_U (it k.+1)).
Proof.
have rk : 0 < gl_rho (it k) by rewrite it_rho.
apply: gl_step => //; rewrite /= gl_body_const // -(it_rho k) -om1 /=.
by case: (gl_updates _ _ _ _ _ _ _) => [[]].
Qed.

Lemma it_old k : gl_Zold (it k.+1) = gl_Z (it k.+1).
Proof. by rewrite /= gl_body_const // it_rho. Qed.

Lemma gl_break k : 0 <= gl_rtol p -> 0 <= gl_tol p ->
  fnorm2 (gl_U (it k.+2) - gl_U (it k.+1)) <= (n%:R * gl_tol p) ^+ 2 ->
  gl_rho st ^+ 2 * fnorm2 (gl_Z (it k.+2) - gl_Z (it k.+1)) <= (n%:R * gl_tol p) ^+ 2 ->
  is_break (body k.+1 (it k.+1)).1.
Proof.
move=> rt0 t0 h1 h2; have rs : 0 < gl_rho (it k.+1) by rewrite it_rho.
have e := gl_body_const (0 + k.+1) rs.
have e2 : it k.+2 = out_state (body (0 + k.+1) (it k.+1)).1 by [].
rewrite e2 e in h1; rewrite e2 e -(it_rho k.+1) in h2.
move: (it_old k) rs h1 h2 => old; move: (it k.+1) old => s1 old rs h1 h2.
exact: gl_break1.
Qed.

Lemma gl_nowarn Ko N : gl_optimum S (gl_alpha p) Ko -> 0 <= gl_rtol p -> 0 < n%:R * gl_tol p ->
  (0 < N)%N -> (N < gl_max_iter p)%N ->
  let d := fnorm2 (gl_U st - (gl_rho st)^-1 *: (invmx Ko - S)) + fnorm2 (gl_Z st - Ko) in
  d <= (n%:R * gl_tol p) ^+ 2 * N%:R -> (gl_rho st) ^+ 2 * d <= (n%:R * gl_tol p) ^+ 2 * N%:R ->
  ~~ le_else (gl_loop eigh S p st).
Proof.
move=> mK rt0 nt0 N0 Nm d h1 h2.
have t0 : 0 <= gl_tol p.
  have [n0|//] := ltrP (gl_tol p) 0; move: nt0; rewrite ltNge.
  by rewrite mulr_ge0_le0 // ?ler0n // ltW.
have k := gl_kkt a0 rst mK.
have r2 : 0 < (gl_rho st) ^+ 2 by apply: exprn_gt0.
pose eps := np_min ((n%:R * gl_tol p) ^+ 2) ((n%:R * gl_tol p) ^+ 2 / (gl_rho st) ^+ 2).
have e2 : 0 < (n%:R * gl_tol p) ^+ 2 by apply: exprn_gt0.
have [e0 [el1 el2]] : 0 < eps /\ (eps <= (n%:R * gl_tol p) ^+ 2 /\
    eps <= (n%:R * gl_tol p) ^+ 2 / (gl_rho st) ^+ 2).
  have [m1 m2 m3] := np_minP ((n%:R * gl_tol p) ^+ 2) ((n%:R * gl_tol p) ^+ 2 / (gl_rho st) ^+ 2).
  by split=> //; case: m3 => e; rewrite /eps e // divr_gt0.
have dN : d <= eps * N%:R.
  have [_ _ [|]] := np_minP ((n%:R * gl_tol p) ^+ 2) ((n%:R * gl_tol p) ^+ 2 / (gl_rho st) ^+ 2).
    by rewrite /eps => ->.
  by rewrite /eps => ->; rewrite mulrAC ler_pdivl_mulr // (mulrC d).
have [j [/andP[j1 jN] s1 s2]] := run_small (fun x y => erefl) (fun x w => erefl) rst it_step k N0 e0 dN.
case: j j1 jN s1 s2 => // j _ jN s1 s2.
apply: (@py_for_nowarn _ _ _ _ _ _ _ _ j.+1); first exact: leq_ltn_trans jN Nm.
rewrite add0n; apply: gl_break => //; rewrite fnorm2E.
  exact: le_trans s1 el1.
by rewrite mulrC -ler_pdivl_mulr //; exact: le_trans s2 el2.
Qed.
End Run.
End Const.

(** C15 *)
Lemma gl_gap s j Y : gl_over_relax p = 1 -> 0 <= gl_alpha p -> 0 < gl_rho s -> gl_Zold s = gl_Z s ->
  pd Y -> let r := upd s in let c := (body j s).2 in
  gl_obj2 S (gl_alpha p) r.1.1 r.1.2 <= gl_obj S (gl_alpha p) Y
     + gl_rho s * fnorm r.2 * c_rnorm c + c_snorm c * fnorm (r.1.1 - Y).
Proof.
move=> om1 a0 rs old pY /=; rewrite /gl_body.
case E: (gl_updates _ _ _ _ _ _ _) => [[K Z] U] /=.
rewrite om1 in E; have stp := gl_step a0 rs E.
have -> c : (if stop_test c then (Break (GLState Z U Z (gl_rho s) K), c) else
   (Next (GLState Z ((gl_rho s / update_rho (gl_rho_options p) (gl_rho s) (c_rnorm c) (c_snorm c)) *: U) Z
   (update_rho (gl_rho_options p) (gl_rho s) (c_rnorm c) (c_snorm c)) K), c)).2 = c by case: ifP.
rewrite /= old !np_normE.
have h := step_gap (fun x y => erefl) (fun x w => erefl) stp pY.
have c1 := cauchy (mat_ip n n) U (K - Z); have c2 := cauchy (mat_ip n n) (Z - gl_Z s) (Y - K).
have eN (A B : 'M[R]_n) : nrm (mat_ip n n) A = fnorm A by rewrite /nrm /= -fnorm2E.
rewrite !eN // in c1 c2.
have eY : fnorm (Y - K) = fnorm (K - Y) by rewrite -opprB /fnorm fnorm2N.
rewrite eY in c2.
rewrite /gl_obj /gl_obj2.
have c1' : - (gl_rho s * fdot U (K - Z)) <= gl_rho s * fnorm U * fnorm (K - Z).
  rewrite -mulrN -mulrA; apply: ler_wpmul2l; first exact: ltW.
  by apply: le_trans c1; rewrite -normrN; apply: ler_norm.
have c2' : gl_rho s * fdot (Z - gl_Z s) (Y - K) <= gl_rho s * fnorm (Z - gl_Z s) * fnorm (K - Y).
  rewrite -mulrA; apply: ler_wpmul2l; first exact: ltW.
  by apply: le_trans c2; apply: ler_norm.
move: h; rewrite /gl_f /logdet /= => h.
by clear -h c1' c2'; mclra.
Qed.

Lemma gl_stop_gap st Y c0 : gl_over_relax p = 1 -> 0 <= gl_alpha p -> 0 < gl_rho st -> pd Y ->
  let e := gl_loop eigh S p st in let s := le_state e in let c := last c0 (le_checks e) in
  ~~ le_else e -> (1 < size (le_checks e))%N ->
  gl_obj2 S (gl_alpha p) (gl_K s) (gl_Z s) <= gl_obj S (gl_alpha p) Y
     + gl_rho s * fnorm (gl_U s) * c_rnorm c + c_snorm c * fnorm (gl_K s - Y).
Proof.
move=> om1 a0 rs pY /=; rewrite /gl_loop => h; have [k [-> hb -> ->]] := py_for_break c0 h.
rewrite ltnS => k0.
have [rk ok] : 0 < gl_rho (iter_state body 0 st k) /\
    gl_Zold (iter_state body 0 st k) = gl_Z (iter_state body 0 st k).
  case: k k0 {hb} => // k _; elim: k => [|k [IH1 IH2]].
    by have [rho' [c [h1 /= -> _]]] := gl_body_state 0 st; split=> //=; apply: h1.
  have [rho' [c [h1 h2 _]]] := gl_body_state (0 + k.+1) (iter_state body 0 st k.+1).
  rewrite [iter_state _ _ _ k.+2]/= in IH1 IH2 *; rewrite h2; split=> //=; exact: h1.
have [rho' [c [_ -> hc]]] := gl_body_state k (iter_state body 0 st k).
have [-> ->] := hc hb; rewrite scale1r /=.
exact: gl_gap.
Qed.
End LoopGL.
End GL.
