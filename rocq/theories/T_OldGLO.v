(** C184, C185: the retired group lasso solvers (regain/linear_model/_group_lasso_overlap_old_.py, group_lasso_overlap_.py:494-559). *)
From Coq Require Import Reals Lra.
From mathcomp Require Import all_ssreflect all_algebra.
From Verif Require Import RStruct RTac LinTac S_Mat RMx NP M_Utils M_OldGLO P_GLM5 P_OldGLO.
Import Order.TTheory GRing.Theory Num.Theory.

Set Implicit Arguments.
Unset Strict Implicit.
Unset Printing Implicit Defensive.
Local Open Scope ring_scope.

Lemma loop_near n (V : 'M[R]_n) D (q : 'cV[R]_n) (k T ts eps : R) : eps = (10%:R ^+ 6)^-1 ->
  (forall t : R, 0 < t -> 0 < fnorm (xu_point V D q t)) ->
  (forall t : R, 0 < t -> t <= T -> k < t * fnorm (xu_point V D q t) -> ts <= t) ->
  (forall t : R, 0 < t -> t <= T -> t * fnorm (xu_point V D q t) <= k -> t <= ts) ->
  forall fuel (lower upper : R) x, 0 <= lower -> lower < upper -> upper <= T -> lower <= ts -> ts <= upper -> (0 < fuel)%N ->
  upper - lower <= 2%:R ^+ fuel * eps ->
  exists t : R, [/\ 0 < t, t <= T, `|t - ts| <= eps & xu_loop V D q k fuel lower upper x = xu_point V D q t].
Proof.
move=> ee hp ha hb; elim=> [//|fuel IH] lower upper x l0 lu uT lt ut _ gap /=.
set t := (upper + lower) / 2%:R.
have [t1 t2] : lower < t /\ t < upper by rewrite /t; split; mclra.
have t0 := le_lt_trans l0 t1; have tT := ltW (lt_le_trans t2 uT); have e0 : 0 < eps by rewrite ee invr_gt0 exprn_gt0 // ltr0n.
have half1 : upper - t = (upper - lower) / 2%:R by rewrite /t; mcfield.
have half2 : t - lower = (upper - lower) / 2%:R by rewrite /t; mcfield.
have gap' : (upper - lower) / 2%:R <= 2%:R ^+ fuel * eps.
  by rewrite ler_pdivr_mulr ?ltr0n // mulrAC -exprSr.
rewrite -ee ltr_pdivr_mulr ?hp //; case h: (k < t * fnorm (xu_point V D q t)) => /=.
- have ts1 := ha _ t0 tT h; case: ifP => g.
    exists t; split=> //; rewrite ger0_norm ?subr_ge0 //; apply: le_trans g; by rewrite ler_sub.
  case: fuel IH gap gap' => [|fuel] IH gap gap'; first by rewrite half2 -[eps]mul1r gap' in g.
  by apply: IH => //; rewrite ?half2.
- have {}h : t * fnorm (xu_point V D q t) <= k by rewrite leNgt h.
  have ts1 := hb _ t0 tT h; case: ifP => g.
    exists t; split=> //; rewrite distrC ger0_norm ?subr_ge0 //; apply: le_trans g; by rewrite ler_sub.
  case: fuel IH gap gap' => [|fuel] IH gap gap'; first by rewrite half1 -[eps]mul1r gap' in g.
  by apply: IH => //; rewrite ?half1 // ltW.
Qed.

(** When |A^T b| <= kappa the update is 0, and 0 is a minimiser of the problem of the block. *)
Theorem C184_zero : forall m n (A : 'M[R]_(m, n)) b kappa V D, 0 <= kappa -> fnorm (A^T *m b) <= kappa ->
  x_update A b kappa V D = 0 /\ forall y, block_problem A b kappa 0 <= block_problem A b kappa y.
Proof.
move=> m n A b k V D k0 h; split; first by rewrite /x_update ltNge h.
exact: zero_min.
Qed.
Print Assumptions C184_zero.

(** Otherwise let xs be a minimiser; kappa / |xs| is its multiplier. The update is the exact minimiser of the problem with weight t |x| in
    place of kappa, where t is within 1e-6 of the multiplier of xs, or of 1e10 if that is smaller. *)
Theorem C184_near : forall m n (A : 'M[R]_(m, n)) b kappa V D, V^T *m V = 1%:M -> A^T *m A = V *m diag_mx D *m V^T ->
  0 <= kappa -> kappa < fnorm (A^T *m b) ->
  forall xs, (forall y, block_problem A b kappa xs <= block_problem A b kappa y) ->
  exists t : R, [/\ 0 < t, (forall y, block_problem A b (t * fnorm (x_update A b kappa V D)) (x_update A b kappa V D) <=
                                  block_problem A b (t * fnorm (x_update A b kappa V D)) y),
    A^T *m (A *m x_update A b kappa V D - b) + t *: x_update A b kappa V D = 0,
    `|t - Num.min (kappa / fnorm xs) (10%:R ^+ 10)| <= (10%:R ^+ 6)^-1 &
    kappa / fnorm xs <= 10%:R ^+ 10 -> t * fnorm (x_update A b kappa V D - xs) <= (10%:R ^+ 6)^-1 * fnorm xs].
Proof.
move=> m n A b k V D VV AV k0 hk xs hm.
have xn : xs != 0 by apply/eqP => e; apply: (zero_not_min k0 hk); rewrite -e.
have st := min_stationary xn hm k0; have xp := fnorm_pos xn; pose ts := k / fnorm xs.
have qp : 0 < fnorm (A^T *m b) := le_lt_trans k0 hk.
have qn : A^T *m b != 0 by apply/eqP => e; move: qp; rewrite e /fnorm fnorm2_0 sqrt_0 ltxx.
have hp (t : R) : 0 < t -> 0 < fnorm (xu_point V D (A^T *m b) t).
  move=> t0; apply: fnorm_pos; apply/eqP => e; have := point_solves b VV AV t0; rewrite e !mulmx0 scaler0 addr0 => e'.
  by rewrite -e' eqxx in qn.
have pos (t : R) : 0 < t -> 0 <= t * fnorm (xu_point V D (A^T *m b) t) by move=> t0; rewrite mulr_ge0 ?fnorm_ge0 // ltW.
have ts0 : 0 <= ts by rewrite divr_ge0 // ltW.
have prod : ts * fnorm xs = k by rewrite /ts divfK // gt_eqF.
have xsE : 0 < ts -> xs = xu_point V D (A^T *m b) ts by move=> p; apply: (solution_unique p st); exact: point_solves.
have ha (t : R) : 0 < t -> k < t * fnorm (xu_point V D (A^T *m b) t) -> ts <= t.
  move=> t0 h; rewrite leNgt; apply/negP => lt; have p := lt_trans t0 lt.
  have := phi2_mono b VV AV t0 (ltW lt); rewrite !phi2E // -xsE // prod ler_pexpn2r ?nnegrE ?pos //.
  by rewrite leNgt h.
have hb (t : R) : 0 < t -> t * fnorm (xu_point V D (A^T *m b) t) <= k -> t <= ts.
  move=> t0 h; rewrite leNgt; apply/negP => lt.
  have kp : 0 < k by apply: lt_le_trans h; rewrite mulr_gt0 // hp.
  have p : 0 < ts by rewrite divr_gt0.
  have e : phi2 A b V D ts = fnorm2 (A^T *m b).
    apply: (phi2_strict VV AV p lt); rewrite !phi2E // -xsE // prod ler_pexpn2r ?nnegrE ?pos //.
  move: e; rewrite phi2E // -xsE // prod -fnorm_sqr => /eqP; rewrite eqf_sqr => /orP [/eqP e|/eqP e].
    by rewrite -e ltxx in hk.
  by move: kp; rewrite e oppr_gt0 ltNge ltW.
have big : 0 < 10%:R ^+ 10 :> R by rewrite exprn_gt0 // ltr0n.
pose tc := Num.min ts (10%:R ^+ 10).
have [||||||t [t0 tT near e]] := @loop_near n V D (A^T *m b) k (10%:R ^+ 10) tc _ (erefl _) hp _ _ 100 0 (10%:R ^+ 10) 0 (lexx 0) big (lexx _).
- by move=> t t0 tT h; rewrite /tc le_minl ha.
- by move=> t t0 tT h; rewrite /tc le_minr hb.
- by rewrite /tc le_minr ts0 ltW.
- by rewrite /tc le_minl lexx orbT.
- by [].
- rewrite subr0 ler_pdivl_mulr ?exprn_gt0 ?ltr0n // -exprD.
  have -> : 2%:R ^+ 100 = (2%:R ^+ 4) ^+ (10 + 6) * 2%:R ^+ 36 :> R by rewrite -exprM -exprD.
  have h1 : 10%:R ^+ (10 + 6) <= (2%:R ^+ 4) ^+ (10 + 6) :> R.
    by rewrite ler_expn2r ?nnegrE ?exprn_ge0 ?ler0n // -natrX ler_nat.
  have h2 : 1 <= 2%:R ^+ 36 :> R by rewrite exprn_ege1 // ler1n.
  by apply: le_trans h1 _; rewrite ler_pemulr // exprn_ge0 // exprn_ge0 // ler0n.
have xE : x_update A b k V D = xu_point V D (A^T *m b) t by rewrite /x_update hk e.
have sol := point_solves b VV AV t0; rewrite -xE in sol; exists t; split=> //.
- by move=> y; exact: (stationary_min _ (ltW t0) sol).
- by rewrite mulmxBr -{1}sol; lin.
move=> small; apply: le_trans (solution_gap (ltW t0) sol st) _; rewrite ler_wpmul2r ?fnorm_ge0 // distrC.
by move: near; rewrite /tc min_l.
Qed.
Print Assumptions C184_near.

(** With a larger multiplier, t stops at 1e10 and the update is as wrong as one likes. *)
Theorem C184_cap_refuted : forall B : R, 0 <= B -> exists (b : 'cV[R]_1) (kappa : R) (xs : 'cV[R]_1), [/\ 0 <= kappa, kappa < fnorm (1%:M^T *m b),
  (forall y, block_problem 1%:M b kappa xs <= block_problem 1%:M b kappa y) & B < fnorm (x_update 1%:M b kappa 1%:M (const_mx 1) - xs)].
Proof.
move=> B B0; pose T : R := 10%:R ^+ 10; pose c : R := (B + 1) * T ^+ 2.
have T10 : 10%:R <= T by rewrite -[10%:R]expr1 /T ler_eexpn2l // ltr1n.
have eps1 : (10%:R ^+ 6)^-1 <= 1 :> R by rewrite invf_le1 ?exprn_gt0 ?ltr0n // exprn_ege1 // ler1n.
have T0 : 0 < T by apply: lt_le_trans T10; rewrite ltr0n.
have B1 : 0 < B + 1 by rewrite ltr_paddl ?ltr01.
have c0 : 0 < c by rewrite mulr_gt0 // exprn_gt0.
have fs (v : R) : 0 <= v -> fnorm (const_mx v : 'cV[R]_1) = v.
  by move=> v0; rewrite /fnorm /fnorm2 !big_ord1 mxE RsqrE sqrt_square //; exact/RleP.
pose xs : 'cV[R]_1 := const_mx (B + 1); pose b : 'cV[R]_1 := const_mx (c + (B + 1)).
have qE : (1%:M : 'M[R]_1)^T *m b = b by rewrite trmx1 mul1mx.
have st : (1%:M : 'M[R]_1)^T *m (1%:M *m xs) + (T ^+ 2) *: xs = 1%:M^T *m b.
  rewrite qE trmx1 !mul1mx; apply/matrixP=> i j; rewrite !mxE /c; by mcring.
have kE : T ^+ 2 * fnorm xs = c by rewrite fs ?ltW // mulrC.
have hm (y : 'cV[R]_1) : block_problem 1%:M b c xs <= block_problem 1%:M b c y.
  by rewrite -kE; apply: (stationary_min y _ st); rewrite sqr_ge0.
have hk : c < fnorm (1%:M^T *m b) by rewrite qE fs ?ltr_addl // addr_ge0 ?ltW.
have h0 := ltW c0.
exists b, c, xs; split=> //.
have VV : (1%:M : 'M[R]_1)^T *m 1%:M = 1%:M by rewrite trmx1 mul1mx.
have AV : (1%:M : 'M[R]_1)^T *m 1%:M = 1%:M *m diag_mx (const_mx 1) *m 1%:M^T by rewrite diag_const_mx VV trmx1 !mul1mx.
have [t [t0 _ + near _]] := C184_near VV AV h0 hk hm.
set x := x_update _ _ _ _ _; rewrite trmx1 !mul1mx => e.
have {}e : (1 + t) * x 0 0 = c + (B + 1).
  move/matrixP: e => /(_ 0 0); rewrite !mxE => /eqP; rewrite -addrA addrCA addrC subr_eq add0r => /eqP <-; by rewrite mulrDl mul1r.
have tT : t <= T + 1.
  have TT (v : R) : 10%:R <= v -> v <= v ^+ 2 by move=> hv; mcnra.
  have xsp : fnorm xs != 0 by rewrite fs ?gt_eqF // ltW.
  move: near; rewrite min_r; last by rewrite -kE mulfK //; exact: TT.
  rewrite -/T ler_norml => /andP [_ h]; move: (le_trans h eps1); by rewrite ler_subl_addl.
have big : 3%:R * (B + 1) <= x 0 0.
  have p : 0 < 1 + t by rewrite ltr_paddr ?ltr01 // ltW.
  rewrite -(ler_pmul2l p) e /c; have num (u v w : R) : 0 < u -> 10%:R <= v -> w <= v + 1 -> 0 < w -> (1 + w) * (3%:R * u) <= u * v ^+ 2 + u.
    move=> u0 v0 w0 w1; have -> : u * v ^+ 2 + u = (v ^+ 2 + 1) * u by mcring.
    have -> : (1 + w) * (3%:R * u) = (3%:R + 3%:R * w) * u by mcring.
    rewrite ler_pmul2r //; by mcnra.
  exact: num.
have -> : x - xs = const_mx (x 0 0 - (B + 1)) by apply/matrixP=> i j; rewrite !mxE !ord1.
rewrite fs; last by mclra.
by mclra.
Qed.
Print Assumptions C184_cap_refuted.

(** A case: A = 1, b = 3, kappa = 1. The solution is 2, with multiplier 1/2. *)
Example C184_case : [/\ (1%:M : 'M[R]_1)^T *m 1%:M = 1%:M, (1%:M : 'M[R]_1)^T *m 1%:M = 1%:M *m diag_mx (const_mx 1) *m 1%:M^T,
  1 < fnorm ((1%:M : 'M[R]_1)^T *m const_mx 3%:R : 'cV[R]_1) &
  forall y : 'cV[R]_1, block_problem (1%:M : 'M[R]_1) (const_mx 3%:R) 1 (const_mx 2%:R) <= block_problem (1%:M : 'M[R]_1) (const_mx 3%:R) 1 y].
Proof.
have fs (v : R) : 0 <= v -> fnorm (const_mx v : 'cV[R]_1) = v.
  by move=> v0; rewrite /fnorm /fnorm2 !big_ord1 mxE RsqrE sqrt_square //; exact/RleP.
split; rewrite ?diag_const_mx ?trmx1 ?mul1mx ?fs ?ler0n //; first by rewrite ltr1n.
move=> y; have e : 1 = 2%:R^-1 * fnorm (const_mx 2%:R : 'cV[R]_1) :> R by rewrite fs ?ler0n // mulVf // pnatr_eq0.
have i0 : 0 <= 2%:R^-1 :> R by rewrite invr_ge0 ler0n.
have h := stationary_min (A := (1%:M : 'M[R]_1)) (b := const_mx 3%:R) (x := const_mx 2%:R) y i0; rewrite -e in h; apply: h.
by rewrite trmx1 !mul1mx; apply/matrixP=> i j; rewrite !mxE; mcfield.
Qed.

(** group_lasso_feat_split never returns: the number of blocks is a float, which np.zeros refuses. *)
Theorem C185_feat_split_refuted : forall T (rest : pynum -> seq nat -> res T) m n ni,
  group_lasso_feat_split rest m n ni = Raise (if ni == 0%N then ZeroDivisionError else TypeError).
Proof. by move=> T rest m n ni; rewrite /group_lasso_feat_split /true_div; case: ifP. Qed.
Print Assumptions C185_feat_split_refuted.
(** _overlapping_group_lasso never returns: P_star_x_bar_function is called without two of its arguments, also when max_iter is 0. *)
Theorem C185_overlapping_refuted : forall T (inv : option T) p_star step groups max_iter x,
  exists e, overlapping_group_lasso inv p_star step groups max_iter x = Raise e /\
    e = if groups is None then TypeError else if inv is None then LinAlgError else TypeError.
Proof.
move=> T [inv|] p_star step [groups|] k x; rewrite /overlapping_group_lasso; try by eexists; split; reflexivity.
by case: k => [|k]; eexists; split; reflexivity.
Qed.
Print Assumptions C185_overlapping_refuted.
Example C185_case : group_lasso_feat_split (fun _ _ => Val tt) 10 6 2 = Raise TypeError.
Proof. by []. Qed.
