(** C177: the curves drawn by plot_cov_2d and plot_cov_ellipse (regain/plotting/covariance.py:37-111). *)
From Coq Require Import Reals Lra Epsilon.
From mathcomp Require Import all_ssreflect all_algebra.
From Verif Require Import RStruct RTac LinTac S_Mat RMx P_Utils2 M_CovPlot P_CovPlot.
Import Order.TTheory GRing.Theory Num.Theory.

Set Implicit Arguments.
Unset Strict Implicit.
Unset Printing Implicit Defensive.
Local Open Scope ring_scope.

(** (x - mean)' cov^-1 (x - mean) *)
Definition mahalanobis2 (cov : 'M[R]_2) (mean x : 'cV[R]_2) : R := ((x - mean)^T *m invmx cov *m (x - mean)) 0 0.

(** The curve of plot_cov_2d is the set of the points at Mahalanobis distance sdwidth from the mean, for every positive definite
    covariance. *)
Theorem C177_curve eigh (means : 'cV[R]_2) (cov : 'M[R]_2) (sdwidth : R) : eigh_ok eigh -> pd cov -> 0 <= sdwidth ->
  forall x, mahalanobis2 cov means x = sdwidth ^+ 2 <-> exists tt, 0 <= tt <= 2%:R * PI /\ x = cov_2d_point eigh means cov sdwidth tt.
Proof.
move=> ok dc s0 x; split=> [h|[tt [_ ->]]]; last exact: curve_quad.
by have [tt [t0 t1 e]] := curve_all ok dc s0 h; exists tt; rewrite t0 t1.
Qed.
Print Assumptions C177_curve.
(** The points of the ellipse of plot_cov_ellipse are at Mahalanobis distance |nstd|. *)
Theorem C177_ellipse eigh arctan2 (pos : 'cV[R]_2) (cov : 'M[R]_2) (nstd tt : R) : eigh_ok eigh -> arctan2_ok arctan2 -> pd cov -> nstd != 0 ->
  let: (wh, angle) := cov_ellipse eigh arctan2 cov nstd in mahalanobis2 cov pos (ellipse_point pos wh angle tt) = nstd ^+ 2.
Proof. by move=> ok at2 dc n0; exact: ellipse_quad. Qed.
Print Assumptions C177_ellipse.
(** The width is never below the height, and with a center of nonnegative abscissa the ellipse is within the limits of the first axis. *)
Theorem C177_limits eigh arctan2 (pos : 'cV[R]_2) (cov : 'M[R]_2) (nstd tt : R) : eigh_ok eigh -> arctan2_ok arctan2 -> pd cov -> 0 < nstd ->
  0 <= pos 0 0 ->
  let: (wh, angle) := cov_ellipse eigh arctan2 cov nstd in
  let: ((lo, hi), _) := ellipse_limits pos wh in
  0 < wh.2 <= wh.1 /\ lo <= ellipse_point pos wh angle tt 0 0 <= hi.
Proof.
move=> ok at2 dc n0 p0; rewrite /cov_ellipse; have := sorted_ok ok dc; case: (eigsorted eigh cov) => -[l0 l1] [v0 v1] [le lp u0 _ _].
have lp0 : 0 < l0 by exact: lt_le_trans le.
have s0 l : 0 < l -> 0 < sqrt l by move=> h; apply/RltP; apply: sqrt_lt_R0; apply/RltP.
have nz l : 0 < l -> (2%:R * nstd * sqrt l == 0) = false.
  by move=> h; rewrite gt_eqF // !mulr_gt0 ?ltr0n ?s0.
rewrite !nz // /ellipse_limits /ellipse_point /= deg_rad; have [-> ->] := at2 _ _ u0.
set w := 2%:R * nstd * sqrt l0; set h := 2%:R * nstd * sqrt l1.
have w0 : 0 < w by rewrite !mulr_gt0 ?ltr0n ?s0.
have h0 : 0 < h by rewrite !mulr_gt0 ?ltr0n ?s0.
have hw : h <= w.
  by rewrite ler_pmul2l ?mulr_gt0 ?ltr0n //; apply/RleP; apply: sqrt_le_1; apply/RleP; rewrite ?(ltW lp) ?(ltW lp0).
rewrite h0 hw; split=> //; rewrite !mxE /=.
have cs := cos2_sin2 tt.
have bound (c s x y W H : R) : c ^+ 2 + s ^+ 2 = 1 -> x ^+ 2 + y ^+ 2 = 1 -> 0 < H -> H <= W ->
    (c * (W / 2%:R * x) - s * (H / 2%:R * y)) ^+ 2 <= (W / 2%:R) ^+ 2.
  move=> e1 e2 H0 HW; apply: (@le_trans _ _ ((c ^+ 2 + s ^+ 2) * ((W / 2%:R * x) ^+ 2 + (H / 2%:R * y) ^+ 2))).
    rewrite -subr_ge0; have -> : (c ^+ 2 + s ^+ 2) * ((W / 2%:R * x) ^+ 2 + (H / 2%:R * y) ^+ 2) - (c * (W / 2%:R * x) - s * (H / 2%:R * y)) ^+ 2 =
      (s * (W / 2%:R * x) + c * (H / 2%:R * y)) ^+ 2 by rewrite !expr2; mcring.
    exact: sqr_ge0.
  rewrite e1 mul1r; apply: (@le_trans _ _ ((W / 2%:R * x) ^+ 2 + (W / 2%:R * y) ^+ 2)).
    rewrite ler_add2l !exprMn ler_wpmul2r ?sqr_ge0 // ler_wpmul2r ?sqr_ge0 // ler_pexpn2r ?nnegrE ?(ltW H0) //.
    by rewrite (le_trans _ HW) // ltW.
  by rewrite !exprMn -mulrDr e2 mulr1.
have hz := bound _ _ _ _ _ _ u0 cs h0 hw; move: (_ - _) hz => z hz.
have num (q W : R) : 0 < W -> q ^+ 2 <= (W / 2%:R) ^+ 2 -> - W <= q /\ q <= W.
  by rewrite !expr2 => W0 h1; split; mcnra.
have [z1 z2] := num _ _ w0 hz; have num2 (p q W : R) : 0 <= p -> 0 < W -> - W <= q -> q <= W ->
    - (W + p + 1 / 10%:R) <= p + q <= W + p + 1 / 10%:R.
  by move=> h1 h2 h3 h4; apply/andP; split; mclra.
exact: num2.
Qed.
Print Assumptions C177_limits.
(** Refuted: the limits of the axes do not contain the ellipse. Two reasons: the limits of the second axis use the height, which is not the
    extent of a rotated ellipse (here the long axis is vertical) ... *)
Theorem C177_limits_refuted eigh arctan2 : eigh_ok eigh -> arctan2_ok arctan2 ->
  let cov : 'M[R]_2 := diag_mx (\row_i (if i == 0 then 1 else 9%:R)) in
  pd cov /\ let: (wh, angle) := cov_ellipse eigh arctan2 cov 2%:R in
            let: (_, (lo, hi)) := ellipse_limits 0 wh in
            exists tt, let y := ellipse_point 0 wh angle tt 1 0 in ~ (lo <= y <= hi).
Proof.
move=> ok at2 cov; have dc : pd cov.
  by apply: pd_diag => i; rewrite mxE; case: ifP => _; rewrite ?ltr01 ?ltr0n.
split=> //; rewrite /cov_ellipse; have := sorted_ok ok dc; case: (eigsorted eigh cov) => -[l0 l1] [v0 v1] [le lp u0 [u1 or] q].
have lp0 : 0 < l0 by exact: lt_le_trans le.
have iq x y : quad (invmx cov) (vec2 x y) = x ^+ 2 + y ^+ 2 / 9%:R.
  have -> : invmx cov = diag_mx (\row_i (if i == 0 then 1 else 9%:R^-1)).
    apply: (can_inj (mulKmx (pd_unit dc))); rewrite mulmxV ?pd_unit // mulmx_diag; apply/matrixP => i j; rewrite !mxE.
    by case: (i == j) => //; case: (i == 0); rewrite ?mulr1 ?mulfV ?pnatr_eq0.
  by rewrite quad_diag sum2 !mxE /= mul1r mulrC.
have lc a b : a *: v0 + b *: v1 = vec2 (a * v0 0 0 + b * v1 0 0) (a * v0 1 0 + b * v1 1 0).
  by rewrite [LHS]vec2P !mxE.
have q1 := q 1 0; have q2 := q 0 1; have q3 := q 1 1; move: q1 q2 q3; rewrite !lc !iq !expr0n /= !expr1n !mulr1 !mul1r !mul0r !mulr0 !addr0 !add0r.
move: (v0 0 0) (v0 1 0) (v1 0 0) (v1 1 0) u0 u1 or => c s p r u0 u1 or q1 q2 q3.
have i0 : 0 < l0^-1 by rewrite invr_gt0.
have i1 : 0 < l1^-1 by rewrite invr_gt0.
have ile : l0^-1 <= l1^-1 by rewrite lef_pinv.
have [c0 s1 e0 e1] : [/\ c = 0, s ^+ 2 = 1, l0^-1 = 9%:R^-1 & l1^-1 = 1].
  have x1 : s * r = 0.
    have num : c * p + s * r / 9%:R = 0.
      have sq (a b d e : R) : (a + d) ^+ 2 + (b + e) ^+ 2 / 9%:R = a ^+ 2 + b ^+ 2 / 9%:R + (d ^+ 2 + e ^+ 2 / 9%:R) -> a * d + b * e / 9%:R = 0.
        by rewrite !expr2 => h; mclra.
      by apply: sq; rewrite q3 q1 q2.
    by move: or num; move: (c * p) (s * r) => x y h1 h2; mclra.
  have x2 : c * p = 0 by move: or; rewrite x1 addr0.
  move/eqP: x1; rewrite mulf_eq0 => /orP [/eqP s0|/eqP r0].
    exfalso; move: u0 q1; rewrite s0 expr0n /= mul0r !addr0 => c1 il0.
    have p0 : p = 0 by apply/eqP; move/eqP: x2; rewrite mulf_eq0 => /orP [/eqP c0|//]; move: c1; rewrite c0 expr0n /= => /eqP; rewrite eq_sym oner_eq0.
    move: u1 q2; rewrite p0 expr0n /= !add0r => r1 il1; move: ile; rewrite -il0 -il1 c1 r1 => h; mclra.
  move: u1 q2; rewrite r0 expr0n /= mul0r !addr0 => p1 il1.
  have c0 : c = 0 by apply/eqP; move/eqP: x2; rewrite mulf_eq0 => /orP [//|/eqP p0]; move: p1; rewrite p0 expr0n /= => /eqP; rewrite eq_sym oner_eq0.
  by move: u0 q1; rewrite c0 expr0n /= !add0r => -> <-; rewrite mul1r -il1 p1.
have el0 : l0 = 9%:R by apply: invr_inj.
have el1 : l1 = 1 by apply: invr_inj; rewrite e1 invr1.
have r9 : sqrt l0 = 3%:R.
  rewrite el0; have -> : 9%:R = Rmult 3%:R 3%:R :> R by toR; lra.
  by apply: sqrt_square; toR; lra.
have r1 : sqrt l1 = 1 by rewrite el1; exact: sqrt_1.
have ne : 2%:R * 2%:R * 3%:R == 0 :> R = false by rewrite gt_eqF // !mulr_gt0 ?ltr0n.
have ne1 : 2%:R * 2%:R * 1 == 0 :> R = false by rewrite gt_eqF // !mulr_gt0 ?ltr0n ?ltr01.
rewrite r9 r1 ne ne1 /ellipse_limits /ellipse_point /=; exists 0; rewrite deg_rad.
have [|-> ->] := at2 c s; first by rewrite c0 s1 expr0n add0r.
rewrite !mxE /= sin_0 cos_0 c0; have cs : s = 1 \/ s = -1.
  have : (s == 1) || (s == - 1) by rewrite -eqf_sqr s1 expr1n.
  by case/orP => /eqP ->; [left | right].
by case: cs => ->; move/andP => -[h1 h2]; mclra.
Qed.
Print Assumptions C177_limits_refuted.
(** ... and they are symmetric around 0 instead of the center: with a center far on the negative side no abscissa is within them. *)
Theorem C177_negative_refuted (pos : 'cV[R]_2) (wh : R * R) : wh.1 + pos 0 0 + 1 / 10%:R < 0 ->
  let: ((lo, hi), _) := ellipse_limits pos wh in forall x, ~ (lo <= x <= hi).
Proof. by move=> h x /= /andP [h1 h2]; have := le_trans h1 h2; move: (_ + _) h => q h; rewrite leNgt (lt_trans h) // oppr_gt0. Qed.
Print Assumptions C177_negative_refuted.
(** Refuted: "an nstd sigma ellipse for every covariance": the zero covariance gives a circle of radius 0.05, whatever nstd. *)
Theorem C177_degenerate_refuted eigh arctan2 nstd : eigh_ok eigh -> (cov_ellipse eigh arctan2 0 nstd).1 = (1 / 10%:R, 1 / 10%:R).
Proof.
move=> ok; have s0 : sym (0 : 'M[R]_2) by rewrite /sym trmx0.
have := ok _ s0; rewrite /cov_ellipse /eigsorted; case: (eigh 0) => d Q [o e].
have d0 i : d 0 i = 0.
  have : Q^T *m (0 : 'M[R]_2) *m Q = diag_mx d by rewrite e -!mulmxA o mulmx1 mulmxA o mul1mx.
  by rewrite mulmx0 mul0mx => /matrixP /(_ i i); rewrite !mxE eqxx mulr1n.
by rewrite !d0 lexx /= sqrt_0 mulr0 eqxx add0r.
Qed.
Print Assumptions C177_degenerate_refuted.
(** Refuted: "return their correlation": it is the covariance, which can exceed 1. *)
Theorem C177_correlation_refuted : exists cov : 'M[R]_2, pd cov /\ 1 < cov_2d_return cov.
Proof.
exists (\matrix_(i, j) if i == j then 3%:R else 2%:R); split; last by rewrite /cov_2d_return mxE /= ltr1n.
apply: diag_dom_pd => [|i]; first by apply/matrixP => i j; rewrite !mxE eq_sym.
rewrite mxE eqxx (eq_bigr (fun=> 2%:R)); last by move=> j ji; rewrite mxE eq_sym (negbTE ji) normr_nat.
by rewrite sumr_const cardC1 card_ord /= mulr1n ltr_nat.
Qed.
Print Assumptions C177_correlation_refuted.
Example C177_case : (exists arctan2, arctan2_ok arctan2) /\ pd (1%:M : 'M[R]_2).
Proof.
split; last exact: pd1.
have h x y : exists t : R, x ^+ 2 + y ^+ 2 = 1 -> cos t = x /\ sin t = y.
  have [e|ne] := eqVneq (x ^+ 2 + y ^+ 2) (1 : R); last by exists 0 => e; rewrite e eqxx in ne.
  by have [t [_ _ h1 h2]] := circle e; exists t.
exists (fun y x => Epsilon.epsilon (inhabits (0 : R)) (fun t => x ^+ 2 + y ^+ 2 = 1 -> cos t = x /\ sin t = y)) => x y.
exact: (Epsilon.epsilon_spec (inhabits (0 : R)) (fun t => x ^+ 2 + y ^+ 2 = 1 -> cos t = x /\ sin t = y)).
Qed.
