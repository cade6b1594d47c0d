(** The curves of plot_cov_2d and plot_cov_ellipse. *)
From Coq Require Import Reals Lra Ratan.
From mathcomp Require Import all_ssreflect all_algebra.
From Verif Require Import RStruct RTac LinTac S_Mat RMx P_Utils2 M_CovPlot.
Import Order.TTheory GRing.Theory Num.Theory.

Set Implicit Arguments.
Unset Strict Implicit.
Unset Printing Implicit Defensive.
Local Open Scope ring_scope.

(** what is assumed of np.arctan2 *)
Definition arctan2_ok (arctan2 : R -> R -> R) : Prop := forall x y : R, x ^+ 2 + y ^+ 2 = 1 -> cos (arctan2 y x) = x /\ sin (arctan2 y x) = y.

Lemma cos2_sin2 (t : R) : cos t ^+ 2 + sin t ^+ 2 = 1.
Proof. by have := sin2_cos2 t; rewrite /Rsqr => h; rewrite !expr2 addrC. Qed.
Lemma circle (x y : R) : x ^+ 2 + y ^+ 2 = 1 -> exists t, [/\ 0 <= t, t <= 2%:R * PI, cos t = x & sin t = y].
Proof.
move=> e; have hx : Rle (IZR (-1)) x /\ Rle x (IZR 1).
  have : x ^+ 2 <= 1 by rewrite -e ler_addl sqr_ge0.
  by rewrite expr2 => h; split; toR; nra.
have hc := cos_acos x hx; have hs := sin_acos x hx; have [b1 b2] := acos_bound x; have ppi := PI_RGT_0.
have ey : sqrt (Rminus (IZR 1) (Rsqr x)) = `|y|.
  have -> : (Rminus (IZR 1) (Rsqr x)) = Rsqr y by rewrite /Rsqr; move: e; rewrite !expr2 => e; toR; lra.
  by rewrite sqrt_Rsqr_abs; rewrite /Num.norm /=.
case: (lerP 0 y) => y0.
  exists (acos x); split=> //; [by toR | by toR; lra | by rewrite hs ey ger0_norm].
exists (- acos x + 2%:R * PI); split; [by toR; lra | by toR; lra | |].
- have -> : - acos x + 2%:R * PI = Rplus (Ropp (acos x)) (Rmult (Rmult (IZR 2) (INR 1)) PI) by rewrite /= ; toR; lra.
  by rewrite cos_period cos_neg.
have -> : - acos x + 2%:R * PI = Rplus (Ropp (acos x)) (Rmult (Rmult (IZR 2) (INR 1)) PI) by rewrite /= ; toR; lra.
by rewrite sin_period sin_neg hs ey ltr0_norm //; toR; lra.
Qed.

Section Eig.
Variables (d : 'rV[R]_2) (Q cov : 'M[R]_2).
Hypotheses (o : Q^T *m Q = 1%:M) (e : cov = Q *m diag_mx d *m Q^T) (dc : pd cov).
Lemma eigval_gt0 i : 0 < d 0 i.
Proof.
have [_ h] := dc; have u : Q *m delta_mx i 0 != 0 :> 'cV[R]_2.
  apply/eqP => z; have := congr1 (mulmx Q^T) z; rewrite mulmxA o mul1mx mulmx0 => /matrixP /(_ i 0); rewrite !mxE !eqxx => /eqP.
  by rewrite oner_eq0.
have := h _ u; rewrite -quad_cong e !mulmxA o mul1mx -mulmxA o mulmx1 quad_delta mxE eqxx mulr1n //.
Qed.
Lemma inv_cov : invmx cov = Q *m diag_mx (\row_i (d 0 i)^-1) *m Q^T.
Proof.
have oo : Q *m Q^T = 1%:M by apply: mulmx1C.
have uc := pd_unit dc; apply: (can_inj (mulKmx uc)); rewrite mulmxV // e.
rewrite -!mulmxA (mulmxA Q^T) o mul1mx (mulmxA (diag_mx d)).
have -> : diag_mx d *m diag_mx (\row_i (d 0 i)^-1) = 1%:M.
  rewrite mulmx_diag; apply/matrixP => i j; rewrite !mxE; case: eqP => // ->.
  by rewrite mulfV // gt_eqF ?eigval_gt0.
by rewrite mul1mx oo.
Qed.
Lemma quad_inv y : quad (invmx cov) (Q *m y) = \sum_i (d 0 i)^-1 * y i 0 ^+ 2.
Proof.
by rewrite -quad_cong inv_cov !mulmxA o mul1mx -mulmxA o mulmx1 quad_diag; apply: eq_bigr => i _; rewrite mxE.
Qed.
End Eig.
Lemma vec2E x y : vec2 x y 0 0 = x /\ vec2 x y 1 0 = y.
Proof. by rewrite !mxE. Qed.
Lemma vec2P (z : 'cV[R]_2) : z = vec2 (z 0 0) (z 1 0).
Proof.
apply/matrixP => i j; rewrite (ord1 j) mxE; case: eqP => [->//|].
case: i => -[|[|//]] hi ne; first by case: ne; exact/val_inj.
by congr (z _ _); apply/val_inj.
Qed.
Lemma sum2 (F : 'I_2 -> R) : \sum_i F i = F 0 + F 1.
Proof. by rewrite !big_ord_recl big_ord0 addr0; congr (_ + F _); apply/val_inj. Qed.
Lemma sqrt_sq (x : R) : 0 <= x -> sqrt x ^+ 2 = x.
Proof. by move=> h; rewrite expr2; apply: sqrt_sqrt; apply/RleP. Qed.

Section Curve.
Variables (eigh : 'M[R]_2 -> 'rV[R]_2 * 'M[R]_2) (cov : 'M[R]_2) (means : 'cV[R]_2).
Hypotheses (ok : eigh_ok eigh) (dc : pd cov).
Lemma curve_quad sd tt : quad (invmx cov) (cov_2d_point eigh means cov sd tt - means) = sd ^+ 2.
Proof.
have := ok (pd_sym dc); rewrite /cov_2d_point; case: (eigh cov) => d Q [o e].
have g := eigval_gt0 o e dc.
rewrite addrK -mulmxA (quad_inv o e dc) sum2.
have en i : (diag_mx (\row_k (sd * sqrt (d 0 k))) *m vec2 (cos tt) (sin tt)) i 0 = sd * sqrt (d 0 i) * vec2 (cos tt) (sin tt) i 0.
  by rewrite mul_diag_mx !mxE.
rewrite !en !exprMn !sqrt_sq ?ltW // !mxE /=.
have z i (c : R) : (d 0 i)^-1 * (sd ^+ 2 * d 0 i * c) = sd ^+ 2 * c.
  by rewrite [sd ^+ 2 * _]mulrC -!mulrA mulKf // gt_eqF.
by rewrite !z -mulrDr cos2_sin2 mulr1.
Qed.
Lemma curve_all sd x : 0 <= sd -> quad (invmx cov) (x - means) = sd ^+ 2 ->
  exists tt, [/\ 0 <= tt, tt <= 2%:R * PI & x = cov_2d_point eigh means cov sd tt].
Proof.
move=> sd0 hq; have := ok (pd_sym dc); rewrite /cov_2d_point; case: (eigh cov) => d Q [o e].
have g := eigval_gt0 o e dc; have oo : Q *m Q^T = 1%:M by apply: mulmx1C.
set y := Q^T *m (x - means); have ey : x - means = Q *m y by rewrite /y mulmxA oo mul1mx.
clearbody y.
move: hq; rewrite ey (quad_inv o e dc) sum2 => hq.
have s0 i : 0 < sqrt (d 0 i) by apply/RltP; apply: sqrt_lt_R0; apply/RltP.
have [z|sdn] := eqVneq sd 0.
  have y0 : y = 0.
    have h i : 0 <= (d 0 i)^-1 * y i 0 ^+ 2 by rewrite mulr_ge0 ?sqr_ge0 // invr_ge0 ltW.
    move/eqP: hq; rewrite z expr0n /= paddr_eq0 // !(mulf_eq0 _^-1) !invr_eq0 !sqrf_eq0 !(gt_eqF (g _)) /= => /andP [/eqP a /eqP b].
    by rewrite [y]vec2P a b; apply/matrixP => i j; rewrite !mxE if_same.
  exists 0; split=> //; first by rewrite mulr_ge0 ?ler0n //; apply/RleP; apply: Rlt_le; exact: PI_RGT_0.
  have -> : diag_mx (\row_i (sd * sqrt (d 0 i))) = 0 by apply/matrixP => i j; rewrite !mxE z mul0r mul0rn.
  by rewrite mulmx0 mul0mx add0r; apply/eqP; rewrite -subr_eq0 ey y0 mulmx0.
have sdp : 0 < sd by rewrite lt_def sdn.
have [|tt [t0 t1 ec es]] := @circle (y 0 0 / (sd * sqrt (d 0 0))) (y 1 0 / (sd * sqrt (d 0 1))).
  rewrite !expr_div_n !exprMn !sqrt_sq ?ltW //.
  have -> (a b c e' f : R) : a / (b * c) + e' / (b * f) = (c^-1 * a + f^-1 * e') / b.
    by rewrite !invfM mulrDl; congr (_ + _); rewrite -?mulrA; [rewrite mulrCA mulrA mulrC [b^-1 * _]mulrC mulrA | rewrite mulrCA mulrA mulrC [b^-1 * _]mulrC mulrA].
  by rewrite hq divff // expf_neq0.
exists tt; split=> //; rewrite -[LHS](subrK means) ey -mulmxA; congr (_ *m _ + _).
apply/matrixP => i j; rewrite (ord1 j) mul_diag_mx !mxE.
have nz k : sd * sqrt (d 0 k) != 0 by rewrite mulf_neq0 // gt_eqF.
case: eqP => [->|ne]; first by rewrite ec [RHS]mulrC divfK.
have -> : i = 1 by case: i ne => -[|[|//]] hi ne; [case: ne; exact/val_inj | apply/val_inj].
by rewrite es [RHS]mulrC divfK.
Qed.
End Curve.

Section Ellipse.
Variables (eigh : 'M[R]_2 -> 'rV[R]_2 * 'M[R]_2) (arctan2 : R -> R -> R) (cov : 'M[R]_2) (pos : 'cV[R]_2).
Hypotheses (ok : eigh_ok eigh) (at2 : arctan2_ok arctan2) (dc : pd cov).
Lemma sorted_ok : let: ((l0, l1), (v0, v1)) := eigsorted eigh cov in
  [/\ l1 <= l0, 0 < l1, v0 0 0 ^+ 2 + v0 1 0 ^+ 2 = 1, v1 0 0 ^+ 2 + v1 1 0 ^+ 2 = 1 /\ v0 0 0 * v1 0 0 + v0 1 0 * v1 1 0 = 0 &
      forall a b, quad (invmx cov) (a *: v0 + b *: v1) = l0^-1 * a ^+ 2 + l1^-1 * b ^+ 2].
Proof.
have := ok (pd_sym dc); rewrite /eigsorted; case: (eigh cov) => d Q [o e].
have g := eigval_gt0 o e dc.
have oE i j : Q 0 i * Q 0 j + Q 1 i * Q 1 j = (i == j)%:R.
  by have := congr1 (fun M : 'M[R]_2 => M i j) o; rewrite mxE sum2 !mxE.
have qE a b : quad (invmx cov) (a *: col 0 Q + b *: col 1 Q) = (d 0 0)^-1 * a ^+ 2 + (d 0 1)^-1 * b ^+ 2.
  have -> : a *: col 0 Q + b *: col 1 Q = Q *m vec2 a b.
    by apply/matrixP => i j; rewrite (ord1 j) [RHS]mxE sum2 !mxE /= mulrC [b * _]mulrC.
  by rewrite (quad_inv o e dc) sum2 !mxE.
have s i : Q 0 i ^+ 2 + Q 1 i ^+ 2 = 1 by rewrite !expr2 oE eqxx.
case: (lerP (d 0 0) (d 0 1)) => le; split; rewrite ?mxE ?s //; try exact: ltW.
- by rewrite oE.
- by move=> a b; rewrite addrC qE addrC.
by rewrite oE.
Qed.
(** the second axis is the first one rotated by a right angle, up to the sign *)
Lemma perp (c s a b : R) : c ^+ 2 + s ^+ 2 = 1 -> a ^+ 2 + b ^+ 2 = 1 -> c * a + s * b = 0 ->
  exists sg : R, [/\ sg ^+ 2 = 1, - s = sg * a & c = sg * b].
Proof.
rewrite !expr2 => h1 h2 h3; exists (c * b - s * a); split.
- have -> : (c * b - s * a) ^+ 2 = (c * c + s * s) * (a * a + b * b) - (c * a + s * b) ^+ 2 by rewrite !expr2; mcring.
  by rewrite h1 h2 h3 expr0n /= subr0 mulr1.
- have -> : (c * b - s * a) * a = (c * a + s * b) * b - s * (a * a + b * b) by mcring.
  by rewrite h3 h2 mul0r mulr1 sub0r.
have -> : (c * b - s * a) * b = c * (a * a + b * b) - (c * a + s * b) * a by mcring.
by rewrite h3 h2 mul0r mulr1 subr0.
Qed.
Lemma deg_rad (x : R) : x * (180%:R / PI) * (PI / 180%:R) = x.
Proof.
have p0 : PI != 0 :> R by rewrite gt_eqF //; apply/RltP; exact: PI_RGT_0.
by rewrite -mulrA [X in x * X]mulrA divfK // divff ?mulr1 // pnatr_eq0.
Qed.
Lemma ellipse_quad nstd tt : nstd != 0 ->
  let: (wh, angle) := cov_ellipse eigh arctan2 cov nstd in quad (invmx cov) (ellipse_point pos wh angle tt - pos) = nstd ^+ 2.
Proof.
move=> n0; rewrite /cov_ellipse; have := sorted_ok; case: (eigsorted eigh cov) => -[l0 l1] [v0 v1] [le p1 u0 [u1 or] q].
have p0 : 0 < l0 by exact: lt_le_trans le.
have s0 l : 0 < l -> 0 < sqrt l by move=> h; apply/RltP; apply: sqrt_lt_R0; apply/RltP.
have nz l : 0 < l -> (2%:R * nstd * sqrt l == 0) = false.
  by move=> h; apply/negbTE; rewrite !mulf_neq0 ?pnatr_eq0 // gt_eqF ?s0.
rewrite !nz // /ellipse_point deg_rad; have [-> ->] := at2 u0.
have [sg [sg1 e1 e2]] := perp u0 u1 or.
set a := _ * cos tt; set b := _ * sin tt; rewrite addrC addKr.
have -> : vec2 (v0 0 0 * a - v0 1 0 * b) (v0 1 0 * a + v0 0 0 * b) = a *: v0 + (sg * b) *: v1.
  apply/matrixP => i j; rewrite (ord1 j) !mxE; case: eqP => [->|ne].
    by rewrite -mulNr e1; move: (v0 0 0) (v1 0 0) => *; mcring.
  have -> : i = 1 by case: i ne => -[|[|//]] hi ne; [case: ne; exact/val_inj | apply/val_inj].
  by rewrite {1}e2; move: (v0 1 0) (v1 1 0) => *; mcring.
rewrite q (exprMn 2 sg b) sg1 mul1r /a /b.
have z l c : 0 < l -> l^-1 * ((2%:R * nstd * sqrt l) / 2%:R * c) ^+ 2 = nstd ^+ 2 * c ^+ 2.
  move=> h; have -> : 2%:R * nstd * sqrt l / 2%:R = nstd * sqrt l by mcfield.
  by rewrite !exprMn sqrt_sq ?ltW // [nstd ^+ 2 * l]mulrC -!mulrA mulKf // gt_eqF.
by rewrite !z // -mulrDr cos2_sin2 mulr1.
Qed.
End Ellipse.
