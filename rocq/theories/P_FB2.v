(** Proofs: second order bounds for log det on matrices bounded below. *)
From Coq Require Import Reals Lra Psatz String.
From mathcomp Require Import all_ssreflect all_algebra.
From Verif Require Import RStruct RTac LinTac Spectral S_Mat RMx ADMM P_Exist P_GLM5 P_Fit P_Prox.
Import Order.TTheory GRing.Theory Num.Theory.

Set Implicit Arguments.
Unset Strict Implicit.
Unset Printing Implicit Defensive.
Local Open Scope ring_scope.

Section Floor.
Variable n : nat.
Implicit Types (X Y H : 'M[R]_n) (v : 'cV[R]_n).

Lemma quad1E v : quad 1%:M v = fnorm2 v.
Proof.
rewrite /quad mulmx1 mxE /fnorm2; apply: eq_bigr => i _; rewrite big_ord1 mxE expr2 //.
Qed.
Lemma quad_scalar (c : R) v : quad (c%:M) v = c * fnorm2 v.
Proof. by rewrite -scalemx1 quadZ quad1E. Qed.
Lemma fnorm2_outer v : fnorm2 (v *m v^T) = fnorm2 v ^+ 2.
Proof.
rewrite /fnorm2 expr2 mulr_suml; apply: eq_bigr => i _; rewrite big_ord1 mulr_sumr.
by apply: eq_bigr => j _; rewrite big_ord1 mxE big_ord1 mxE exprMn.
Qed.
Lemma quad_bound H v : `|quad H v| <= fnorm H * fnorm2 v.
Proof.
have e : quad H v = fdot (v *m v^T) H by have := fdot_outer H v^T; rewrite trmxK.
have en : fnorm (v *m v^T) = fnorm2 v.
  rewrite /fnorm fnorm2_outer expr2; apply: sqrt_square; apply/RleP; exact: fnorm2_ge0.
have h1 := fdot_cauchy (v *m v^T) H; have h2 := fdot_cauchy (v *m v^T) (- H).
rewrite -e en in h1; rewrite fdotNr -e en /fnorm fnorm2N -/(fnorm H) in h2.
by rewrite ler_norml mulrC h1 andbT ler_oppl.
Qed.

Lemma sym_scalar (c : R) : sym (c%:M : 'M[R]_n). Proof. by rewrite /sym tr_scalar_mx. Qed.
Lemma floor_near X H (c e : R) : psd (X - c%:M) -> sym H -> fnorm H <= e -> psd (X + H - (c - e)%:M).
Proof.
move=> [sX pX] sH he; split.
  have -> : X + H - (c - e)%:M = (X - c%:M) + H + e%:M by rewrite -(scalemx1 _ c) -(scalemx1 _ e) -scalemx1; lin.
  by apply: symD; [apply: symD|apply: sym_scalar].
move=> v; have -> : X + H - (c - e)%:M = (X - c%:M) + (H + e%:M) by rewrite -(scalemx1 _ c) -(scalemx1 _ e) -scalemx1; lin.
rewrite quadD; apply: addr_ge0 => //; rewrite quadD quad_scalar.
have := quad_bound H v; have := ler_wpmul2r (fnorm2_ge0 v) he.
move: (quad H v) (fnorm H * _) (e * _) => a b d h1 h2; rewrite -subr_ge0 in h2 *.
by have := ler_norm (- a); rewrite normrN => h3; mclra.
Qed.
Lemma floor_pd X (c : R) : 0 < c -> psd (X - c%:M) -> pd X.
Proof.
move=> c0 pX; have -> : X = c%:M + (X - c%:M) by lin.
by apply: pdD_psd => //; rewrite -scalemx1; apply: pdZ => //; apply: pd1.
Qed.
Lemma pd_floor X : pd X -> exists2 c : R, 0 < c & psd (X - c%:M).
Proof.
move=> pX; have [Q [d [oQ eX]]] := spectral (pd_sym pX).
have pd0 : forall i, 0 < d 0 i by apply: (pd_spectrum oQ); rewrite /sconj -eX.
have [c c0 hc] := pos_min pd0; exists c => //.
have -> : X - c%:M = sconj Q (d - const_mx c).
  have -> : d - const_mx c = d + (- c) *: const_mx 1 by apply/rowP => i; rewrite !mxE mulr1.
  by rewrite sconjD sconjZ sconj1 // scaleNr scalemx1 {1}eX.
by apply: psd_sconj => i; rewrite !mxE subr_ge0.
Qed.
Lemma floor_inv X (c : R) : 0 < c -> psd (X - c%:M) -> psd (c^-1%:M - invmx X).
Proof.
move=> c0 hX; have pX := floor_pd c0 hX.
have [P [pP eP]] := pd_sqrt (pd_inv pX); have sP := pd_sym pP.
have uX := pd_unit pX.
have : psd (P *m (X - c%:M) *m P^T) by apply: psd_conj.
rewrite sP mulmxBr mulmxBl.
have -> : P *m X *m P = 1%:M.
  have uP := pd_unit pP.
  have e : P *m (P *m X) = 1%:M by rewrite mulmxA eP mulVmx.
  exact: mulmx1C e.
rewrite mul_mx_scalar -scalemxAl eP => h.
have -> : c^-1%:M - invmx X = c^-1 *: (1%:M - c *: invmx X).
  by rewrite scalerBr scalerA mulVf ?gt_eqF // scale1r scalemx1.
by apply: psdZ => //; rewrite invr_ge0 ltW.
Qed.

Lemma logdet_upper X Y (c : R) : 0 < c -> psd (X - c%:M) -> psd (Y - c%:M) ->
  ln (\det X) + \tr (invmx X *m (Y - X)) - ln (\det Y) <= c^-1 ^+ 2 * fnorm2 (Y - X).
Proof.
move=> c0 hX hY; have pX := floor_pd c0 hX; have pY := floor_pd c0 hY.
have uX := pd_unit pX; have uY := pd_unit pY.
set H := Y - X; have sH : sym H by apply: symB; apply: pd_sym.
have h := logdet_tangent pY pX; rewrite /logdet -opprB -/H mulmxN raddfN /= in h.
have e : invmx X - invmx Y = invmx X *m H *m invmx Y.
  by rewrite mulmxBr mulVmx // mulmxBl mul1mx -mulmxA mulmxV // mulmx1.
have e2 : \tr (invmx X *m H) - \tr (invmx Y *m H) = fdot (H *m invmx X *m H) (invmx Y).
  rewrite -raddfB -mulmxBl e fdotE !trmx_mul sH (pd_sym (pd_inv pX)).
  by rewrite -!mulmxA mxtrace_mulC !mulmxA.
have pH : psd (H *m invmx X *m H).
  by rewrite -{2}sH; apply: psd_conj; apply: pd_psd; apply: pd_inv.
have b1 : fdot (H *m invmx X *m H) (invmx Y) <= c^-1 * \tr (H *m invmx X *m H).
  have := psd_fdot_ge0 pH (floor_inv c0 hY); rewrite fdotBr subr_ge0.
  by rewrite -scalemx1 fdotZr (fdotE _ 1%:M) mulmx1 mxtrace_tr.
have b2 : \tr (H *m invmx X *m H) <= c^-1 * fnorm2 H.
  have pHH : psd (H *m H) by rewrite -{2}sH -{1}[H]mulmx1; apply: psd_conj; apply: pd_psd; apply: pd1.
  have := psd_fdot_ge0 pHH (floor_inv c0 hX); rewrite fdotBr subr_ge0.
  have -> : fdot (H *m H) (invmx X) = \tr (H *m invmx X *m H).
    by rewrite fdotE trmx_mul sH [RHS]mxtrace_mulC mulmxA.
  by rewrite -scalemx1 fdotZr (fdotE _ 1%:M) mulmx1 mxtrace_tr fnorm2E fdotE sH.
have ci : 0 <= c^-1 by rewrite invr_ge0 ltW.
have b3 := ler_wpmul2l ci b2; rewrite mulrA -expr2 in b3.
move: h e2 b1 b3; move: (ln _) (ln _) (\tr (invmx X *m H)) (\tr (invmx Y *m H)) (fdot _ _).
move: (c^-1 * _) (c^-1 ^+ 2 * _) => *; mclra.
Qed.
End Floor.
