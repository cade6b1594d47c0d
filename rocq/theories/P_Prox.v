(** Proofs about the proximal operators. *)
From Coq Require Import Reals Lra Psatz.
From mathcomp Require Import all_ssreflect all_algebra.
From Verif Require Import RStruct RTac LinTac Spectral S_Mat RMx ADMM NP M_Prox.
Import Order.TTheory GRing.Theory Num.Theory.

Set Implicit Arguments.
Unset Strict Implicit.
Unset Printing Implicit Defensive.
Local Open Scope ring_scope.

(** * scalar soft-thresholding *)
Lemma soft1_cases (a lam : R) : 0 <= lam ->
  [\/ lam < a /\ soft1 a lam = a - lam, a < - lam /\ soft1 a lam = a + lam |
      (- lam <= a <= lam) /\ soft1 a lam = 0].
Proof.
move=> l0; rewrite /soft1 /np_sign /np_max.
case: (ltrP (`|a| - lam) 0) => h.
  rewrite mulr0; apply: Or33; split=> //.
  by rewrite subr_lt0 in h; rewrite -ler_norml ltW.
have [a0|an0] := eqVneq a 0.
  rewrite mul0r; apply: Or33; split=> //; rewrite a0.
  by rewrite oppr_le0 l0.
case: (ltrP 0 a) => a0.
  rewrite (gtr0_norm a0) in h *; rewrite mul1r.
  have [e|ne] := eqVneq lam a.
    by apply: Or33; rewrite e subrr lexx andbT; split=> //; apply: (@le_trans _ _ 0); rewrite ?oppr_le0 ltW.
  by apply: Or31; split=> //; rewrite lt_def eq_sym ne -subr_ge0.
have a1 : a < 0 by rewrite lt_def eq_sym an0.
rewrite (ltr0_norm a1) in h *; rewrite mulN1r opprB opprK addrC.
have [e|ne] := eqVneq a (- lam).
  apply: Or33; rewrite e addNr lexx; split=> //.
  by apply: (@le_trans _ _ 0); rewrite ?oppr_le0.
apply: Or32; split; last by rewrite addrC.
by rewrite lt_def eq_sym ne /= ler_oppr -subr_ge0.
Qed.

(** strong optimality of the scalar prox *)
Lemma soft1_strong (a lam x : R) : 0 <= lam ->
  lam * `|soft1 a lam| + (soft1 a lam - a) ^+ 2 / 2%:R + (x - soft1 a lam) ^+ 2 / 2%:R
  <= lam * `|x| + (x - a) ^+ 2 / 2%:R.
Proof.
move=> l0.
have hx1 : x <= `|x| by apply: ler_norm.
have hx2 : - x <= `|x| by rewrite -normrN ler_norm.
have hx0 := normr_ge0 x.
case: (soft1_cases a l0) => [[h ->]|[h ->]|[/andP[h1 h2] ->]].
- have -> : `|a - lam| = a - lam by rewrite ger0_norm // subr_ge0 ltW.
  move: (`|x|) hx1 hx2 hx0 => y hx1 hx2 hx0; mcnra.
- have -> : `|a + lam| = - (a + lam).
    by rewrite ltr0_norm //; rewrite -(opprK lam) subr_lt0.
  move: (`|x|) hx1 hx2 hx0 => y hx1 hx2 hx0; mcnra.
- rewrite normr0.
  have h3 : a * x <= lam * `|x|.
    have [x0|x0] := lerP 0 x.
      by rewrite ger0_norm // ler_wpmul2r.
    by rewrite ltr0_norm // mulrN -mulNr ler_wnmul2r // ltW.
  by rewrite mulr0 add0r subr0 sub0r; move: (lam * `|x|) h3 => p h3; mcnra.
Qed.

Lemma soft1_nonexp (a lam : R) : 0 <= lam -> `|soft1 a lam| <= `|a|.
Proof.
move=> l0; case: (soft1_cases a l0) => [[h ->]|[h ->]|[_ ->]].
- have a0 : 0 < a by apply: le_lt_trans h.
  rewrite (gtr0_norm a0) gtr0_norm ?subr_gt0 // ler_subl_addr ler_addl //.
- have h' : a + lam < 0 by rewrite -(opprK lam) subr_lt0.
  have a0 : a < 0 by apply: lt_le_trans h _; rewrite oppr_le0.
  by rewrite (ltr0_norm a0) (ltr0_norm h') ler_oppl opprK ler_addl.
- by rewrite normr0.
Qed.
Lemma soft1N a lam : soft1 (- a) lam = - soft1 a lam.
Proof.
rewrite /soft1 normrN -mulNr; congr (_ * _).
rewrite /np_sign oppr_eq0 oppr_gt0; case: eqVneq => [_|h]; first by rewrite oppr0.
by case: ltrgt0P h => // ; rewrite ?opprK.
Qed.
Lemma soft1_0 a : soft1 a 0 = a.
Proof.
case: (soft1_cases a (lexx 0)) => [[h ->]|[h ->]|[h ->]]; rewrite ?subr0 ?addr0 //.
by move: h; rewrite oppr0 => h; apply/eqP; rewrite eq_sym eq_le andbC.
Qed.

Lemma half_pos (x : R) : 0 < x -> 0 < x / 2%:R. Proof. by move=> h; mclra. Qed.

Lemma soft1_unique (a lam : R) : 0 <= lam ->
  unique_minimiser (@everywhere R) (fun x => lam * `|x| + (x - a) ^+ 2 / 2%:R) (soft1 a lam).
Proof.
move=> l0; split=> // x _ xn.
apply: lt_le_trans (soft1_strong a x l0); rewrite ltr_addl.
apply: half_pos; rewrite lt_def sqr_ge0 andbT sqrf_eq0 subr_eq0.
by apply/eqP.
Qed.

(** * strong convexity toolkit: [f x* + |x-x*|^2/2 <= f x] gives the unique minimiser *)
Lemma strong_unique m n (f : 'M[R]_(m, n) -> R) (D : 'M[R]_(m, n) -> Prop) c xs : 0 < c ->
  D xs -> (forall x, D x -> f xs + c * fnorm2 (x - xs) <= f x) ->
  unique_minimiser D f xs.
Proof.
move=> c0 Dx h; split=> // y Dy yx.
apply: lt_le_trans (h y Dy); rewrite ltr_addl; apply: mulr_gt0 => //; apply: fnorm2_gt0.
by move/eqP; rewrite subr_eq0 => /eqP.
Qed.

Section Soft.
Variables m n : nat.
Implicit Types a x : 'M[R]_(m, n).

Lemma soft_strong a lam x : 0 <= lam ->
  lam * l1 (soft_thresholding a lam) + fnorm2 (soft_thresholding a lam - a) / 2%:R
   + fnorm2 (x - soft_thresholding a lam) / 2%:R <= lam * l1 x + fnorm2 (x - a) / 2%:R.
Proof.
move=> l0.
rewrite /l1 /fnorm2 !mulr_suml !mulr_sumr -!big_split /=; apply: ler_sum => i _.
rewrite !mulr_suml !mulr_sumr -!big_split /=; apply: ler_sum => j _.
by rewrite !mxE; apply: soft1_strong.
Qed.
Lemma soft_unique a lam : 0 <= lam ->
  unique_minimiser (@everywhere _) (fun X => lam * l1 X + fnorm2 (X - a) / 2%:R)
    (soft_thresholding a lam).
Proof.
move=> l0; apply: (@strong_unique _ _ _ _ 2%:R^-1) => // [|x _]; first mclra.
by rewrite [_ * fnorm2 _]mulrC; apply: soft_strong.
Qed.
Lemma soft_subgrad a lam x : 0 <= lam ->
  lam * l1 (soft_thresholding a lam)
    + fdot (a - soft_thresholding a lam) (x - soft_thresholding a lam) <= lam * l1 x.
Proof.
move=> l0; have h := soft_strong a x l0; move: h.
set s := soft_thresholding a lam.
have -> : x - a = (x - s) - (a - s) by lin.
rewrite (fnorm2B (x - s)) -(fnorm2N (s - a)) opprB (fdotC (x - s)).
by move=> h; mclra.
Qed.
End Soft.

(** * off-diagonal *)
Section SoftOd.
Variable n : nat.
Implicit Types a x : 'M[R]_n.
Local Notation sod := soft_thresholding_off_diagonal.

Lemma sodE a lam i j : sod a lam i j = if i == j then a i j else soft1 (a i j) lam.
Proof. by rewrite /sod !mxE. Qed.
Lemma sod_diag a lam i : sod a lam i i = a i i.
Proof. by rewrite sodE eqxx. Qed.

Lemma l1odE x : l1od x = \sum_i \sum_j (if i == j then 0 else `|x i j|).
Proof.
apply: eq_bigr => i _; rewrite big_mkcond; apply: eq_bigr => j _.
by rewrite eq_sym; case: eqP.
Qed.
Lemma l1_od_normE x : l1_od_norm x = l1od x.
Proof.
rewrite /l1_od_norm /matrix_l1_norm -sumrB; apply: eq_bigr => i _.
by rewrite (bigD1 i) //= addrC addrA addNr add0r.
Qed.

Lemma sod_strong a lam x : 0 <= lam ->
  lam * l1od (sod a lam) + fnorm2 (sod a lam - a) / 2%:R + fnorm2 (x - sod a lam) / 2%:R
  <= lam * l1od x + fnorm2 (x - a) / 2%:R.
Proof.
move=> l0; rewrite !l1odE.
rewrite /fnorm2 !mulr_suml !mulr_sumr -!big_split /=; apply: ler_sum => i _.
rewrite !mulr_suml !mulr_sumr -!big_split /=; apply: ler_sum => j _.
rewrite ![((_ : 'M_n) + _) i j]mxE ![(- (_ : 'M_n)) i j]mxE sodE.
case: eqVneq => [->|ne]; last exact: soft1_strong.
by rewrite subrr expr0n /= mul0r !mulr0 !add0r.
Qed.
Lemma sod_unique a lam : 0 <= lam ->
  unique_minimiser (@everywhere _) (fun X => lam * l1od X + fnorm2 (X - a) / 2%:R)
    (sod a lam).
Proof.
move=> l0; apply: (@strong_unique _ _ _ _ 2%:R^-1) => // [|x _]; first mclra.
by rewrite [_ * fnorm2 _]mulrC; apply: sod_strong.
Qed.
Lemma sod_subgrad a lam x : 0 <= lam ->
  lam * l1od (sod a lam) + fdot (a - sod a lam) (x - sod a lam) <= lam * l1od x.
Proof.
move=> l0; have h := sod_strong a x l0; move: h.
set s := sod a lam.
have -> : x - a = (x - s) - (a - s) by lin.
rewrite (fnorm2B (x - s)) -(fnorm2N (s - a)) opprB (fdotC (x - s)).
by move=> h; mclra.
Qed.
Lemma sod_sym a lam : sym a -> sym (sod a lam).
Proof.
move=> h; apply/matrixP => i j; rewrite mxE !sodE eq_sym.
by have -> : a j i = a i j by rewrite -{1}h mxE.
Qed.
Lemma sod_all a lam : 0 <= lam ->
  (forall i, sod a lam i i = a i i) /\
  unique_minimiser (@everywhere _) (fun X => lam * l1od X + fnorm2 (X - a) / 2%:R) (sod a lam) /\
  (sym a -> sym (sod a lam)).
Proof. by move=> l0; split; [exact: sod_diag | split; [exact: sod_unique | exact: sod_sym]]. Qed.
End SoftOd.
Lemma soft_sym n (a : 'M[R]_n) lam : sym a -> sym (soft_thresholding a lam).
Proof. by move=> h; apply/matrixP => i j; rewrite !mxE -{1}h mxE. Qed.

(** * laplacian *)
Section Lap.
Variables m n : nat.
Implicit Types a x : 'M[R]_(m, n).
Lemma lap_strong a lam x : 0 <= lam ->
  lam * fnorm2 (prox_laplacian a lam) + fnorm2 (prox_laplacian a lam - a) / 2%:R
   + 2%:R^-1 * fnorm2 (x - prox_laplacian a lam) <= lam * fnorm2 x + fnorm2 (x - a) / 2%:R.
Proof.
move=> l0; set s := prox_laplacian a lam.
have ea : a = (1 + 2%:R * lam) *: s.
  rewrite /s /prox_laplacian scalerA mulfV ?scale1r //.
  apply/eqP => h; mclra.
move: s ea => s ->.
have -> : x = (x - s) + s by lin.
move: (x - s) => d.
have -> : d + s - s = d by lin.
have -> : d + s - (1 + 2%:R * lam) *: s = d - (2%:R * lam) *: s by lin.
have -> : s - (1 + 2%:R * lam) *: s = - (2%:R * lam) *: s by lin.
rewrite fnorm2D fnorm2B !fnorm2Z fdotZr.
have h := fnorm2_ge0 d.
have := mulr_ge0 l0 h.
by move: (fnorm2 s) (fnorm2 d) (fdot d s) h => p q r h h'; mclra.
Qed.
Lemma lap_unique a lam : 0 <= lam ->
  unique_minimiser (@everywhere _) (fun X => lam * fnorm2 X + fnorm2 (X - a) / 2%:R)
    (prox_laplacian a lam).
Proof.
move=> l0; apply: (@strong_unique _ _ _ _ 2%:R^-1) => // [|x _]; first mclra.
exact: lap_strong.
Qed.
End Lap.

(** * eigendecomposition based operators *)
Section Eigh.
Variables (n : nat) (eigh : eigh_t n).
Hypothesis He : eigh_ok eigh.
Implicit Types A X Y : 'M[R]_n.

Lemma eighP A : sym A -> exists Q d, [/\ eigh A = (d, Q), orthogonal Q & A = sconj Q d].
Proof.
move=> sA; have := He sA; case E: (eigh A) => [d Q] [h1 h2].
exists Q, d; split=> //; first by apply: mulmx1C.
Qed.

Definition ld1 (lam a : R) : R := (- a + sqrt (a ^+ 2 + 4%:R / lam)) * lam / 2%:R.
Lemma ld1_spec lam a : 0 < lam -> 0 < ld1 lam a /\ ld1 lam a * (a + ld1 lam a / lam) = 1.
Proof.
move=> l0; rewrite /ld1.
have l4 : 0 < 4%:R / lam by apply: divr_gt0 => //; mclra.
have a2 : 0 <= a ^+ 2 by apply: sqr_ge0.
set s := sqrt _.
have s2 : s * s = a ^+ 2 + 4%:R / lam.
  by rewrite RmulE /s sqrt_sqrt //; apply/RleP/addr_ge0 => //; apply: ltW.
have s0 : 0 <= s by apply/RleP; apply: sqrt_pos.
have sa : `|a| < s.
  by rewrite -(@ltr_pexpn2r _ 2) ?nnegrE // -normrX ger0_norm // (expr2 s) s2 ltr_addl l4.
have sa' : 0 < - a + s by rewrite addrC subr_gt0; apply: le_lt_trans sa; apply: ler_norm.
split; first by do 2?apply: mulr_gt0 => //; mclra.
have ln0 : lam != 0 by apply: lt0r_neq0.
have -> : (- a + s) * lam / 2%:R * (a + (- a + s) * lam / 2%:R / lam) =
  (s * s - a ^+ 2) * lam / 4%:R by mcfield.
rewrite s2; mcfield => //; toR; done.
Qed.

Lemma prox_logdet_spec A lam : sym A -> 0 < lam ->
  pd (prox_logdet eigh A lam) /\
  invmx (prox_logdet eigh A lam) = A + lam^-1 *: prox_logdet eigh A lam.
Proof.
move=> sA l0; rewrite /prox_logdet; have [Q [d [-> oQ eA]]] := eighP sA.
set xi := \row_i _; rewrite -/(sconj Q xi).
have hxi i : 0 < xi 0 i /\ xi 0 i * (d 0 i + xi 0 i / lam) = 1.
  by rewrite mxE; apply: ld1_spec.
move: xi hxi => xi hxi.
have pX : pd (sconj Q xi) by apply: pd_sconj => // i; case: (hxi i).
split=> //; have uX := pd_unit pX.
rewrite -[RHS]mul1mx -(mulVmx uX) -mulmxA eA -sconjZ -sconjD sconj_mul //.
have -> : (\row_i (xi 0 i * (d + lam^-1 *: xi) 0 i)) = const_mx 1.
  apply/rowP => i; rewrite !mxE (mulrC lam^-1); by case: (hxi i).
by rewrite sconj1 // mulmx1.
Qed.

Definition logdet_obj A lam X : R := \tr (A *m X) - logdet X + fnorm2 X / (2%:R * lam).

Lemma tr_fdot A X : sym A -> \tr (A *m X) = fdot A X.
Proof. by move=> h; rewrite fdotE h. Qed.

(** X is pd and [A + X/lam = X^-1]: strong optimality *)
Lemma logdet_strong A lam X Y : sym A -> 0 < lam -> pd X ->
  invmx X = A + lam^-1 *: X -> pd Y ->
  logdet_obj A lam X + (2%:R * lam)^-1 * fnorm2 (Y - X) <= logdet_obj A lam Y.
Proof.
move=> sA l0 pX eX pY; have h := logdet_tangent pX pY.
rewrite /logdet_obj !tr_fdot //.
rewrite tr_fdot in h; last by rewrite eX; apply: symD => //; apply: symZ; apply: pd_sym.
rewrite eX fdotDl fdotZl fdotBr in h.
have -> : fnorm2 Y = fnorm2 X + 2%:R * fdot X (Y - X) + fnorm2 (Y - X).
  by rewrite -fnorm2D; congr fnorm2; lin.
have ln0 : lam != 0 by apply: lt0r_neq0.
have -> : (2%:R * lam)^-1 = lam^-1 / 2%:R by mcfield.
move: h; move: (lam^-1) => il h; clear -h; mclra.
Qed.

Lemma prox_logdet_unique A lam : sym A -> 0 < lam ->
  unique_minimiser (@pd n) (logdet_obj A lam) (prox_logdet eigh A lam).
Proof.
move=> sA l0; have [pX eX] := prox_logdet_spec sA l0.
apply: (@strong_unique _ _ _ _ (2%:R * lam)^-1) => // [|Y pY].
  by rewrite invr_gt0; apply: mulr_gt0 => //; mclra.
exact: logdet_strong.
Qed.

Definition ma1 (lam a : R) : R := (- a + sqrt (a ^+ 2 + 4%:R * lam)) / 2%:R.
Lemma ma1E lam a : 0 < lam -> ma1 lam a = ld1 lam (a / lam).
Proof.
move=> l0; rewrite /ma1 /ld1; have ln0 : lam != 0 by apply: lt0r_neq0.
have -> : sqrt (a ^+ 2 + 4%:R * lam) = lam * sqrt ((a / lam) ^+ 2 + 4%:R / lam).
  have -> : a ^+ 2 + 4%:R * lam = lam ^+ 2 * ((a / lam) ^+ 2 + 4%:R / lam) by mcfield.
  rewrite RmulE sqrt_mult; try apply/RleP.
  - by rewrite RsqrE sqrt_square //; apply/RleP/ltW.
  - exact: sqr_ge0.
  - by apply: addr_ge0; [exact: sqr_ge0 | apply: divr_ge0; [mclra|exact: ltW]].
by move: (sqrt _) => s; mcfield.
Qed.
Lemma ma_spec A lam : sym A -> 0 < lam ->
  pd (prox_logdet_ala_ma eigh A lam) /\
  invmx (prox_logdet_ala_ma eigh A lam) = lam^-1 *: A + lam^-1 *: prox_logdet_ala_ma eigh A lam.
Proof.
move=> sA l0; rewrite /prox_logdet_ala_ma; have [Q [d [-> oQ eA]]] := eighP sA.
set xi := \row_i _; rewrite -/(sconj Q xi).
have hxi i : 0 < xi 0 i /\ xi 0 i * (d 0 i / lam + xi 0 i / lam) = 1.
  by rewrite mxE -/(ma1 lam (d 0 i)) ma1E //; apply: ld1_spec.
move: xi hxi => xi hxi.
have pX : pd (sconj Q xi) by apply: pd_sconj => // i; case: (hxi i).
split=> //; have uX := pd_unit pX.
rewrite -[RHS]mul1mx -(mulVmx uX) -mulmxA eA -!sconjZ -sconjD sconj_mul //.
have -> : (\row_i (xi 0 i * (lam^-1 *: d + lam^-1 *: xi) 0 i)) = const_mx 1.
  apply/rowP => i; rewrite !mxE !(mulrC lam^-1); by case: (hxi i).
by rewrite sconj1 // mulmx1.
Qed.
Lemma ma_unique A lam : sym A -> 0 < lam ->
  unique_minimiser (@pd n) (fun X => - (lam * logdet X) + fnorm2 (X + A) / 2%:R)
    (prox_logdet_ala_ma eigh A lam).
Proof.
move=> sA l0; have [pX eX] := ma_spec sA l0.
have sA' : sym (lam^-1 *: A) by apply: symZ.
apply: (@strong_unique _ _ _ _ 2%:R^-1) => // [|Y pY]; first by mclra.
have := logdet_strong sA' l0 pX eX pY.
set X := prox_logdet_ala_ma eigh A lam; rewrite /logdet_obj !tr_fdot // !fdotZl.
rewrite !(fnorm2D _ A) !(fdotC _ A).
have ln0 : lam != 0 by apply: lt0r_neq0.
rewrite -(ler_pmul2l l0).
have -> : forall u v w r, lam * (lam^-1 * u - v + w / (2%:R * lam) + (2%:R * lam)^-1 * r)
   = u - lam * v + w / 2%:R + r / 2%:R by move=> u v w r; mcfield.
have -> : forall u v w, lam * (lam^-1 * u - v + w / (2%:R * lam)) = u - lam * v + w / 2%:R.
  by move=> u v w; mcfield.
by clear; move=> h; mclra.
Qed.

(** characterisation independent of the eigenbasis *)
Lemma prox_logdet_char A lam X : sym A -> 0 < lam -> pd X ->
  invmx X = A + lam^-1 *: X -> prox_logdet eigh A lam = X.
Proof.
move=> sA l0 pX eX; have [pP eP] := prox_logdet_spec sA l0.
have h1 := logdet_strong sA l0 pX eX pP.
have h2 := logdet_strong sA l0 pP eP pX.
have e : fnorm2 (prox_logdet eigh A lam - X) = fnorm2 (X - prox_logdet eigh A lam).
  by rewrite -fnorm2N opprB.
have i0 : 0 < (2%:R * lam)^-1 by rewrite invr_gt0; apply: mulr_gt0 => //; mclra.
have : (2%:R * lam)^-1 * fnorm2 (prox_logdet eigh A lam - X) <= 0.
  rewrite e in h1 *; clear -h1 h2; mclra.
rewrite pmulr_rle0 // => h3.
apply/eqP; rewrite -subr_eq0; apply/eqP; apply: fnorm2_eq0; apply/eqP.
by rewrite eq_le h3 fnorm2_ge0.
Qed.

(** subgradient form, tested against positive definite competitors *)
Lemma prox_logdet_subgrad S A rho Y : sym A -> sym S -> 0 < rho -> pd Y ->
  let X := prox_logdet eigh (S - rho *: A) rho^-1 in
  \tr (S *m X) - logdet X + fdot (- rho *: (X - A)) (Y - X) <= \tr (S *m Y) - logdet Y.
Proof.
move=> sA sS r0 pY /=; set X := prox_logdet _ _ _.
have sSA : sym (S - rho *: A) by apply: symB => //; apply: symZ.
have ir0 : 0 < rho^-1 by rewrite invr_gt0.
have [pX eX] := prox_logdet_spec sSA ir0; rewrite -/X invrK in pX eX.
have h := logdet_tangent pX pY.
rewrite tr_fdot in h; last by apply: sym_inv; apply: pd_sym.
rewrite !tr_fdot // in h *.
have -> : - rho *: (X - A) = S - invmx X by rewrite eX; lin.
rewrite fdotBr in h; rewrite fdotBl !fdotBr.
by clear -h; mclra.
Qed.

(** * prox_trace_indicator *)
Lemma tr1_ge0 (x lam : R) : 0 <= np_max (x - lam) 0 + lam - x.
Proof. rewrite /np_max; case: (ltrP (x - lam) 0) => h; mclra. Qed.
Lemma tr1_compl (x lam : R) : (np_max (x - lam) 0 + lam - x) * np_max (x - lam) 0 = 0.
Proof.
rewrite /np_max; case: (ltrP (x - lam) 0) => h; first by rewrite mulr0.
have -> : x - lam + lam - x = 0 by mcring.
by rewrite mul0r.
Qed.
Lemma prox_trace_spec A lam : sym A -> 0 <= lam ->
  let X := prox_trace_indicator eigh A lam in
  [/\ psd X, psd (X + lam%:M - A) & fdot (X + lam%:M - A) X = 0].
Proof.
move=> sA l0; rewrite /prox_trace_indicator; have [Q [d [-> oQ eA]]] := eighP sA.
set xi := \row_i _; rewrite -/(sconj Q xi).
have hx i : 0 <= xi 0 i.
  by rewrite mxE /np_max; case: ltrP.
have eL : lam%:M = sconj Q (const_mx lam).
  have -> : const_mx lam = lam *: const_mx 1 :> 'rV[R]_n.
    by apply/rowP => i; rewrite !mxE mulr1.
  by rewrite sconjZ sconj1 // scalemx1.
have e2 : sconj Q xi + lam%:M - A = sconj Q (xi + const_mx lam - d).
  by rewrite eL eA -scaleN1r -sconjZ scaleN1r -!sconjD.
split; first exact: psd_sconj.
  by rewrite e2; apply: psd_sconj => i; rewrite !mxE; apply: tr1_ge0.
rewrite e2 fdotE sconj_sym sconj_mul // sconj_tr // big1 // => i _.
by rewrite !mxE; apply: tr1_compl.
Qed.

Definition trace_obj A lam X : R := lam * \tr X + fnorm2 (X - A) / 2%:R.
Lemma trace_strong A lam X Y : psd X -> psd (X + lam%:M - A) -> fdot (X + lam%:M - A) X = 0 ->
  psd Y -> trace_obj A lam X + 2%:R^-1 * fnorm2 (Y - X) <= trace_obj A lam Y.
Proof.
move=> pX pM e pY; rewrite /trace_obj.
have h := psd_fdot_ge0 pM pY.
have h2 : 0 <= fdot (X + lam%:M - A) (Y - X) by rewrite fdotBr e subr0.
have -> : Y - A = (X - A) + (Y - X) by lin.
rewrite [fnorm2 (X - A + _)]fnorm2D.
have -> : \tr Y = \tr X + \tr (Y - X) by rewrite linearB /= addrC subrK.
have : 0 <= fdot (X - A) (Y - X) + lam * \tr (Y - X).
  have <- : fdot (lam%:M) (Y - X) = lam * \tr (Y - X).
    by rewrite fdotE tr_scalar_mx mul_scalar_mx linearZ.
  by rewrite -fdotDl addrAC.
by clear; move=> h; mclra.
Qed.
Lemma prox_trace_unique A lam : sym A -> 0 <= lam ->
  unique_minimiser (@psd n) (trace_obj A lam) (prox_trace_indicator eigh A lam).
Proof.
move=> sA l0; have [h1 h2 h3] := prox_trace_spec sA l0.
apply: (@strong_unique _ _ _ _ 2%:R^-1) => // [|Y pY]; first mclra.
exact: trace_strong.
Qed.
End Eigh.

Lemma prox_logdet_indep n eigh eigh' (A : 'M[R]_n) lam :
  eigh_ok eigh -> eigh_ok eigh' -> sym A -> 0 < lam ->
  prox_logdet eigh A lam = prox_logdet eigh' A lam.
Proof.
move=> h h' sA l0; have [h1 h2] := prox_logdet_spec h' sA l0.
exact: prox_logdet_char.
Qed.
