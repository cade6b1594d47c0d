(** Proofs for the block update of the retired group lasso solver. *)
From Coq Require Import Reals Lra.
From mathcomp Require Import all_ssreflect all_algebra.
From Verif Require Import RStruct RTac LinTac S_Mat RMx NP M_Utils M_OldGLO P_GLM5.
Import Order.TTheory GRing.Theory Num.Theory.

Set Implicit Arguments.
Unset Strict Implicit.
Unset Printing Implicit Defensive.
Local Open Scope ring_scope.

(** the problem of one block: 1/2 |Ax - b|^2 + kappa |x| *)
Definition block_problem m n (A : 'M[R]_(m, n)) (b : 'cV[R]_m) (kappa : R) (x : 'cV[R]_n) : R :=
  fnorm2 (A *m x - b) / 2%:R + kappa * fnorm x.

Section Block.
Variables (m n : nat) (A : 'M[R]_(m, n)) (b : 'cV[R]_m).
Notation q := (A^T *m b).
Implicit Types (x y d : 'cV[R]_n) (t k : R).

Lemma fdotA x (c : 'cV[R]_m) : fdot (A *m x) c = fdot x (A^T *m c).
Proof.
have e p (u v : 'cV[R]_p) : fdot u v = (u^T *m v) 0 0.
  by rewrite /fdot mxE; apply: eq_bigr => i _; rewrite big_ord1 mxE.
by rewrite !e trmx_mul mulmxA.
Qed.
Lemma fnorm_pos x : x != 0 -> 0 < fnorm x.
Proof. by move=> h; apply/RltP/sqrt_lt_R0/RltP/fnorm2_gt0/eqP. Qed.

(** expansion of the smooth part *)
Lemma smooth_expand x d : fnorm2 (A *m (x + d) - b) = fnorm2 (A *m x - b) + 2%:R * fdot d (A^T *m (A *m x) - q) + fnorm2 (A *m d).
Proof.
have -> : A *m (x + d) - b = (A *m x - b) + A *m d by rewrite mulmxDr; lin.
by rewrite fnorm2D fdotC fdotA mulmxBr.
Qed.

Lemma stationary_min x t y : 0 <= t -> A^T *m (A *m x) + t *: x = q ->
  block_problem A b (t * fnorm x) x <= block_problem A b (t * fnorm x) y.
Proof.
move=> t0 e; rewrite /block_problem; have -> : y = x + (y - x) by lin.
rewrite smooth_expand; have -> : A^T *m (A *m x) - q = - (t *: x) by rewrite -e; lin.
have -> : x + (y - x) = y by lin.
rewrite fdotNr fdotZr fdotBl -fnorm2E -(fnorm_sqr x).
have h1 := fnorm2_ge0 (A *m (y - x)); have h2 := fdot_cauchy y x.
have h3 : 0 <= t * (fnorm y * fnorm x - fdot y x) by rewrite mulr_ge0 // subr_ge0.
move: h1 h3; set a := fnorm2 (A *m x - b); set c := fnorm2 _; set p := fdot y x; set r := fnorm y; set s := fnorm x.
clearbody a c p r s => h1 h3; have num (T a' c' p' r' s' : R) : 0 <= c' -> 0 <= T * (r' * s' - p') ->
   a' / 2%:R + T * s' * s' <= (a' + 2%:R * - (T * (p' - s' ^+ 2)) + c') / 2%:R + T * s' * r' by move=> g1 g2; mclra.
exact: num.
Qed.

Lemma sqrt_above (a d : R) : 0 < a -> 0 <= a ^+ 2 + d -> sqrt (a ^+ 2 + d) <= a + d / (2%:R * a).
Proof.
move=> a0 h; apply/RleP.
have p : 0 <= a + d / (2%:R * a).
  have -> : a + d / (2%:R * a) = (a ^+ 2 + (a ^+ 2 + d)) / (2%:R * a).
    have num (x y : R) : 0 < x -> x + y / (2%:R * x) = (x ^+ 2 + (x ^+ 2 + y)) / (2%:R * x).
      move=> x0; have xn : x != 0 by rewrite gt_eqF.
      by mcfield.
    exact: num.
  by apply: divr_ge0; [rewrite addr_ge0 ?sqr_ge0 | rewrite mulr_ge0 ?ler0n // ltW].
rewrite -[X in Rle _ X]sqrt_Rsqr; last exact/RleP.
apply: sqrt_le_1_alt; apply/RleP.
have -> : Rsqr (a + d / (2%:R * a)) = a ^+ 2 + d + (d / (2%:R * a)) ^+ 2.
  have num (x y : R) : 0 < x -> (x + y / (2%:R * x)) * (x + y / (2%:R * x)) = x ^+ 2 + y + (y / (2%:R * x)) ^+ 2.
    move=> x0; have xn : x != 0 by rewrite gt_eqF.
    by mcfield.
  exact: num.
by rewrite ler_addl sqr_ge0.
Qed.

Lemma small_step (g C : R) : (forall e : R, 0 <= e * g + e ^+ 2 * C) -> g = 0.
Proof.
move=> h; have h0 := h (- g / (2%:R * (`|C| + 1))).
have c0 := normr_ge0 C; have c1 : C <= `|C| := ler_norm C.
move: h0 c0 c1; set c := `|C| => h0 c0 c1.
have num (u v w : R) : 0 <= v -> w <= v -> - u / (2%:R * (v + 1)) * u + (- u / (2%:R * (v + 1))) ^+ 2 * w <= - (u ^+ 2 / (4%:R * (v + 1))).
  move=> v0 wv.
  have -> : - u / (2%:R * (v + 1)) * u + (- u / (2%:R * (v + 1))) ^+ 2 * w = - (u ^+ 2 / (2%:R * (v + 1))) * (1 - w / (2%:R * (v + 1))).
    have p : 0 < v + 1 by mclra.
    have pn : v + 1 != 0 by rewrite gt_eqF.
    by mcfield.
  have p : 0 < v + 1 by mclra.
  have q1 : w / (2%:R * (v + 1)) <= 1 / 2%:R by rewrite ler_pdivr_mulr ?mulr_gt0 ?ltr0n //; mclra.
  have s : 0 <= u ^+ 2 / (2%:R * (v + 1)) by rewrite divr_ge0 ?sqr_ge0 // mulr_ge0 ?ler0n ?ltW.
  have -> : u ^+ 2 / (4%:R * (v + 1)) = u ^+ 2 / (2%:R * (v + 1)) * (1 / 2%:R).
    have pn : v + 1 != 0 by rewrite gt_eqF.
    by mcfield.
  move: s q1; set s := u ^+ 2 / _; set z := w / _; move=> s0 z0; by mcnra.
have h1 := le_trans h0 (num _ _ _ c0 c1).
have p : 0 < 4%:R * (c + 1) by rewrite mulr_gt0 ?ltr0n //; mclra.
have : g ^+ 2 <= 0 by rewrite -(ler_pmul2r (_ : 0 < (4%:R * (c + 1))^-1)) ?invr_gt0 // mul0r -oppr_ge0.
by move=> h2; apply/eqP; rewrite -sqrf_eq0; apply/eqP/le_anti; rewrite h2 sqr_ge0.
Qed.

(** zero is a minimiser exactly when |q| <= kappa *)
Lemma zero_min k : 0 <= k -> fnorm q <= k -> forall y, block_problem A b k 0 <= block_problem A b k y.
Proof.
move=> k0 h y; have se := smooth_expand 0 y; rewrite add0r !mulmx0 !sub0r fdotNr in se.
rewrite /block_problem mulmx0 sub0r se.
have f0 : fnorm (0 : 'cV[R]_n) = 0 by rewrite /fnorm fnorm2_0; exact: sqrt_0.
have h1 := fdot_cauchy y q; have h2 := fnorm2_ge0 (A *m y); have h3 := fnorm_ge0 y; have h4 := fnorm_ge0 q.
rewrite f0; move: h1 h2 h3 h4 h; set p := fdot y q; set c := fnorm2 (A *m y); set r := fnorm y; set s := fnorm q; set a := fnorm2 (- b).
clearbody p c r s a => h1 h2 h3 h4 h5; by mcnra.
Qed.
Lemma zero_not_min k : 0 <= k -> k < fnorm q -> ~ (forall y, block_problem A b k 0 <= block_problem A b k y).
Proof.
move=> k0 h hm; have qp : 0 < fnorm q := le_lt_trans k0 h.
pose C := fnorm2 (A *m q); have C0 : 0 <= C := fnorm2_ge0 _.
pose e := (fnorm q - k) * fnorm q / (C + 1).
have c1 : 0 < C + 1 by rewrite ltr_spaddr ?ltr01.
have e0 : 0 < e by rewrite /e divr_gt0 // mulr_gt0 // subr_gt0.
have se := smooth_expand 0 (e *: q); rewrite add0r !mulmx0 !sub0r fdotNr in se.
have := hm (e *: q); rewrite /block_problem mulmx0 sub0r se.
have f0 : fnorm (0 : 'cV[R]_n) = 0 by rewrite /fnorm fnorm2_0; exact: sqrt_0.
have fe : fnorm (e *: q) = e * fnorm q.
  rewrite /fnorm fnorm2Z RsqrE sqrt_mult_alt; last by apply/RleP; rewrite mulr_ge0 // ltW.
  by rewrite sqrt_square //; apply/RleP/ltW.
rewrite f0 fe fdotZl -fnorm2E -(fnorm_sqr q) -scalemxAr fnorm2Z -/C.
have ee : e * (C + 1) = (fnorm q - k) * fnorm q by rewrite /e divfK // gt_eqF.
move: qp ee e0 C0 h; set s := fnorm q; set a := fnorm2 (- b); clearbody e C s a => qp ee e0 C0 h hh.
have x : 0 <= e * (e * C / 2%:R - (s - k) * s).
  have num (a' e' s' C' k' : R) : a' / 2%:R + k' * 0 <= (a' + 2%:R * - (e' * s' ^+ 2) + e' ^+ 2 * C') / 2%:R + k' * (e' * s') ->
    0 <= e' * (e' * C' / 2%:R - (s' - k') * s') by move=> hx; mclra.
  exact: num hh.
rewrite pmulr_rge0 // -ee in x.
have y : 0 <= e * C by rewrite mulr_ge0 // ltW.
have num (u v : R) : 0 <= u -> 0 < v -> 0 <= u / 2%:R - (u + v) -> False by move=> u0 v0 hx; mclra.
by apply: (num (e * C) e y e0); have -> : e * C + e = e * (C + 1) by rewrite mulrDr mulr1.
Qed.
(** a minimiser that is not zero is stationary *)
Lemma min_stationary k x : x != 0 -> (forall y, block_problem A b k x <= block_problem A b k y) -> 0 <= k ->
  A^T *m (A *m x) + (k / fnorm x) *: x = q.
Proof.
move=> x0 hm k0; have xp := fnorm_pos x0.
pose g := A^T *m (A *m x) - q + (k / fnorm x) *: x.
suff g0 : fdot g g = 0 by rewrite -fnorm2E in g0; have {}g0 := fnorm2_eq0 g0; apply/eqP; rewrite -subr_eq0; apply/eqP; rewrite -[RHS]g0 /g; lin.
apply: (@small_step _ (fnorm2 (A *m g) / 2%:R + k * fnorm2 g / (2%:R * fnorm x))) => e.
have := hm (x + e *: g); rewrite /block_problem smooth_expand.
have eN : fnorm2 (x + e *: g) = fnorm x ^+ 2 + (2%:R * (e * fdot x g) + e ^+ 2 * fnorm2 g).
  by rewrite fnorm2D fdotZr fnorm2Z fnorm_sqr addrA.
have hs := sqrt_above (d := 2%:R * (e * fdot x g) + e ^+ 2 * fnorm2 g) xp; rewrite -eN in hs; move/(_ (fnorm2_ge0 _)): hs.
rewrite -[sqrt (fnorm2 (x + e *: g))]/(fnorm (x + e *: g)) => hs.
have := ler_wpmul2l k0 hs; rewrite fdotZl -scalemxAr fnorm2Z.
have gE : fdot g g = fdot g (A^T *m (A *m x) - q) + k / fnorm x * fdot x g by rewrite {2}/g fdotDr fdotZr (fdotC g x).
rewrite gE; set u := fdot g _; set v := fdot x g; set w := fnorm2 (A *m g); set z := fnorm2 g; set N := fnorm (x + e *: g); set a := fnorm2 _.
move: xp; set s := fnorm x; clearbody u v w z N a s g => s0 h1 h2.
have num (k' e' u' v' w' z' N' a' s' : R) : 0 < s' -> k' * N' <= k' * (s' + (2%:R * (e' * v') + e' ^+ 2 * z') / (2%:R * s')) ->
  a' / 2%:R + k' * s' <= (a' + 2%:R * (e' * u') + e' ^+ 2 * w') / 2%:R + k' * N' ->
  0 <= e' * (u' + k' / s' * v') + e' ^+ 2 * (w' / 2%:R + k' * z' / (2%:R * s')).
  move=> s0' g1 g2.
  have -> : e' * (u' + k' / s' * v') + e' ^+ 2 * (w' / 2%:R + k' * z' / (2%:R * s')) =
    (a' + 2%:R * (e' * u') + e' ^+ 2 * w') / 2%:R + k' * (s' + (2%:R * (e' * v') + e' ^+ 2 * z') / (2%:R * s')) - (a' / 2%:R + k' * s').
    have sn : s' != 0 by rewrite gt_eqF.
    by mcfield.
  by rewrite subr_ge0; apply: le_trans g2 _; rewrite ler_add2l.
exact: num s0 h1 h2.
Qed.

(** two solutions for two multipliers *)
Lemma solution_gap x y t s : 0 <= t -> A^T *m (A *m x) + t *: x = q -> A^T *m (A *m y) + s *: y = q ->
  t * fnorm (x - y) <= `|s - t| * fnorm y.
Proof.
move=> t0 ex ey; case: (x =P y) => [->|/eqP ne].
  by rewrite subrr /fnorm fnorm2_0 sqrt_0 mulr0 mulr_ge0 ?normr_ge0 ?fnorm_ge0.
pose d := x - y; have dp : 0 < fnorm d by apply: fnorm_pos; rewrite subr_eq0.
have e : A^T *m (A *m d) + t *: d = (s - t) *: y.
  have -> : A^T *m (A *m d) + t *: d = (A^T *m (A *m x) + t *: x) - (A^T *m (A *m y) + s *: y) + (s - t) *: y by rewrite /d !mulmxBr; lin.
  by rewrite ex ey subrr add0r.
have : fdot d (A^T *m (A *m d) + t *: d) = (s - t) * fdot d y by rewrite e fdotZr.
rewrite fdotDr fdotZr -fdotA -!fnorm2E -(fnorm_sqr d) => h.
have h1 := fnorm2_ge0 (A *m d).
have h2 : (s - t) * fdot d y <= `|s - t| * fnorm d * fnorm y.
  apply: le_trans (ler_norm _) _; rewrite normrM -mulrA ler_wpmul2l ?normr_ge0 // ler_norml fdot_cauchy andbT.
  by rewrite ler_oppl -fdotNr (le_trans (fdot_cauchy _ _)) // /fnorm fnorm2N.
rewrite -(ler_pmul2l dp); have -> : fnorm d * (t * fnorm d) = t * fnorm d ^+ 2 by rewrite expr2 mulrCA.
have -> : fnorm d * (`|s - t| * fnorm y) = `|s - t| * fnorm d * fnorm y by rewrite mulrCA mulrA.
by apply: le_trans h2; rewrite -h ler_addr.
Qed.
Lemma solution_unique x y t : 0 < t -> A^T *m (A *m x) + t *: x = q -> A^T *m (A *m y) + t *: y = q -> x = y.
Proof.
move=> t0 ex ey; have := solution_gap (ltW t0) ex ey; rewrite subrr normr0 mul0r pmulr_rle0 // => h.
apply/eqP; rewrite -subr_eq0; apply/eqP; apply: fnorm2_eq0; rewrite -fnorm_sqr.
by have -> : fnorm (x - y) = 0 by [apply: le_anti; rewrite h fnorm_ge0]; rewrite expr0n.
Qed.

(** the eigenvalues and eigenvectors of A^T A *)
Variables (V : 'M[R]_n) (D : 'rV[R]_n).
Hypotheses (VV : V^T *m V = 1%:M) (AV : A^T *m A = V *m diag_mx D *m V^T).

Lemma eig_ge0 i : 0 <= D 0 i.
Proof.
have e : V^T *m (A^T *m A) *m V = diag_mx D by rewrite AV !mulmxA VV mul1mx -mulmxA VV mulmx1.
have -> : D 0 i = (V^T *m (A^T *m A) *m V) i i by rewrite e mxE eqxx mulr1n.
have -> : V^T *m (A^T *m A) *m V = (A *m V)^T *m (A *m V) by rewrite trmx_mul !mulmxA.
by rewrite mxE sumr_ge0 // => k _; rewrite mxE -expr2 sqr_ge0.
Qed.
Lemma point_solves t : 0 < t -> A^T *m (A *m xu_point V D q t) + t *: xu_point V D q t = q.
Proof.
move=> t0; rewrite /xu_point; set w := \col_i _.
have VVt : V *m V^T = 1%:M by apply: mulmx1C.
rewrite mulmxA AV; have -> : V *m diag_mx D *m V^T *m (V *m w) = V *m (diag_mx D *m w).
  by rewrite -[in LHS](mulmxA (V *m _)) (mulmxA V^T) VV mul1mx -mulmxA.
rewrite scalemxAr -mulmxDr; have -> : diag_mx D *m w + t *: w = V^T *m q.
  apply/matrixP=> i j; rewrite mul_diag_mx !mxE ord1 -mulrDl mulrCA divff ?mulr1 ?mxE //.
  by rewrite gt_eqF // ltr_paddl // eig_ge0.
by rewrite mulmxA VVt mul1mx.
Qed.
Lemma point_norm t : fnorm2 (xu_point V D q t) = \sum_i ((V^T *m q) i 0 / (D 0 i + t)) ^+ 2.
Proof.
rewrite /xu_point; set w := \col_i _.
have -> : fnorm2 (V *m w) = fnorm2 w.
  rewrite !fnorm2E; have e p (u v : 'cV[R]_p) : fdot u v = (u^T *m v) 0 0.
    by rewrite /fdot mxE; apply: eq_bigr => i _; rewrite big_ord1 mxE.
  by rewrite !e trmx_mul mulmxA -[in LHS](mulmxA w^T) VV mulmx1.
by rewrite /fnorm2; apply: eq_bigr => i _; rewrite big_ord1 mxE.
Qed.
Lemma q_norm : fnorm2 q = \sum_i ((V^T *m q) i 0) ^+ 2.
Proof.
have VVt : V *m V^T = 1%:M by apply: mulmx1C.
have e p (u v : 'cV[R]_p) : fdot u v = (u^T *m v) 0 0.
  by rewrite /fdot mxE; apply: eq_bigr => i _; rewrite big_ord1 mxE.
have -> : fnorm2 q = fnorm2 (V^T *m q).
  by move: (q) => z; rewrite !fnorm2E !e trmx_mul trmxK mulmxA -[in RHS](mulmxA z^T) VVt mulmx1.
by rewrite /fnorm2; apply: eq_bigr => i _; rewrite big_ord1.
Qed.
Definition phi2 t : R := \sum_i (t * (V^T *m q) i 0 / (D 0 i + t)) ^+ 2.
Lemma phi2E t : phi2 t = (t * fnorm (xu_point V D q t)) ^+ 2.
Proof. by rewrite exprMn fnorm_sqr point_norm mulr_sumr; apply: eq_bigr => i _; rewrite -mulrA exprMn. Qed.
Lemma ratio_le (s t c : R) : 0 < s -> s <= t -> 0 <= c -> s / (c + s) <= t / (c + t).
Proof.
move=> s0 st c0; have t0 := lt_le_trans s0 st.
rewrite ler_pdivr_mulr ?ltr_paddl // mulrAC ler_pdivl_mulr ?ltr_paddl //; by mcnra.
Qed.
Lemma termE (t y c : R) : (t * y / c) ^+ 2 = (t / c) ^+ 2 * y ^+ 2.
Proof. by rewrite mulrAC exprMn. Qed.
Lemma phi2_mono s t : 0 < s -> s <= t -> phi2 s <= phi2 t.
Proof.
move=> s0 st; apply: ler_sum => i _; rewrite !termE ler_wpmul2r ?sqr_ge0 //.
have c0 := eig_ge0 i; have t0 := lt_le_trans s0 st.
by rewrite ler_expn2r ?nnegrE ?ratio_le // divr_ge0 // ltW // ltr_paddl.
Qed.
Lemma phi2_strict s t : 0 < s -> s < t -> phi2 t <= phi2 s -> phi2 s = fnorm2 q.
Proof.
move=> s0 st h; have t0 := lt_trans s0 st.
have term i : 0 <= (t * (V^T *m q) i 0 / (D 0 i + t)) ^+ 2 - (s * (V^T *m q) i 0 / (D 0 i + s)) ^+ 2.
  rewrite subr_ge0 !termE ler_wpmul2r ?sqr_ge0 //.
  by rewrite ler_expn2r ?nnegrE ?ratio_le ?eig_ge0 ?(ltW st) // divr_ge0 // ltW // ltr_paddl // eig_ge0.
have z : \sum_i ((t * (V^T *m q) i 0 / (D 0 i + t)) ^+ 2 - (s * (V^T *m q) i 0 / (D 0 i + s)) ^+ 2) = 0.
  apply: le_anti; rewrite sumr_ge0 ?andbT => [|i _]; last exact: term.
  by rewrite sumrB subr_le0.
have z' i : (t * (V^T *m q) i 0 / (D 0 i + t)) ^+ 2 - (s * (V^T *m q) i 0 / (D 0 i + s)) ^+ 2 = 0.
  by move/eqP: z; rewrite psumr_eq0 => [/allP /(_ i (mem_index_enum i)) /= /eqP ->|k _].
rewrite q_norm; apply: eq_bigr => i _; have := z' i; rewrite !termE -mulrBl.
have c0 := eig_ge0 i; move: c0; set y := (V^T *m q) i 0; set c := D 0 i; clearbody y c => c0.
move/eqP; rewrite mulf_eq0 => /orP [|/eqP ->]; last by rewrite !mulr0.
have cs : 0 < c + s by rewrite ltr_paddl.
have ct : 0 < c + t by rewrite ltr_paddl.
rewrite subr_eq0 eqf_sqr => /orP [/eqP r|/eqP r].
  have c1 : c = 0.
    have : t * (c + s) = s * (c + t).
      have e1 : t / (c + t) * (c + t) * (c + s) = t * (c + s) by rewrite divfK // gt_eqF.
      have e2 : s / (c + s) * (c + s) * (c + t) = s * (c + t) by rewrite divfK // gt_eqF.
      by rewrite -e1 -e2 r mulrAC.
    rewrite !mulrDr (mulrC t s) => /addIr /eqP; rewrite -[_ == _]subr_eq0 -mulrBl mulf_eq0 subr_eq0 (gt_eqF st) /= => /eqP //.
  by rewrite c1 add0r divff ?gt_eqF // expr1n mul1r.
have p1 : 0 < t / (c + t) by rewrite divr_gt0.
have p2 : 0 < s / (c + s) by rewrite divr_gt0.
by move: p1; rewrite r oppr_gt0 ltNge ltW.
Qed.
End Block.
