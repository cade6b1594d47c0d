(** Proofs: variational inequality, group soft-thresholding, pair update, fused lasso,
    norm/prox pairs, step size rules. *)
From Coq Require Import Reals Lra Psatz String.
From mathcomp Require Import all_ssreflect all_algebra.
From Verif Require Import RStruct RTac LinTac Spectral S_Mat RMx ADMM NP Str M_Prox P_Prox.
Import Order.TTheory GRing.Theory Num.Theory.

Set Implicit Arguments.
Unset Strict Implicit.
Unset Printing Implicit Defensive.
Local Open Scope ring_scope.

(** a + t b <= ... for every small t *)
Lemma le0_lim (a b : R) : (forall t, 0 < t -> t <= 1 -> 0 <= a + t * b) -> 0 <= a.
Proof.
move=> h; rewrite leNgt; apply/negP => a0.
have [b0|b0] := lerP b 0.
  have := h 1 ltr01 (lexx _); rewrite mul1r leNgt => /negP; apply.
  by clear -a0 b0; mclra.
pose t := np_min 1 (- a / (2%:R * b)).
have t1 : 0 < - a / (2%:R * b).
  by apply: divr_gt0; [rewrite oppr_gt0 | apply: mulr_gt0 => //; mclra].
have t0 : 0 < t /\ t <= 1 /\ t <= - a / (2%:R * b).
  rewrite /t /np_min; case: (ltrP (- a / (2%:R * b)) 1) => h1; rewrite ?ltr01 ?lexx ?h1; do ?split=> //; exact: ltW.
case: t0 => t0 [t2 t3].
have := h t t0 t2; apply/negP; rewrite -ltNge.
have : t * b <= - a / (2%:R * b) * b by rewrite ler_wpmul2r // ltW.
have -> : - a / (2%:R * b) * b = - a / 2%:R.
  have bn0 : b != 0 by apply: lt0r_neq0.
  by mcfield.
by move: (t * b) => tb h2; clear -h2 a0; mclra.
Qed.

Section Variational.
Variables (V : lmodType R) (d : innerp V) (D : V -> Prop) (f : V -> R).
Definition convex_on := forall x y t, D x -> D y -> 0 < t -> t <= 1 ->
  D (x + t *: (y - x)) /\ f (x + t *: (y - x)) <= (1 - t) * f x + t * f y.

(** first order condition for a minimiser of f + |.-a|^2/2 *)
Lemma prox_variational a xs : convex_on ->
  minimiser D (fun x => f x + d (x - a) (x - a) / 2%:R) xs ->
  forall y, D y -> f xs + d (a - xs) (y - xs) <= f y.
Proof.
move=> cf [Dx hx] y Dy; rewrite -subr_ge0.
apply: (@le0_lim _ (d (y - xs) (y - xs) / 2%:R)) => t t0 t1.
have [Dt ft] := cf _ _ t Dx Dy t0 t1.
have := hx _ Dt.
have -> : xs + t *: (y - xs) - a = (xs - a) + t *: (y - xs) by lin.
rewrite (nrm2D d (xs - a)) ipZl !ipZr.
have -> : d (xs - a) (y - xs) = - d (a - xs) (y - xs) by rewrite -ipNl opprB.
move: (d (xs - a) (xs - a)) (d (a - xs) (y - xs)) (d (y - xs) (y - xs)) ft.
move: (f (xs + _)) (f xs) (f y) => fz fx fy p q r ft hz.
rewrite -(pmulr_rge0 _ t0).
have -> : t * (fy - (fx + q) + t * (r / 2%:R)) =
  (1 - t) * fx + t * fy - fx - t * q + t * (t * r) / 2%:R by mcring.
by clear -hz ft; mclra.
Qed.

(** conversely a subgradient gives strong optimality *)
Lemma subgrad_strong a xs : D xs ->
  (forall y, D y -> f xs + d (a - xs) (y - xs) <= f y) ->
  forall y, D y -> f xs + d (xs - a) (xs - a) / 2%:R + d (y - xs) (y - xs) / 2%:R
    <= f y + d (y - a) (y - a) / 2%:R.
Proof.
move=> Dx h y Dy; have := h y Dy.
have -> : y - a = (y - xs) - (a - xs) by lin.
rewrite (nrm2B d (y - xs)) (ipC d (y - xs) (a - xs)).
have -> : d (xs - a) (xs - a) = d (a - xs) (a - xs) by rewrite -(opprB a) ipNl ipNr opprK.
by clear; move=> h; mclra.
Qed.
End Variational.

Lemma subgrad_unique m n (f : 'M[R]_(m, n) -> R) a xs :
  (forall y, f xs + fdot (a - xs) (y - xs) <= f y) ->
  unique_minimiser (@everywhere _) (fun X => f X + fnorm2 (X - a) / 2%:R) xs.
Proof.
move=> h; apply: (@strong_unique _ _ _ _ 2%:R^-1) => // [|y _]; first mclra.
have := @subgrad_strong _ (mat_ip m n) (@everywhere _) f a xs I (fun y _ => h y) y I.
by rewrite /= -!fnorm2E [2%:R^-1 * _]mulrC.
Qed.

(** * group soft-thresholding *)
Section Vec.
Variable n : nat.
Implicit Types a x : 'rV[R]_n.

Lemma row_normE a : row_norm a = fnorm a.
Proof. by rewrite /row_norm /fnorm /fnorm2 big_ord1. Qed.
Lemma row_norm_ge0 a : 0 <= row_norm a.
Proof. by rewrite row_normE fnorm_ge0. Qed.
Lemma row_norm_sqr a : row_norm a * row_norm a = fdot a a.
Proof. by rewrite row_normE -expr2 fnorm_sqr fnorm2E. Qed.
Lemma row_norm_eq0 a : row_norm a = 0 -> a = 0.
Proof. by move=> h; apply: fdotAA_eq0; rewrite -row_norm_sqr h mulr0. Qed.
Lemma row_norm0 : row_norm (0 : 'rV[R]_n) = 0.
Proof. by rewrite row_normE /fnorm fnorm2_0 sqrt_0. Qed.
Lemma row_normZ c a : 0 <= c -> row_norm (c *: a) = c * row_norm a.
Proof.
move=> c0; rewrite !row_normE /fnorm fnorm2Z RmulE sqrt_mult; try apply/RleP.
- by rewrite RsqrE sqrt_square //; apply/RleP.
- exact: sqr_ge0.
- exact: fnorm2_ge0.
Qed.
Lemma row_cauchy a x : fdot a x <= row_norm a * row_norm x.
Proof.
have := cauchy_le (mat_ip 1 n) a x.
by rewrite !row_normE /nrm /fnorm /= -!fnorm2E.
Qed.

(** the value of soft_thresholding_vector as a finite vector *)
Definition stv a lam : 'rV[R]_n :=
  if lam < row_norm a then (1 - lam / row_norm a) *: a else 0.

Lemma stv_unique a lam : 0 <= lam ->
  unique_minimiser (@everywhere _) (fun x => lam * row_norm x + fnorm2 (x - a) / 2%:R) (stv a lam).
Proof.
move=> l0; apply: (@subgrad_unique _ _ (fun x => lam * row_norm x)) => y.
rewrite /stv; case: ltrP => h.
  have N0 : 0 < row_norm a by apply: le_lt_trans h.
  have Nn0 : row_norm a != 0 by apply: lt0r_neq0.
  have f0 : 0 <= 1 - lam / row_norm a by rewrite subr_ge0 ler_pdivr_mulr // mul1r ltW.
  rewrite row_normZ //.
  have -> : a - (1 - lam / row_norm a) *: a = (lam / row_norm a) *: a by lin.
  rewrite fdotZl fdotBr fdotZr -row_norm_sqr.
  have h1 : lam / row_norm a * fdot a y <= lam * row_norm y.
    rewrite mulrAC ler_pdivr_mulr // -mulrA; apply: ler_wpmul2l => //.
    by rewrite mulrC row_cauchy.
  apply: le_trans h1; rewrite le_eqVlt; apply/orP; left; apply/eqP.
  by move: (row_norm a) (fdot a y) Nn0 => N q Nn0; mcfield.
rewrite row_norm0 mulr0 add0r !subr0.
apply: le_trans (row_cauchy _ _) _; apply: ler_wpmul2r => //.
exact: row_norm_ge0.
Qed.

Lemma stvP a lam : 0 < lam \/ (0 <= lam /\ a != 0) ->
  forall i, soft_thresholding_vector a lam i = Fin (stv a lam 0 i).
Proof.
move=> H i; rewrite /soft_thresholding_vector /stv /xdiv.
have l0 : 0 <= lam by case: H => [/ltW|[]].
have [N0|Nn0] := eqVneq (row_norm a) 0.
  have a0 := row_norm_eq0 N0.
  have lp : 0 < lam by case: H => // -[_]; rewrite a0 eqxx.
  rewrite N0 gt_eqF // lp /= ltNge l0 /= a0 !mxE.
  by rewrite mul0r.
have N0 : 0 < row_norm a by rewrite lt_def Nn0 row_norm_ge0.
rewrite /= /np_max subr_lt0 ltr_pdivl_mulr // mul1r.
case: (ltrgtP (row_norm a) lam) => h.
- by rewrite mul0r mxE.
- by rewrite mxE.
- by rewrite -h mulfV // subrr mul0r mxE.
Qed.
Lemma stv_nan a i : a = 0 -> soft_thresholding_vector a 0 i = NaN.
Proof.
by move=> ->; rewrite /soft_thresholding_vector /xdiv row_norm0 eqxx.
Qed.
End Vec.

Section Block.
Variable m n : nat.
Implicit Types a : 'M[R]_(m, n).

Lemma row_norm_tr a j : row_norm (row j a^T) = col_norm a j.
Proof. by rewrite /row_norm /col_norm; congr sqrt; apply: eq_bigr => i _; rewrite !mxE. Qed.
Lemma blockP a lam j : 0 < lam ->
  exists y : 'rV[R]_m,
    unique_minimiser (@everywhere _)
      (fun x => lam * row_norm x + fnorm2 (x - row j a^T) / 2%:R) y /\
    forall i, blockwise_soft_thresholding a lam i j = Fin (y 0 i).
Proof.
move=> l0; exists (stv (row j a^T) lam); split; first by apply: stv_unique; apply: ltW.
by move=> i; apply: stvP; left.
Qed.
Lemma blockP' a lam j : 0 < lam ->
  exists y : 'rV[R]_m,
    unique_minimiser (@everywhere _)
      (fun x => lam * fnorm x + fnorm2 (x - row j a^T) / 2%:R) y /\
    forall i, blockwise_soft_thresholding a lam i j = Fin (y 0 i).
Proof.
move=> l0; have [y [[_ h] hy]] := blockP a j l0; exists y; split=> //; split=> // x _ ne.
by rewrite -!row_normE; apply: h.
Qed.
Lemma block_nan a i j : (forall k, a k j = 0) -> blockwise_soft_thresholding a 0 i j = NaN.
Proof. by move=> h; apply: stv_nan; apply/rowP => k; rewrite !mxE. Qed.
End Block.

Section Bsts.
Variable n : nat.
Implicit Types a : 'M[R]_n.

Lemma xadd_nan_r x : xadd x NaN = NaN. Proof. by case: x. Qed.
Lemma xadd_0l x : xadd (Fin 0) x = x. Proof. by case: x => //= r; rewrite add0r. Qed.
Lemma xsum_nan (F : 'I_n -> xR) i : F i = NaN -> xsum F = NaN.
Proof.
move=> h; rewrite /xsum; have : i \in enum 'I_n by rewrite mem_enum.
elim: (enum 'I_n) => // k s IH; rewrite inE => /orP[/eqP <-|/IH /= ->].
  by rewrite /= h.
exact: xadd_nan_r.
Qed.
Lemma xsum_one (F : 'I_n -> xR) i : (forall k, k != i -> F k = Fin 0) ->
  (exists r, F i = Fin r) -> xsum F = F i.
Proof.
move=> h [r hr]; rewrite /xsum.
have : i \in enum 'I_n by rewrite mem_enum.
have : uniq (enum 'I_n) by apply: enum_uniq.
elim: (enum 'I_n) => // k s IH /= /andP[ks us]; rewrite inE => /orP[/eqP e|ks'].
  rewrite -e (_ : foldr _ _ s = Fin 0) ?hr /= ?addr0 //.
  have : i \notin s by rewrite e.
  elim: s {IH ks us} => //= k' s IH; rewrite inE negb_or => /andP[h1 h2].
  by rewrite IH // h ?xadd_0l // eq_sym.
rewrite IH // h ?xadd_0l //; apply: contraNneq ks => -> //.
Qed.

Lemma col_norm_ge0 a j : 0 <= col_norm a j.
Proof. by apply/RleP; apply: sqrt_pos. Qed.

Lemma bsts_zero a lam j i : 0 <= lam -> (forall k, a k j = 0) ->
  blockwise_soft_thresholding_symmetric a lam i j = NaN.
Proof.
move=> l0 h; apply: (@xsum_nan _ j); rewrite eqxx /bsts_factor.
have -> : col_norm a j = 0.
  by rewrite -row_norm_tr (_ : row j a^T = 0) ?row_norm0 //; apply/rowP => k; rewrite !mxE.
rewrite /xdiv eqxx; have [//|l1] := eqVneq lam 0.
rewrite /= lt_def l1 l0 /= /xinfmul /=.
by rewrite (_ : (lam < 0) = false) ?eqxx // ltNge l0.
Qed.
Lemma bsts_nonzero a lam j i : 0 <= lam -> (exists k, a k j != 0) ->
  blockwise_soft_thresholding_symmetric a lam i j = blockwise_soft_thresholding a lam i j.
Proof.
move=> l0 [k hk].
have an0 : row j a^T != 0.
  by apply: contra hk => /eqP /rowP/(_ k); rewrite !mxE => ->.
have Nn0 : col_norm a j != 0.
  by rewrite -row_norm_tr; apply: contra an0 => /eqP /row_norm_eq0 ->.
have N0 : 0 < col_norm a j by rewrite lt_def Nn0 col_norm_ge0.
rewrite /blockwise_soft_thresholding stvP; last by right.
rewrite /blockwise_soft_thresholding_symmetric.
have hF : bsts_factor a lam j =
    Fin ((1 - lam / col_norm a j) * (if lam < col_norm a j then 1 else 0)).
  by rewrite /bsts_factor /xdiv (negPf Nn0).
rewrite (@xsum_one _ j).
- rewrite eqxx hF /= /stv row_norm_tr; case: ltrP => h; rewrite !mxE.
    by rewrite mulr1 mulrC.
  by rewrite !mulr0.
- by move=> l /negPf ->; rewrite /= mulr0.
- by rewrite eqxx hF /=; eexists.
Qed.
End Bsts.

(** * pair update *)
Section Pairup.
Variables (m n : nat) (psi : 'M[R]_(m, n) -> R) (prox_psi : 'M[R]_(m, n) -> R -> 'M[R]_(m, n)).
Hypothesis Hp : forall a lam, 0 <= lam ->
  unique_minimiser (@everywhere _) (fun X => lam * psi X + fnorm2 (X - a) / 2%:R) (prox_psi a lam).

Lemma pair_norms (Z1 Z2 A1 A2 : 'M[R]_(m, n)) :
  fnorm2 (Z1 - A1) + fnorm2 (Z2 - A2) =
  (fnorm2 ((Z1 + Z2) - (A1 + A2)) + fnorm2 ((Z2 - Z1) - (A2 - A1))) / 2%:R.
Proof.
have -> : (Z1 + Z2) - (A1 + A2) = (Z2 - A2) + (Z1 - A1) by lin.
have -> : (Z2 - Z1) - (A2 - A1) = (Z2 - A2) - (Z1 - A1) by lin.
rewrite (fnorm2D (Z2 - A2)) (fnorm2B (Z2 - A2)); move: (fnorm2 (Z1 - A1)) (fnorm2 (Z2 - A2)) (fdot _ _) => p q r.
by mcfield.
Qed.

Lemma pair_unique A1 A2 beta rho : 0 <= beta -> 0 < rho ->
  unique_minimiser (@everywhere _)
    (fun Z => beta * psi (Z.2 - Z.1) + rho / 2%:R * (fnorm2 (Z.1 - A1) + fnorm2 (Z.2 - A2)))
    (pair_update prox_psi A1 A2 beta rho).
Proof.
move=> b0 r0; split=> // -[Y1 Y2] _ ne /=.
rewrite /pair_update in ne *.
have lam0 : 0 <= 2%:R * beta / rho.
  apply: divr_ge0; last exact: ltW.
  by apply: mulr_ge0 => //; mclra.
set E := prox_psi (A2 - A1) (2%:R * beta / rho) in ne *.
have [_ hE] := Hp (A2 - A1) lam0; rewrite -/E in hE.
have eD : 2%:R^-1 *: (A1 + A2 + E) - 2%:R^-1 *: (A1 + A2 - E) = E by lin.
have eS : 2%:R^-1 *: (A1 + A2 - E) + 2%:R^-1 *: (A1 + A2 + E) = A1 + A2 by lin.
rewrite (pair_norms Y1) (pair_norms (2%:R^-1 *: _)) /= eD eS subrr fnorm2_0 add0r.
have rn0 : rho != 0 by apply: lt0r_neq0.
have red D s : beta * psi D + rho / 2%:R * ((s + fnorm2 (D - (A2 - A1))) / 2%:R) =
  rho / 2%:R * ((2%:R * beta / rho * psi D + fnorm2 (D - (A2 - A1)) / 2%:R) + s / 2%:R).
  by move: (psi D) (fnorm2 _) => p q; mcfield.
have := red E 0; rewrite add0r mul0r addr0 => ->; rewrite red ltr_pmul2l; last exact: half_pos.
have s0 := fnorm2_ge0 (Y1 + Y2 - (A1 + A2)).
have [eYD|nYD] := eqVneq (Y2 - Y1) E.
  rewrite eYD ltr_addl; apply: half_pos; apply: fnorm2_gt0 => h; apply: ne.
  have hS : Y1 + Y2 = A1 + A2 by apply/eqP; rewrite -subr_eq0 h.
  by rewrite -eYD -hS; congr (_, _); lin.
apply: (@lt_le_trans _ _ (2%:R * beta / rho * psi (Y2 - Y1) + fnorm2 (Y2 - Y1 - (A2 - A1)) / 2%:R)).
  by apply: hE => //; apply/eqP.
by rewrite ler_addl; apply: divr_ge0 => //; mclra.
Qed.
End Pairup.
