(** The optimisation problems of the time-varying and latent solvers have solutions. *)
From Coq Require Import Reals Lra Psatz.
From mathcomp Require Import all_ssreflect all_algebra.
From Verif Require Import RStruct RTac LinTac S_Mat RMx Exist S_GL S_TGL S_KTGL S_LTGL S_LGL NP M_Prox P_Prox M_TGL P_Exist.
Import Order.TTheory GRing.Theory Num.Theory.

Set Implicit Arguments.
Unset Strict Implicit.
Unset Printing Implicit Defensive.
Local Open Scope ring_scope.

(** * finite convex functions are continuous *)
Section Convex.
Variable n : nat.
Variable f : 'M[R]_n -> R.
Hypothesis cf : convex_fun f.

Lemma jensen_sub (I : eqType) (s : seq I) (w : I -> R) (y : I -> 'M[R]_n) X :
  (forall i, 0 <= w i) -> \sum_(i <- s) w i < 1 ->
  f ((1 - \sum_(i <- s) w i) *: X + \sum_(i <- s) w i *: y i) <=
  (1 - \sum_(i <- s) w i) * f X + \sum_(i <- s) w i * f (y i).
Proof.
elim: s w => [|i s IH] w w0; first by rewrite !big_nil subr0 scale1r mul1r !addr0.
rewrite !big_cons; set W := \sum_(_ <- s) w _ => hW.
have W0 : 0 <= W by apply: sumr_ge0.
have wi := w0 i; have w1 : 0 < 1 - w i by move: hW W0 wi; move: (w i) W => a b h1 h2 h3; mclra.
pose v j := w j / (1 - w i).
have eV : \sum_(j <- s) v j = W / (1 - w i) by rewrite mulr_suml.
have h1 : (forall j, 0 <= v j) by move=> j; apply: divr_ge0 => //; exact: ltW.
have h2 : \sum_(j <- s) v j < 1 by rewrite eV ltr_pdivr_mulr // mul1r; move: hW {W0 eV}; move: (w i) W => a b h; mclra.
have := IH v h1 h2; rewrite eV; set x := _ + \sum_(j <- s) _ => hx.
have wi1 : w i <= 1 by move: w1; move: (w i) => a h; mclra.
have := @cf x (y i) (w i) wi wi1.
have -> : (1 - w i) *: x + w i *: y i = (1 - (w i + W)) *: X + (w i *: y i + \sum_(j <- s) w j *: y j).
  rewrite /x scalerDr scalerA scaler_sumr.
  have -> : \sum_(j <- s) (1 - w i) *: (v j *: y j) = \sum_(j <- s) w j *: y j.
    by apply: eq_bigr => j _; rewrite scalerA /v mulrCA mulfV ?mulr1 // gt_eqF.
  have -> : (1 - w i) * (1 - W / (1 - w i)) = 1 - (w i + W).
    by rewrite mulrBr mulr1 mulrCA mulfV ?mulr1 ?gt_eqF // opprD addrA.
  by rewrite -addrA; congr (_ + _); rewrite addrC.
move=> h; apply: le_trans h _.
have := ler_wpmul2l (ltW w1) hx; rewrite mulrDr mulrA.
have -> : (1 - w i) * (1 - W / (1 - w i)) = 1 - (w i + W).
  by rewrite mulrBr mulr1 mulrCA mulfV ?mulr1 ?gt_eqF // opprD addrA.
have -> : (1 - w i) * (\sum_(j <- s) v j * f (y j)) = \sum_(j <- s) w j * f (y j).
  by rewrite mulr_sumr; apply: eq_bigr => j _; rewrite mulrA /v mulrCA mulfV ?mulr1 // gt_eqF.
move: (f x) (f X) (f (y i)) (\sum_(j <- s) _) (1 - (w i + W)) (1 - w i) (w i) => a b c d e g k h; mclra.
Qed.

Definition unit_ij (X : 'M[R]_n) (e : bool) (ij : 'I_n * 'I_n) : 'M[R]_n := X + (if e then 1 else -1) *: delta_mx ij.1 ij.2.
Definition fmax X : R := \sum_ij (`|f (unit_ij X true ij)| + `|f (unit_ij X false ij)|).
Lemma sum_pair (F : 'I_n -> 'I_n -> R) : \sum_i \sum_j F i j = \sum_(ij : 'I_n * 'I_n) F ij.1 ij.2.
Proof. by rewrite pair_big. Qed.
Lemma convex_near X H : l1 H < 1 -> f (X + H) - f X <= l1 H * (fmax X - f X).
Proof.
move=> h1; pose w (ij : 'I_n * 'I_n) := `|H ij.1 ij.2|.
have eW : \sum_ij w ij = l1 H by rewrite /l1 sum_pair.
have := @jensen_sub _ (index_enum _) w (fun ij => unit_ij X (0 <= H ij.1 ij.2) ij) X (fun _ => normr_ge0 _).
rewrite eW => /(_ h1).
have -> : (1 - l1 H) *: X + \sum_ij w ij *: unit_ij X (0 <= H ij.1 ij.2) ij = X + H.
  under eq_bigr do rewrite scalerDr.
  rewrite big_split /= -scaler_suml eW scalerBl scale1r addrA subrK; congr (_ + _).
  rewrite [RHS]matrix_sum_delta pair_big /=; apply: eq_bigr => ij _; rewrite scalerA; congr (_ *: _).
  rewrite /w /=; case: (lerP 0 (H ij.1 ij.2)) => h; first by rewrite ger0_norm ?mulr1.
  by rewrite ltr0_norm // mulrN1 opprK.
have : \sum_ij w ij * f (unit_ij X (0 <= H ij.1 ij.2) ij) <= l1 H * fmax X.
  rewrite -eW mulr_suml; apply: ler_sum => ij _; apply: ler_wpmul2l; first exact: normr_ge0.
  rewrite /fmax (bigD1 ij) //=.
  have : 0 <= \sum_(i | i != ij) (`|f (unit_ij X true i)| + `|f (unit_ij X false i)|) by apply: sumr_ge0 => i _; apply: addr_ge0.
  case: (0 <= H ij.1 ij.2).
    have := normr_ge0 (f (unit_ij X false ij)); have := ler_norm (f (unit_ij X true ij)).
    by move: (`|f (unit_ij X true ij)|) (`|f (unit_ij X false ij)|) (f (unit_ij X true ij)) (\sum_(_ | _) _) => a b c d h2 h3 h4; mclra.
  have := normr_ge0 (f (unit_ij X true ij)); have := ler_norm (f (unit_ij X false ij)).
  by move: (`|f (unit_ij X true ij)|) (`|f (unit_ij X false ij)|) (f (unit_ij X false ij)) (\sum_(_ | _) _) => a b c d h2 h3 h4; mclra.
move: (\sum_ij _) (f (X + H)) (f X) (l1 H) (fmax X) => a b c d e h2 h3; mclra.
Qed.
Lemma convex_near2 X H : l1 H < 1 -> f X - f (X + H) <= l1 H * (fmax X - f X).
Proof.
move=> h1; have eN : l1 (- H) = l1 H by apply: eq_bigr => i _; apply: eq_bigr => j _; rewrite mxE normrN.
have := @convex_near X (- H); rewrite eN => /(_ h1).
have h0 : (0 : R) <= 1 / 2%:R by rewrite divr_ge0 ?ler01 ?ler0n.
have h2 : (1 / 2%:R : R) <= 1 by rewrite ler_pdivr_mulr ?mul1r ?ltr0n // ler1n.
have := @cf (X + H) (X - H) (1 / 2%:R) h0 h2.
have -> : (1 - 1 / 2%:R) *: (X + H) + (1 / 2%:R) *: (X - H) = X.
  apply/matrixP => i j; rewrite !mxE; move: (X i j) (H i j) => a b; toR; field.
move: (f (X + H)) (f (X - H)) (f X) (l1 H) (fmax X) => a b c d e h3 h4.
have : c <= (a + b) / 2%:R by apply: le_trans h3 _; rewrite le_eqVlt; apply/orP; left; apply/eqP; toR; field.
rewrite ler_pdivl_mulr ?ltr0n // => h5; mclra.
Qed.

Lemma convex_cv (u : nat -> 'M[R]_n) X : mx_cv u X -> Un_cv (fun k => f (u k)) (f X).
Proof.
move=> hu; pose M := fmax X - f X.
have hl : Un_cv (fun k => l1 (u k - X)) 0.
  have -> : 0 = l1 (X - X) by rewrite subrr /l1 big1 // => i _; rewrite big1 // => j _; rewrite mxE normr0.
  by apply: cv_l1; apply: mx_cvD => //; exact: mx_cv_const.
move=> eps e0; have a0 : 0 < `|M| + 1 by rewrite ltr_spaddr ?ltr01.
have e1 : 0 < Num.min 1 (eps / (`|M| + 1)).
  by rewrite lt_minr ltr01 /= divr_gt0 //; apply/RltP.
have [N hN] := hl _ (elimT (RltP _ _) e1); exists N => k hk.
have h : `|l1 (u k - X) - 0| < Num.min 1 (eps / (`|M| + 1)) by apply/RltP; exact: hN.
suff g : `|f (u k) - f X| < eps by apply/RltP.
have l0 : 0 <= l1 (u k - X) by apply: sumr_ge0 => i _; apply: sumr_ge0.
rewrite subr0 ger0_norm // lt_minr in h; case/andP: h => h1; rewrite ltr_pdivl_mulr // => h2.
have := convex_near X h1; have := convex_near2 X h1; have -> : X + (u k - X) = u k by rewrite addrC subrK.
rewrite -/M => g1 g2.
apply: le_lt_trans h2; have hM := ler_wpmul2l l0 (ler_norm M).
by rewrite ler_norml; apply/andP; split; clearbody M; move: (l1 _) (f (u k)) (f X) (`|M|) l0 g1 g2 hM => a b c d l0 g1 g2 hM; mcnra.
Qed.
End Convex.

(** * stacks *)
Section Latent.
Variables n T : nat.
Notation stk := (stack n T).
Implicit Types (K L M : stk).
Definition stk_cv (u : nat -> stk) K : Prop := forall t, mx_cv (fun k => u k t) (K t).

Definition pair_coords : coords (stk * stk) [finType of bool * ('I_T * ('I_n * 'I_n))].
Proof.
exists (fun (KL : stk * stk) b => (if b.1 then KL.1 : {ffun 'I_T -> 'M[R]_n} else KL.2) b.2.1 b.2.2.1 b.2.2.2)
  (fun l => ([ffun t => \matrix_(i, j) l (true, (t, (i, j)))], [ffun t => \matrix_(i, j) l (false, (t, (i, j)))])).
by move=> l [[] [t [i j]]] /=; rewrite ffunE mxE.
Defined.

Variables (P Q : 'M[R]_n -> Prop) (loss : stk -> R) (alpha tau : R) (coup coup' : stk -> R).
Definition lat_obj K L : R :=
  loss (K - L) + alpha * (\sum_t l1 (K t)) + tau * (\sum_t \tr (L t)) + coup K + coup' L.
Hypothesis a0 : 0 < alpha.
Hypothesis QP : forall X, Q X -> psd X.
Hypothesis Qcl : forall u X, (forall k, Q (u k)) -> mx_cv u X -> Q X.
Variable tau' : R.
Hypothesis t0 : 0 < tau'.
Hypothesis tQ : forall X, Q X -> tau' * \tr X <= tau * \tr X.
Hypothesis c0 : forall K, 0 <= coup K.
Hypothesis c0' : forall K, 0 <= coup' K.
Hypothesis ccv : forall u K, stk_cv u K -> Un_cv (fun k => coup (u k)) (coup K).
Hypothesis ccv' : forall u K, stk_cv u K -> Un_cv (fun k => coup' (u k)) (coup' K).
Variable A : R.
Hypothesis lossb : forall K L, slices Q L -> slices P (K - L) -> - A - alpha / 2%:R * (\sum_t l1 (K t)) <= loss (K - L).
Hypothesis losscl : forall (u : nat -> stk) M B, (forall k, slices P (u k) /\ loss (u k) <= B) -> stk_cv u M ->
  slices P M /\ Un_cv (fun k => loss (u k)) (loss M).
Hypothesis QP0 : exists L, slices Q L /\ exists K, slices P (K - L).

Lemma lat_exists : exists KL, minimiser (fun KL : stk * stk => slices Q KL.2 /\ slices P (KL.1 - KL.2)) (fun KL => lat_obj KL.1 KL.2) KL.
Proof.
have [L0 [qL0 [K0 pK0]]] := QP0.
pose B := lat_obj K0 L0.
have l10 (X : 'M[R]_n) : 0 <= l1 X by apply: sumr_ge0 => i _; apply: sumr_ge0.
have sl0 (K : stk) : 0 <= \sum_t l1 (K t) by apply: sumr_ge0.
have str L : slices Q L -> 0 <= \sum_t \tr (L t).
  by move=> q; apply: sumr_ge0 => t _; apply: sumr_ge0 => i _; exact: psd_diag_ge0 (QP (q t)).
have sQ L : slices Q L -> tau' * (\sum_t \tr (L t)) <= tau * (\sum_t \tr (L t)).
  by move=> q; rewrite !mulr_sumr; apply: ler_sum => t _; exact: tQ.
pose r1 := (B + A) / (alpha / 2%:R); pose r2 := (B + A) / tau'.
have bound K L : slices Q L -> slices P (K - L) -> lat_obj K L <= B -> \sum_t l1 (K t) <= r1 /\ \sum_t \tr (L t) <= r2.
  move=> qL pKL; have := lossb qL pKL; have := c0 K; have := c0' L; have := sQ L qL; have := str L qL; have := sl0 K.
  rewrite /lat_obj /r1 /r2 !ler_pdivl_mulr ?half_pos //; clearbody B.
  have ha := half_pos a0; have e : alpha = 2%:R * (alpha / 2%:R) by rewrite mulrC divfK // pnatr_eq0.
  move: ha e; move: (alpha / 2%:R) => h ha ->.
  move: (\sum_t l1 _) (\sum_t \tr _) (loss _) (coup _) (coup' _) => x y z c d g1 g2 g3 g4 g5 g6 g7.
  by have := mulr_ge0 (ltW ha) g1; have := mulr_ge0 (ltW t0) g2; split; mcnra.
have lossB K L : slices Q L -> slices P (K - L) -> lat_obj K L <= B -> loss (K - L) <= B.
  move=> qL _; have := c0 K; have := c0' L; have := sQ L qL; have := str L qL; have := mulr_ge0 (ltW a0) (sl0 K).
  move=> g1 g2; have := mulr_ge0 (ltW t0) g2; rewrite /lat_obj; clearbody B.
  move: (alpha * _) (tau * _) (tau' * _) (loss _) (coup _) (coup' _) g1 => x y z c d e g1 g3 g4 g5 g6 g7; mclra.
apply: (@min_exists_co _ _ pair_coords _ _ (K0, L0) (r1 + r2)) => //.
  move=> [K L] /= [qL pKL] hB [b [t [i j]]] /=; have [b1 b2] := bound _ _ qL pKL hB.
  have r10 : 0 <= r1 by apply: le_trans b1.
  have r20 : 0 <= r2 by apply: le_trans (str L qL) b2.
  case: b => /=.
    apply: le_trans (le_l1 _ i j) _; apply: (@le_trans _ _ r1); last by rewrite ler_addl.
    by apply: le_trans b1; rewrite (bigD1 t) //= ler_addl; apply: sumr_ge0.
  apply: le_trans (psd_entry i j (QP (qL t))) _; apply: (@le_trans _ _ r2); last by rewrite ler_addr.
  apply: le_trans b2; rewrite (bigD1 t) //= ler_addl; apply: sumr_ge0 => s _; apply: sumr_ge0 => k _; exact: psd_diag_ge0 (QP (qL s)).
move=> u [K L] v hu hX hv /=.
have cK : stk_cv (fun k => (u k).1) K by move=> t i j; exact: (hX (true, (t, (i, j)))).
have cL : stk_cv (fun k => (u k).2) L by move=> t i j; exact: (hX (false, (t, (i, j)))).
have cM : stk_cv (fun k => (u k).1 - (u k).2) (K - L).
  move=> t i j; have := cvB (cK t i j) (cL t i j); rewrite !ffunE !mxE; apply: cv_eq => k; by rewrite !ffunE !mxE.
have qL : slices Q L.
  by move=> t; apply: (Qcl (u := fun k => (u k).2 t)) => // k; have [[q _] _] := hu k; exact: q.
have [pM lM] : slices P (K - L) /\ Un_cv (fun k => loss ((u k).1 - (u k).2)) (loss (K - L)).
  apply: (@losscl (fun k => (u k).1 - (u k).2) _ B) => // k; have [[q p] hk] := hu k; split=> //; exact: lossB.
split=> //; apply: cv_le hv; rewrite /lat_obj; apply: cvD (ccv' cL); apply: cvD (ccv cK); apply: cvD; [apply: cvD => // |].
  by apply: cvM; [exact: cv_const | apply: cv_sum => t _; exact: cv_l1].
by apply: cvM; [exact: cv_const | apply: cv_sum => t _; apply: cv_sum => i _; exact: cL].
Qed.
End Latent.

(** * the losses and couplings of the solvers *)
Section Instances.
Variables n T : nat.
Notation stk := (stack n T).
Implicit Types (K L M : stk).
Variable S : stk.

Lemma cv_bounded (a : nat -> R) l : Un_cv a l -> exists2 b, 0 <= b & forall k, `|a k| <= b.
Proof.
move=> h; have [|b [b0 hb]] := maj_by_pos a; first by exists l.
by exists b => [|k]; [apply: ltW; apply/RltP | apply/RleP; exact: hb].
Qed.
Lemma cv_tr (u : nat -> 'M[R]_n) X : mx_cv u X -> Un_cv (fun k => \tr (u k)) (\tr X).
Proof. by move=> hu; apply: cv_sum => i _; exact: hu. Qed.

Section Logdet.
Variable ns : 'I_T -> R.
Hypothesis ns0 : forall t, 0 < ns t.
Hypothesis pS : slices (@psd n) S.
Definition ld_loss M : R := logdet_loss ns S M.

Lemma ld_lossb (alpha : R) : 0 < alpha -> forall K L, slices (@psd n) L -> slices (@pd n) (K - L) ->
  - (\sum_t ns t * logdet ((alpha / 2%:R / ns t)^-1%:M : 'M[R]_n)) - alpha / 2%:R * (\sum_t l1 (K t)) <= ld_loss (K - L).
Proof.
move=> a0 K L pL pM; rewrite /ld_loss /logdet_loss -opprD mulr_sumr -big_split /= -sumrN; apply: ler_sum => t _.
have c0 : 0 < alpha / 2%:R / ns t by rewrite divr_gt0 ?half_pos.
have := logdet_sub c0 (pM t); have := psd_fdot_ge0 (pS t) (pd_psd (pM t)); rewrite -(tr_fdot _ (proj1 (pS t))).
have h3 : \tr ((K - L) t) <= l1 (K t).
  rewrite !ffunE linearD linearN /= ler_subl_addr; apply: (@le_trans _ _ (l1 (K t))); last first.
    by rewrite ler_addl; apply: sumr_ge0 => i _; exact: psd_diag_ge0 (pL t).
  rewrite /l1 /mxtrace; apply: ler_sum => i _; apply: le_trans (ler_norm _) _.
  by rewrite (bigD1 i) //= ler_addl; apply: sumr_ge0.
rewrite -/(logdet ((K - L) t)); move: (\tr (S t *m _)) (logdet ((K - L) t)) (logdet _) (\tr _) (l1 _) h3 => a b c d e h3 h1 h2.
have e1 : ns t * (alpha / 2%:R / ns t) = alpha / 2%:R by rewrite mulrCA mulfV ?mulr1 // gt_eqF.
have g := ler_wpmul2l (ltW (ns0 t)) h2; rewrite mulrDr mulrA e1 in g; move: g; have := ler_wpmul2l (ltW (half_pos a0)) h3.
have := mulr_ge0 (ltW (ns0 t)) h1; rewrite opprD mulrBr.
move: (alpha / 2%:R * d) (alpha / 2%:R * e) (ns t * a) (ns t * b) (ns t * c) => x y z v w g1 g2 g3; mclra.
Qed.

Lemma ld_losscl (u : nat -> stk) M B : (forall k, slices (@pd n) (u k) /\ ld_loss (u k) <= B) -> stk_cv u M ->
  slices (@pd n) M /\ Un_cv (fun k => ld_loss (u k)) (ld_loss M).
Proof.
move=> hu hM.
have ub t : exists U, forall k, logdet (u k t) <= U.
  have [b b0 hb] := cv_bounded (cv_tr (hM t)); exists (logdet ((1 : R)^-1%:M : 'M[R]_n) + b) => k.
  have [pk _] := hu k; apply: le_trans (logdet_sub ltr01 (pk t)) _; rewrite mul1r ler_add2l; exact: le_trans (ler_norm _) (hb k).
have key t : pd (M t) /\ Un_cv (fun k => logdet (u k t)) (logdet (M t)).
  have [C hC] : exists C, forall k, \sum_(s | s != t) ns s * logdet (u k s) <= C.
    have [C hC] : exists C, forall k, \sum_(s <- [seq s <- index_enum _ | s != t]) ns s * logdet (u k s) <= C.
      elim: [seq s <- _ | _] => [|s r [C hC]]; first by exists 0 => k; rewrite big_nil.
      have [U hU] := ub s; exists (ns s * U + C) => k; rewrite big_cons; apply: ler_add => //.
      by apply: ler_wpmul2l => //; exact: ltW.
    by exists C => k; have := hC k; rewrite big_filter.
  apply: (@pd_lim _ _ _ ((- B - C) / ns t)) => // k; have [pk hk] := hu k; split=> //.
  rewrite ler_pdivr_mulr //; move: hk (hC k); rewrite /ld_loss /logdet_loss.
  have -> : \sum_s ns s * (\tr (S s *m u k s) - ln (\det (u k s))) = \sum_s ns s * \tr (S s *m u k s) - \sum_s ns s * logdet (u k s).
    by rewrite -sumrB; apply: eq_bigr => s _; rewrite mulrBr.
  have : 0 <= \sum_s ns s * \tr (S s *m u k s).
    by apply: sumr_ge0 => s _; apply: mulr_ge0; [exact: ltW | rewrite (tr_fdot _ (proj1 (pS s))); exact: psd_fdot_ge0 (pS s) (pd_psd (pk s))].
  rewrite (bigD1 (P := predT) t) //= [in X in _ - X](bigD1 t) //= [_ * ns t]mulrC.
  move: (ns t * _) (ns t * _) (\sum_(_ | _) _) (\sum_(_ | _) _) => a b c d h1 h2 h3; mclra.
split=> [t|]; first by have [] := key t.
apply: cv_sum => t _; apply: cvM; first exact: cv_const.
by apply: cvB; [exact: cv_tr_mul | have [] := key t].
Qed.
End Logdet.

Section Frob.
Definition fr_loss M : R := frobenius_loss S M.
Lemma fr_ge0 M : 0 <= fr_loss M.
Proof. by apply: sumr_ge0 => t _; exact: fnorm2_ge0. Qed.
Lemma fr_losscl (u : nat -> stk) M B : (forall k, slices (@sym n) (u k) /\ fr_loss (u k) <= B) -> stk_cv u M ->
  slices (@sym n) M /\ Un_cv (fun k => fr_loss (u k)) (fr_loss M).
Proof.
move=> hu hM; split=> [t|].
  apply/matrixP => i j; rewrite mxE; apply: (UL_sequence (fun k => u k t i j)); last exact: hM.
  by apply: cv_eq (hM t j i) => k; have [sk _] := hu k; rewrite -[in RHS](sk t) mxE.
apply: cv_sum => t _; apply: cv_fnorm2 => i j.
by have := cvB (cv_const (S t i j)) (hM t i j); rewrite !mxE; apply: cv_eq => k; rewrite !mxE.
Qed.
End Frob.

Section Coup.
Variable psi : 'M[R]_n -> R.
Hypothesis psic : convex_fun psi.
Hypothesis psi0 : forall X, 0 <= psi X.
Lemma ncb_ge0 (beta : R) K : 0 <= beta -> 0 <= beta * neighbour_coupling psi K.
Proof. by move=> b0; apply: mulr_ge0 => //; apply: sumr_ge0 => s _; apply: sumr_ge0. Qed.
Lemma diff_cv (u : nat -> stk) K s t : stk_cv u K -> Un_cv (fun k => psi (u k t - u k s)) (psi (K t - K s)).
Proof.
move=> hu; apply: (@convex_cv _ _ psic (fun k => u k t - u k s)) => i j.
by have := cvB (hu t i j) (hu s i j); rewrite !mxE; apply: cv_eq => k; rewrite !mxE.
Qed.
Lemma ncb_cv (beta : R) (u : nat -> stk) K : stk_cv u K ->
  Un_cv (fun k => beta * neighbour_coupling psi (u k)) (beta * neighbour_coupling psi K).
Proof.
move=> hu; apply: cvM; first exact: cv_const.
by apply: cv_sum => s _; apply: cv_sum => t _; exact: diff_cv.
Qed.
Variable w : 'I_T -> 'I_T -> R.
Hypothesis w0 : forall s t : 'I_T, (s < t)%N -> 0 <= w s t.
Lemma kcb_ge0 K : 0 <= kernel_coupling w psi K.
Proof. by apply: sumr_ge0 => s _; apply: sumr_ge0 => t st; apply: mulr_ge0 => //; exact: w0. Qed.
Lemma kcb_cv (u : nat -> stk) K : stk_cv u K ->
  Un_cv (fun k => kernel_coupling w psi (u k)) (kernel_coupling w psi K).
Proof.
move=> hu; apply: cv_sum => s _; apply: cv_sum => t _; apply: cvM; [exact: cv_const | exact: diff_cv].
Qed.
End Coup.
End Instances.

(** * the problems have solutions *)
Section Solutions.
Variables n T : nat.
Notation stk := (stack n T).
Variables (S : stk) (ns : 'I_T -> R) (alpha : R).
Hypothesis ns0 : forall t, 0 < ns t.
Hypothesis pS : slices (@psd n) S.
Hypothesis a0 : 0 < alpha.
Variables (psi phi : 'M[R]_n -> R).
Hypotheses (psic : convex_fun psi) (phic : convex_fun phi).
Hypotheses (psi0 : forall X, 0 <= psi X) (phi0 : forall X, 0 <= phi X).

Lemma pd_one_zero : slices (@pd n) (([ffun=> 1%:M] : stk) - 0).
Proof. by move=> t; rewrite subr0 ffunE; exact: pd1. Qed.
Lemma psd_zero_stack : slices (@psd n) (0 : stk).
Proof. by move=> t; rewrite ffunE; exact: psd0. Qed.

Section Latent.
Variables (tau : R) (coup coup' : stk -> R).
Hypothesis t0 : 0 < tau.
Hypothesis c0 : forall K, 0 <= coup K.
Hypothesis c0' : forall K, 0 <= coup' K.
Hypothesis ccv : forall u K, stk_cv u K -> Un_cv (fun k => coup (u k)) (coup K).
Hypothesis ccv' : forall u K, stk_cv u K -> Un_cv (fun k => coup' (u k)) (coup' K).

Lemma ld_latent_exists : exists K L : stk, minimiser
  (fun KL : stk * stk => slices (@psd n) KL.2 /\ slices (@pd n) (KL.1 - KL.2))
  (fun KL => lat_obj (ld_loss S ns) alpha tau coup coup' KL.1 KL.2) (K, L).
Proof.
have [||||[K L] h] := @lat_exists n T (@pd n) (@psd n) (ld_loss S ns) alpha tau coup coup' a0 _ _ tau t0 _ c0 c0' ccv ccv' _ (ld_lossb ns0 pS a0) (ld_losscl ns0 pS).
- by [].
- exact: psd_lim.
- by [].
- by exists 0; split; [exact: psd_zero_stack | exists [ffun=> 1%:M]; exact: pd_one_zero].
by exists K, L.
Qed.
Lemma fr_latent_exists : exists K L : stk, minimiser
  (fun KL : stk * stk => slices (@psd n) KL.2 /\ slices (@sym n) (KL.1 - KL.2))
  (fun KL => lat_obj (fr_loss S) alpha tau coup coup' KL.1 KL.2) (K, L).
Proof.
have [|||||[K L] h] := @lat_exists n T (@sym n) (@psd n) (fr_loss S) alpha tau coup coup' a0 _ _ tau t0 _ c0 c0' ccv ccv' 0 _ (@fr_losscl _ _ S).
- by [].
- exact: psd_lim.
- by [].
- move=> K L _ _; apply: le_trans (fr_ge0 S _); rewrite oppr0 sub0r oppr_le0; apply: mulr_ge0; first exact: ltW (half_pos a0).
  by apply: sumr_ge0 => t _; apply: sumr_ge0 => i _; apply: sumr_ge0.
- by exists 0; split; [exact: psd_zero_stack | exists 0 => t; rewrite subrr ffunE /sym trmx0].
by exists K, L.
Qed.
End Latent.

Lemma ld_exists (coup : stk -> R) : (forall K, 0 <= coup K) ->
  (forall u K, stk_cv u K -> Un_cv (fun k => coup (u k)) (coup K)) ->
  exists K : stk, minimiser (fun K : stk => slices (@pd n) K)
    (fun K => logdet_loss ns S K + alpha * (\sum_t l1 (K t)) + coup K) K.
Proof.
move=> c0 ccv; pose Q (X : 'M[R]_n) := X = 0.
have QP X : Q X -> psd X by move=> ->; exact: psd0.
have Z0 : slices Q (0 : stk) by move=> t; rewrite ffunE.
have z (L : stk) : slices Q L -> L = 0 by move=> q; apply/ffunP => t; rewrite q ffunE.
have Qcl (u : nat -> 'M[R]_n) X : (forall k, Q (u k)) -> mx_cv u X -> Q X.
  move=> hu hX; apply/matrixP => i j; apply: (UL_sequence (fun k => u k i j)); first exact: hX.
  by rewrite mxE; apply: cv_eq (cv_const 0) => k; rewrite hu mxE.
have tQ X : Q X -> 1 * \tr X <= 0 * \tr X by move=> ->; rewrite mxtrace0 !mulr0.
have lb (K L : stk) : slices Q L -> slices (@pd n) (K - L) -> _ := fun q => @ld_lossb n T S ns ns0 pS alpha a0 K L (fun t => QP _ (q t)).
have n0 : exists L : stk, slices Q L /\ exists K, slices (@pd n) (K - L).
  by exists 0; split=> //; exists [ffun=> 1%:M]; exact: pd_one_zero.
have [[K L] [[/= qL pK] h]] := @lat_exists n T (@pd n) Q (ld_loss S ns) alpha 0 coup (fun=> 0) a0 QP Qcl 1 ltr01 tQ c0 (fun=> lexx 0) ccv (fun _ _ _ => cv_const 0) _ lb (ld_losscl ns0 pS) n0.
have eL := z L qL; rewrite eL /= subr0 in pK; exists K; split=> // Y pY.
have := h (Y, 0); rewrite eL /lat_obj /= !subr0 mul0r !addr0; apply; split=> //.
Qed.
End Solutions.
