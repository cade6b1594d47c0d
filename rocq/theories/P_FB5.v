(** Proofs about the forward-backward model: level sets of the problem are bounded away from singular. *)
From Coq Require Import Reals Lra Psatz String.
From mathcomp Require Import all_ssreflect all_algebra.
From Verif Require Import RStruct RTac LinTac Spectral S_Mat RMx ADMM NP Str M_Prox S_Prox P_Eigh.
From Verif Require Import P_Prox P_Prox2 P_Prox3 M_Loop P_Loop M_GL S_GL P_GL P_GL2 M_LGL P_LGL S_Fit.
From Verif Require Import M_TGL S_TGL P_TGL P_TGL2 P_KTGL5 P_Exist P_Fit P_GLM5 M_FB S_FB P_FB P_FB2 P_FB3 P_FB4.
Import Order.TTheory GRing.Theory Num.Theory.

Set Implicit Arguments.
Unset Strict Implicit.
Unset Printing Implicit Defensive.
Local Open Scope ring_scope.

Lemma exp_gt0 (x : R) : 0 < Rtrigo_def.exp x. Proof. by apply/RltP; apply: exp_pos. Qed.
Lemma exp_le_of_ln (x y : R) : 0 < y -> x <= ln y -> Rtrigo_def.exp x <= y.
Proof.
move=> y0 h; rewrite -(exp_ln y); last exact/RltP.
move: h; rewrite le_eqVlt => /orP [/eqP ->|/RltP h] //; apply: ltW; apply/RltP; exact: exp_increasing.
Qed.
Lemma pd_floor_logdet n (X : 'M[R]_n) (e t : R) : pd X -> e <= ln (\det X) -> \tr X <= t ->
  psd (X - (Rtrigo_def.exp (e - t))%:M).
Proof.
move=> pX hd ht; have [Q [d [oQ eX]]] := spectral (pd_sym pX).
have pd0 : forall i, 0 < d 0 i by apply: (pd_spectrum oQ); rewrite /sconj -eX.
set c := Rtrigo_def.exp _.
have -> : X - c%:M = sconj Q (d - const_mx c).
  have -> : d - const_mx c = d + (- c) *: const_mx 1 by apply/rowP => i; rewrite !mxE mulr1.
  by rewrite sconjD sconjZ sconj1 // scaleNr scalemx1 {1}eX.
apply: psd_sconj => i; rewrite !mxE subr_ge0; apply: exp_le_of_ln => //.
move: hd ht; rewrite eX -/(sconj Q d) sconj_det // sconj_tr // ln_prod // (bigD1 i) //= (bigD1 i (P := xpredT)) //=.
have : \sum_(j | j != i) ln (d 0 j) <= \sum_(j | j != i) d 0 j.
  apply: ler_sum => j _; apply: le_trans (ln_le_sub1 (pd0 j)) _; by rewrite ler_subl_addr ler_addl ler01.
have num (a b x y : R) : 0 < y -> a <= b -> e <= x + a -> y + b <= t -> e - t <= x by move=> *; mclra.
by move=> h1 h2 h3; apply: num (pd0 i) h1 h2 h3.
Qed.
Lemma inv_fnorm2 n (X : 'M[R]_n) (c : R) : 0 < c -> psd (X - c%:M) -> fnorm2 (invmx X) <= n%:R * c^-1 ^+ 2.
Proof.
move=> c0 fX; have pX := floor_pd c0 fX; have pI := pd_psd (pd_inv pX).
have h := floor_inv c0 fX.
have c1 : 0 <= c^-1 by rewrite invr_ge0 ltW.
have h1 := psd_fdot_ge0 h pI; have h2 := psd_fdot_ge0 h (pd_psd (@pd1 n)).
move: h1 h2; rewrite !fdotBl -(scalemx1 _ c^-1) !fdotZl -fnorm2E (fdotC 1%:M (invmx X)) !subr_ge0 => h1 h2.
apply: le_trans h1 _; have := ler_wpmul2l c1 h2; rewrite -[fdot 1%:M 1%:M]fnorm2E.
have -> : fnorm2 (1%:M : 'M[R]_n) = n%:R.
  by rewrite fnorm2E -(tr_fdot 1%:M (trmx1 _ _)) mulmx1 mxtrace1.
by rewrite mulrA -expr2 (mulrC _ n%:R).
Qed.
Lemma fnorm2_add2 m n (A B : 'M[R]_(m, n)) : fnorm2 (A + B) <= 2%:R * fnorm2 A + 2%:R * fnorm2 B.
Proof.
have := fnorm2_ge0 (A - B); rewrite !fnorm2E !fdotBl !fdotBr !fdotDl !fdotDr (fdotC B A).
by move: (fdot A A) (fdot A B) (fdot B B) => *; mclra.
Qed.

Section Level.
Variables (n m : nat) (pinvh : 'M[R]_n -> 'M[R]_n) (S : stack n m.+2) (ns : 'I_m.+2 -> R) (p : fb_params).
Hypothesis Hp : pinvh_ok pinvh.
Hypothesis sS : slices (@sym n) S.
Hypothesis ns0 : forall t, 0 < ns t.
Hypothesis a0 : 0 <= fb_alpha p.
Hypothesis b0 : 0 <= fb_beta p.
Hypothesis v0 : 0 < fb_vareps p.
Local Notation lap := (fb_laplacian p).
Local Notation smooth := (fb_smooth lap ns S (fb_beta p) (fb_vareps p)).
Local Notation prob := (fb_problem lap ns S (fb_alpha p) (fb_beta p) (fb_vareps p)).
Local Notation G := (fb_grad pinvh S ns p).
Local Notation sipn := (sip n m.+2).
Local Notation gr := (greal lap (fb_alpha p) (fb_beta p)).
Local Notation v := (fb_vareps p).
Implicit Types X Z K : stack n m.+2.

Definition lt_term X t : R := ns t * (\tr (S t *m X t) - ln (\det (X t))) + v / 4%:R * fnorm2 (X t).
Definition lq t : R := ns t ^+ 2 / v * fnorm2 (S t - 1%:M).
Lemma lq_ge0 t : 0 <= lq t.
Proof. by rewrite mulr_ge0 ?fnorm2_ge0 // divr_ge0 ?sqr_ge0 ?ltW. Qed.
Lemma lt_lower X t : pd (X t) -> - lq t <= lt_term X t.
Proof.
move=> pX; have := logdet_tangent (@pd1 n) pX; rewrite /logdet invmx1 mul1mx det1 ln_1 => h.
have h1 : fdot (S t - 1%:M) (X t) <= \tr (S t *m X t) - ln (\det (X t)).
  rewrite fdotBl -(tr_fdot _ (sS t)) -(tr_fdot _ (trmx1 _ _)) mul1mx.
  move: h; rewrite linearB /= mxtrace1; have : (0 : R) <= n%:R by rewrite ler0n.
  by move: (n%:R : R) (\tr (X t)) (ln _) (\tr _) => *; mclra.
have := ler_wpmul2l (ltW (ns0 t)) h1; rewrite /lt_term /lq.
have := fnorm2_ge0 (2%:R *: (ns t *: (S t - 1%:M)) + v *: X t).
rewrite (fnorm2D (2%:R *: _)) !fnorm2Z !fdotZl !fdotZr.
have num (N w A F f y : R) : 0 < w -> 
  0 <= 2%:R ^+ 2 * (N ^+ 2 * A) + 2%:R * (2%:R * (N * (w * f))) + w ^+ 2 * F -> N * f <= y ->
  - (N ^+ 2 / w * A) <= y + w / 4%:R * F.
  move=> w0 h2 h3; have w4 : 0 < 4%:R * w by rewrite mulr_gt0 //; mclra.
  have nz := gt_eqF w0.
  rewrite -(ler_pmul2l w4).
  have -> : 4%:R * w * - (N ^+ 2 / w * A) = - (4%:R * N ^+ 2 * A) by move/eqP: nz => nz; mcfield.
  have h4 := ler_wpmul2l (ltW w4) h3; clear nz; mclra.
exact: num.
Qed.

Lemma prob_terms X : prob X = \sum_t lt_term X t + v / 4%:R * sipn X X
  + (if lap then fb_beta p * sip n m.+1 (dif X) (dif X) else 0) + gr X.
Proof.
have -> : sipn X X = \sum_t fnorm2 (X t) by rewrite sipE; apply: eq_bigr => t _; rewrite fnorm2E.
rewrite probE /fb_smooth pairs_dif /lt_term big_split -mulr_sumr /=.
move: (if _ then _ else _) (gr X) => x y; have := gt_eqF v0.
by move: (\sum_t _) (\sum_t fnorm2 _) (v) => a b w _; mcfield.
Qed.
Definition lQ : R := \sum_t lq t.
Lemma lQ_ge0 : 0 <= lQ. Proof. by apply: sumr_ge0 => t _; apply: lq_ge0. Qed.
Lemma dsq_ge0 X : 0 <= (if lap then fb_beta p * sip n m.+1 (dif X) (dif X) else 0).
Proof. by case: lap => //; rewrite mulr_ge0 // ip_ge0. Qed.
Lemma vsq_ge0 X : 0 <= v / 4%:R * sipn X X.
Proof. by rewrite mulr_ge0 ?ip_ge0 // divr_ge0 ?ltW //; mclra. Qed.
Lemma terms_ge X : slices (@pd n) X -> - lQ <= \sum_t lt_term X t.
Proof. by move=> pX; rewrite /lQ -sumrN; apply: ler_sum => t _; apply: lt_lower. Qed.
Lemma term_le X (M : R) t : slices (@pd n) X -> prob X <= M -> lt_term X t <= M + lQ.
Proof.
move=> pX; rewrite prob_terms.
have := @greal_ge0 n m.+1 lap _ _ X a0 b0; have := dsq_ge0 X; have := vsq_ge0 X.
have : - (lQ - lq t) <= \sum_(s | s != t) lt_term X s.
  rewrite /lQ (bigD1 t) //= addrC addKr -sumrN; apply: ler_sum => s _; exact: lt_lower.
have -> : \sum_s lt_term X s = lt_term X t + \sum_(s | s != t) lt_term X s by rewrite (bigD1 t).
have := lq_ge0 t.
by move: (\sum_(s | _) _) (lt_term _ _) (lq _) (lQ) (gr _) (if _ then _ else _) (_ * sipn _ _) => *; mclra.
Qed.
Lemma level_bound X (M : R) : slices (@pd n) X -> prob X <= M -> sipn X X <= (M + lQ) * (4%:R / v).
Proof.
move=> pX; rewrite prob_terms; have := @greal_ge0 n m.+1 lap _ _ X a0 b0; have := dsq_ge0 X; have := terms_ge pX.
have q0 : 0 < v / 4%:R by rewrite divr_gt0 //; mclra.
have -> : 4%:R / v = (v / 4%:R)^-1 by rewrite invf_div.
rewrite ler_pdivl_mulr // (mulrC (sipn _ _)).
by move: (\sum_t _) (lQ) (gr _) (if _ then _ else _) (_ * sipn _ _) => *; mclra.
Qed.
Lemma level_gr X (M : R) : slices (@pd n) X -> prob X <= M -> gr X <= M + lQ.
Proof.
move=> pX; rewrite prob_terms; have := dsq_ge0 X; have := terms_ge pX; have := vsq_ge0 X.
by move: (\sum_t _) (lQ) (gr _) (if _ then _ else _) (_ * sipn _ _) => *; mclra.
Qed.
Lemma prob_bounded_below X : slices (@pd n) X -> - lQ <= prob X.
Proof.
move=> pX; rewrite prob_terms; have := @greal_ge0 n m.+1 lap _ _ X a0 b0; have := dsq_ge0 X; have := terms_ge pX.
have := vsq_ge0 X.
by move: (\sum_t _) (lQ) (gr _) (if _ then _ else _) (_ * sipn _ _) => *; mclra.
Qed.

Lemma level_floor (M : R) : exists2 c : R, 0 < c & forall X, slices (@pd n) X -> prob X <= M ->
  slices (fun A => psd (A - c%:M)) X.
Proof.
pose B : R := (M + lQ) * (4%:R / v).
have trb X t : slices (@pd n) X -> prob X <= M -> \tr (X t) <= n%:R + B /\ fnorm2 (X t) <= B.
  move=> pX hX; have h1 : fnorm2 (X t) <= B := le_trans (sip_slice X t) (level_bound pX hX).
  split=> //; have := fnorm2_ge0 (X t - 1%:M).
  rewrite !fnorm2E !fdotBl !fdotBr (fdotC 1%:M) -!fnorm2E.
  have -> : fdot (X t) 1%:M = \tr (X t) by rewrite -tr_fdot ?mulmx1 //; apply: pd_sym.
  have -> : fnorm2 (1%:M : 'M[R]_n) = n%:R.
    by rewrite fnorm2E -(tr_fdot 1%:M (trmx1 _ _)) mulmx1 mxtrace1.
  have : (0 : R) <= n%:R by rewrite ler0n.
  have := fnorm2_ge0 (X t).
  by move: h1; move: (fnorm2 _) (\tr _) (n%:R : R) (B) => *; mclra.
pose E t : R := - ((M + lQ + ns t * (fnorm2 (S t) + B)) / ns t).
have [c c0 hc] := pos_min (fun t => exp_gt0 (E t - (n%:R + B))).
exists c => // X pX hX t.
have [h1 h2] := trb X t pX hX.
have h3 : E t <= ln (\det (X t)).
  rewrite -(ler_pmul2r (ns0 t)) {1}/E mulNr divfK ?gt_eqF //.
  have := term_le t pX hX; rewrite /lt_term.
  have : - (fnorm2 (S t) + B) <= \tr (S t *m X t).
    rewrite (tr_fdot _ (sS t)).
    have := fnorm2_ge0 (S t + X t); rewrite fnorm2D.
    have := fnorm2_ge0 (S t); have := fnorm2_ge0 (X t).
    by move: h2; move: (fnorm2 _) (fnorm2 _) (fdot _ _) (B) => *; mclra.
  have : 0 <= v / 4%:R * fnorm2 (X t) by rewrite mulr_ge0 ?fnorm2_ge0 // divr_ge0 ?ltW //; mclra.
  have := ns0 t; move: (v / _ * _) (ns t) (\tr _) (ln _) (_ + B) (M + lQ) => a N x l q r N0 h4 h5 h6.
  have := ler_wpmul2l (ltW N0) h5; move: h4 h6; clear; move=> *; mclra.
have h := pd_floor_logdet (pX t) h3 h1.
have -> : X t - c%:M = (X t - (Rtrigo_def.exp (E t - (n%:R + B)))%:M) + (Rtrigo_def.exp (E t - (n%:R + B)) - c)%:M.
  by rewrite [X in _ = _ + X]raddfB /= addrA subrK.
apply: psdD => //; rewrite -scalemx1; apply: psdZ; last by apply: pd_psd; apply: pd1.
by rewrite subr_ge0.
Qed.

Lemma lap_fnorm2 X t : fnorm2 (laplacian_aux X t) <= 16%:R * sipn X X.
Proof.
rewrite lap_aux.
have h (o : option 'I_m.+1) : fnorm2 (oapp (dif X) 0 o) <= 4%:R * sipn X X.
  apply: le_trans (dif_bound X); case: o => [s|]; first exact: sip_slice.
  by rewrite [oapp _ _ _]/= fnorm2E fdot0l; apply: ip_ge0.
have := fnorm2_add2 (oapp (dif X) 0 (unlift ord0 t)) (- oapp (dif X) 0 (unlift ord_max t)).
rewrite fnorm2N; have := h (unlift ord0 t); have := h (unlift ord_max t).
by move: (fnorm2 _) (fnorm2 _) (fnorm2 _) (sipn X X) => *; mclra.
Qed.
Lemma level_grad (M : R) : exists2 A : R, 0 <= A & forall X, slices (@pd n) X -> prob X <= M ->
  sipn (G X) (G X) <= A.
Proof.
have [c c0 hc] := level_floor M.
pose B : R := `|(M + lQ) * (4%:R / v)|.
pose A t : R := 4%:R * (ns t ^+ 2 * (2%:R * fnorm2 (S t) + 2%:R * (n%:R * c^-1 ^+ 2))) + 4%:R * (v ^+ 2 * B)
   + 2%:R * ((2%:R * fb_beta p) ^+ 2 * (16%:R * B)).
have B0 : 0 <= B by rewrite normr_ge0.
exists (\sum_t A t).
  apply: sumr_ge0 => t _; rewrite /A.
  have s1 : 0 <= 2%:R * fnorm2 (S t) + 2%:R * (n%:R * c^-1 ^+ 2).
    apply: addr_ge0; first by apply: mulr_ge0; rewrite ?ler0n ?fnorm2_ge0.
    by apply: mulr_ge0; rewrite ?ler0n //; apply: mulr_ge0; rewrite ?ler0n ?sqr_ge0.
  apply: addr_ge0; first apply: addr_ge0.
  - by apply: mulr_ge0; rewrite ?ler0n //; apply: mulr_ge0; rewrite ?sqr_ge0.
  - by apply: mulr_ge0; rewrite ?ler0n //; apply: mulr_ge0; rewrite ?sqr_ge0.
  - apply: mulr_ge0; rewrite ?ler0n //; apply: mulr_ge0; rewrite ?sqr_ge0 //.
    by apply: mulr_ge0; rewrite ?ler0n.
move=> X pX hX; rewrite sipE; apply: ler_sum => t _; rewrite -fnorm2E gradE //.
have hB : sipn X X <= B by apply: le_trans (level_bound pX hX) (ler_norm _).
apply: le_trans (fnorm2_add2 _ _) _; rewrite /A.
apply: ler_add.
  have h1 : fnorm2 (ns t *: (S t - invmx (X t))) <= ns t ^+ 2 * (2%:R * fnorm2 (S t) + 2%:R * (n%:R * c^-1 ^+ 2)).
    rewrite fnorm2Z; apply: ler_wpmul2l; first exact: sqr_ge0.
    apply: le_trans (fnorm2_add2 _ _) _; rewrite fnorm2N ler_add2l; apply: ler_wpmul2l; first by mclra.
    by apply: inv_fnorm2 => //; apply: hc.
  have h2 : fnorm2 (v *: X t) <= v ^+ 2 * B.
    by rewrite fnorm2Z; apply: ler_wpmul2l; [exact: sqr_ge0|apply: le_trans hB; exact: sip_slice].
  have := fnorm2_add2 (ns t *: (S t - invmx (X t))) (v *: X t).
  by move: h1 h2; move: (fnorm2 _) (fnorm2 _) (fnorm2 (_ + _)) (_ * B) (ns t ^+ 2 * _) => *; mclra.
apply: ler_wpmul2l; first by mclra.
have rhs0 : 0 <= (2%:R * fb_beta p) ^+ 2 * (16%:R * B) by rewrite !mulr_ge0 ?sqr_ge0 ?ler0n.
case: lap; last by rewrite fnorm2E fdot0l.
rewrite fnorm2Z; apply: ler_wpmul2l; first exact: sqr_ge0.
by apply: le_trans (lap_fnorm2 X t) _; apply: ler_wpmul2l; [rewrite ler0n|].
Qed.
End Level.
