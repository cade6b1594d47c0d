(** C197, C198: the paths of the penalties of the time-varying and latent problems; when the latent part vanishes. *)
From Coq Require Import Reals Lra.
From mathcomp Require Import all_ssreflect all_algebra.
From Verif Require Import RStruct RTac LinTac S_Mat RMx NP M_Prox S_Prox P_Prox P_Prox2 M_Loop M_GL S_GL P_Eigh P_Exist P_GL M_LGL P_LGL M_TGL S_TGL P_TGL P_TGL2.
From Verif Require Import P_TGL4 M_KTGL S_KTGL P_KTGL P_KTGL2 P_KTGL4 M_LTGL S_LTGL P_LTGL T_GL T_LGL T_TGL T_LTGL T_Exist.
Import Order.TTheory GRing.Theory Num.Theory.

Set Implicit Arguments.
Unset Strict Implicit.
Unset Printing Implicit Defensive.
Local Open Scope ring_scope.

(** the exchange argument: of two problems f + a g and f + a' g with a < a', the second has the smaller g and the larger f *)
Lemma exchange (X : Type) (D : X -> Prop) (f g : X -> R) (h h' : X -> R) (a a' : R) x x' :
  (forall x, h x = f x + a * g x) -> (forall x, h' x = f x + a' * g x) ->
  a < a' -> minimiser D h x -> minimiser D h' x' -> g x' <= g x /\ (0 <= a -> f x <= f x').
Proof.
move=> hE hE' aa [Dx hx] [Dx' hx']; have h1 := hx _ Dx'; have h2 := hx' _ Dx; rewrite !hE in h1; rewrite !hE' in h2.
have num (b b' p q s t : R) : b < b' -> p < q -> t + b' * q <= s + b' * p -> s + b * p <= t + b * q -> False.
  move=> e1 e2 e3 e4; have e5 : 0 < (b' - b) * (q - p) by rewrite mulr_gt0 ?subr_gt0.
  by move: e5; rewrite mulrBl !mulrBr => e5; clear e1 e2; mclra.
have le : g x' <= g x by rewrite leNgt; apply/negP => lt; exact: (num _ _ _ _ _ _ aa lt h2 h1).
by split=> // a0; have := ler_wpmul2l a0 le; move: h1; move: (a * _) (a * _) (f _) (f _); clear; move=> p q s t h1 h2; mclra.
Qed.

(** C197, in alpha *)
Theorem C197_alpha n m (eigh eigh' : eigh_t n) psi prox prox' : eigh_ok eigh -> eigh_ok eigh' ->
  forall (S : stack n m.+1) ns, slices (@sym n) S -> (forall t, 0 < ns t) -> convex_fun psi -> prox_of psi prox -> prox_of psi prox' ->
  forall p p' rho rho' (Z U : triple n m) K (Z' U' : triple n m) K',
  0 <= tgl_alpha p -> 0 <= tgl_beta p -> tgl_alpha p < tgl_alpha p' -> tgl_beta p' = tgl_beta p ->
  0 < rho -> 0 < rho' -> slices (@sym n) U.1.1 -> slices (@sym n) U'.1.1 ->
  tgl_updates eigh (PsiPlain psi prox) S ns p rho Z U = (K, Z, U) ->
  tgl_updates eigh' (PsiPlain psi prox') S ns p' rho' Z' U' = (K', Z', U') ->
  \sum_t l1 (Z'.1.1 t) <= \sum_t l1 (Z.1.1 t).
Proof.
move=> He He' S ns sS ns0 cv hp hp' p p' rho rho' Z U K Z' U' K' a0 b0 aa eb r0 r0' sU sU' E E'.
have [-> h] := tgl_fixed_opt He sS ns0 cv hp a0 b0 r0 sU E.
have a0' := le_trans a0 (ltW aa); rewrite -eb in b0.
have [-> h'] := tgl_fixed_opt He' sS ns0 cv hp' a0' b0 r0' sU' E'; rewrite eb in h'.
have [X|X|//] := exchange (f := fun K : stack n m.+1 => \sum_t ns t * (\tr (S t *m K t) - ln (\det (K t))) + tgl_beta p * \sum_(s < m.+1) \sum_(t < m.+1 | t == s.+1 :> nat) psi (K t - K s))
  (g := fun K : stack n m.+1 => \sum_t l1 (K t)) _ _ aa h h'; by rewrite /time_obj addrAC.
Qed.
Print Assumptions C197_alpha.
(** in beta: the estimates change less in time *)
Theorem C197_beta n m (eigh eigh' : eigh_t n) psi prox prox' : eigh_ok eigh -> eigh_ok eigh' ->
  forall (S : stack n m.+1) ns, slices (@sym n) S -> (forall t, 0 < ns t) -> convex_fun psi -> prox_of psi prox -> prox_of psi prox' ->
  forall p p' rho rho' (Z U : triple n m) K (Z' U' : triple n m) K',
  0 <= tgl_alpha p -> 0 <= tgl_beta p -> tgl_beta p < tgl_beta p' -> tgl_alpha p' = tgl_alpha p ->
  0 < rho -> 0 < rho' -> slices (@sym n) U.1.1 -> slices (@sym n) U'.1.1 ->
  tgl_updates eigh (PsiPlain psi prox) S ns p rho Z U = (K, Z, U) ->
  tgl_updates eigh' (PsiPlain psi prox') S ns p' rho' Z' U' = (K', Z', U') ->
  \sum_(s < m.+1) \sum_(t < m.+1 | t == s.+1 :> nat) psi (Z'.1.1 t - Z'.1.1 s) <=
  \sum_(s < m.+1) \sum_(t < m.+1 | t == s.+1 :> nat) psi (Z.1.1 t - Z.1.1 s).
Proof.
move=> He He' S ns sS ns0 cv hp hp' p p' rho rho' Z U K Z' U' K' a0 b0 bb ea r0 r0' sU sU' E E'.
have [-> h] := tgl_fixed_opt He sS ns0 cv hp a0 b0 r0 sU E.
have b0' := le_trans b0 (ltW bb); rewrite -ea in a0.
have [-> h'] := tgl_fixed_opt He' sS ns0 cv hp' a0 b0' r0' sU' E'; rewrite ea in h'.
by have [] := exchange (f := fun K : stack n m.+1 => \sum_t ns t * (\tr (S t *m K t) - ln (\det (K t))) + tgl_alpha p * \sum_t l1 (K t))
  (g := fun K : stack n m.+1 => \sum_(s < m.+1) \sum_(t < m.+1 | t == s.+1 :> nat) psi (K t - K s)) _ _ bb h h'.
Qed.
Print Assumptions C197_beta.
(** in the penalty tau of the latent part *)
Theorem C197_tau n (eigh eigh' : eigh_t n) : eigh_ok eigh -> eigh_ok eigh' -> forall S : 'M[R]_n, sym S ->
  forall alpha tau tau' rho rho' K L U Rm K' L' U' Rm', 0 <= alpha -> 0 <= tau -> tau < tau' -> 0 < rho -> 0 < rho' ->
  sym L -> sym U -> sym L' -> sym U' ->
  lgl_updates eigh S alpha tau rho K L U = (Rm, K, L, U) -> lgl_updates eigh' S alpha tau' rho' K' L' U' = (Rm', K', L', U') ->
  \tr L' <= \tr L.
Proof.
move=> He He' S sS alpha tau tau' rho rho' K L U Rm K' L' U' Rm' a0 t0 tt r0 r0' sL sU sL' sU' E E'.
have h := C21_stationary_is_optimal He sS a0 t0 r0 sL sU E.
have h' := C21_stationary_is_optimal He' sS a0 (le_trans t0 (ltW tt)) r0' sL' sU' E'.
by have [] := exchange (f := fun KL : 'M[R]_n * 'M[R]_n => \tr (S *m (KL.1 - KL.2)) - ln (\det (KL.1 - KL.2)) + alpha * l1 KL.1) (g := fun KL : 'M[R]_n * 'M[R]_n => \tr KL.2) _ _ tt h h'.
Qed.
Print Assumptions C197_tau.

Lemma log_slope (A B : R) : 0 <= B -> (forall c : R, 0 < c -> B * ln c <= (c - 1) * A) -> A = B.
Proof.
move=> b0 h; have h' (c : R) : 0 < c -> 0 <= (c - 1) * (c * A - B).
  move=> c0; have l : 1 - c^-1 <= ln c.
    have := ln_le_sub1 (_ : 0 < c^-1); rewrite invr_gt0 => /(_ c0); rewrite RinvE' ln_Rinv; last exact/RltP.
    by rewrite RoppE'; move: (ln c) (Rinv c : R) => x y e; mclra.
  have e := le_trans (ler_wpmul2l b0 l) (h c c0); have e' := ler_wpmul2l (ltW c0) e.
  have ei : c * (B * (1 - c^-1)) = B * (c - 1) by rewrite mulrCA mulrBr mulr1 divff ?gt_eqF.
  by move: e'; rewrite ei; clear; move=> e'; mcnra.
have a2 : B <= 2%:R * A.
  by have := h' 2%:R (ltr0n _ 2); clear; move=> e; mclra.
have [A0|A0] := leP A 0; first by move: a2 b0 A0; clear; move=> a2 b0 A0; apply/eqP; rewrite eq_le; apply/andP; split; mclra.
have AB : 0 < A + B by apply: ltr_paddr.
have := h' ((A + B) / (2%:R * A)) (divr_gt0 AB (mulr_gt0 (ltr0n _ 2) A0)).
have -> : (A + B) / (2%:R * A) * A = (A + B) / 2%:R by rewrite invfM mulrA mulfVK // gt_eqF.
have -> : (A + B) / (2%:R * A) - 1 = (B - A) / (2%:R * A).
  have u : 2%:R * A != 0 by rewrite gt_eqF // mulr_gt0 // ltr0n.
  rewrite -[X in _ - X = _](divff u) -mulrBl; congr (_ / _); move: (A : R) (B : R); clear; move=> A B; mclra.
have -> : (A + B) / 2%:R - B = (A - B) / 2%:R by move: (A : R) (B : R); clear; move=> A B; mclra.
rewrite mulrAC mulrA -mulrA -invfM => e; apply/eqP; rewrite -subr_eq0 -sqrf_eq0 eq_le sqr_ge0 andbT.
move: e; rewrite pmulr_lge0; last by rewrite invr_gt0 mulr_gt0 // ?mulr_gt0 // ?ltr0n.
by rewrite -opprB mulNr oppr_ge0.
Qed.
(** the terms of the objective but the log-determinants sum to the number of variables times the number of samples, for every penalty that
    grows linearly along rays *)
Theorem C197_total n m (eigh : eigh_t n) psi prox : eigh_ok eigh ->
  forall (S : stack n m.+1) ns, slices (@sym n) S -> (forall t, 0 < ns t) -> convex_fun psi -> prox_of psi prox ->
  (forall (c : R) X, 0 < c -> psi (c *: X) = c * psi X) ->
  forall p rho (Z U : triple n m) K, 0 <= tgl_alpha p -> 0 <= tgl_beta p -> 0 < rho -> slices (@sym n) U.1.1 ->
  tgl_updates eigh (PsiPlain psi prox) S ns p rho Z U = (K, Z, U) ->
  (\sum_t ns t * \tr (S t *m Z.1.1 t)) + tgl_alpha p * (\sum_t l1 (Z.1.1 t))
  + tgl_beta p * (\sum_(s < m.+1) \sum_(t < m.+1 | t == s.+1 :> nat) psi (Z.1.1 t - Z.1.1 s)) = n%:R * (\sum_t ns t).
Proof.
move=> He S ns sS ns0 cv hp hom p rho Z U K a0 b0 r0 sU E.
have [-> [pK h]] := tgl_fixed_opt He sS ns0 cv hp a0 b0 r0 sU E.
apply: log_slope => [|c c0]; first by apply: mulr_ge0; rewrite ?ler0n //; apply: sumr_ge0 => t _; exact: ltW.
have pc : slices (@pd n) ([ffun t => c *: K t] : stack n m.+1) by move=> t; rewrite ffunE; apply: pdZ.
have := h _ pc; rewrite /time_obj.
have -> : \sum_t l1 (([ffun t => c *: K t] : stack n m.+1) t) = c * \sum_t l1 (K t).
  by rewrite mulr_sumr; apply: eq_bigr => t _; rewrite ffunE l1Z gtr0_norm.
have -> : \sum_(s < m.+1) \sum_(t < m.+1 | t == s.+1 :> nat) psi (([ffun t => c *: K t] : stack n m.+1) t - ([ffun t => c *: K t] : stack n m.+1) s) =
    c * \sum_(s < m.+1) \sum_(t < m.+1 | t == s.+1 :> nat) psi (K t - K s).
  by rewrite mulr_sumr; apply: eq_bigr => s _; rewrite mulr_sumr; apply: eq_bigr => t _; rewrite !ffunE -scalerBr hom.
have lnc k : ln (c ^+ k) = k%:R * ln c.
  elim: k => [|k IH]; first by rewrite expr0 ln_1 mul0r.
  rewrite exprS [ln _]ln_mult ?IH; try by apply/RltP; rewrite ?exprn_gt0.
  by rewrite -addn1 natrD; move: (k%:R : R) (ln c); clear; move=> x y; rewrite mulrDl mul1r addrC.
have -> : \sum_t ns t * (\tr (S t *m ([ffun t => c *: K t] : stack n m.+1) t) - ln (\det (([ffun t => c *: K t] : stack n m.+1) t))) =
    c * (\sum_t ns t * \tr (S t *m K t)) - \sum_t ns t * ln (\det (K t)) - n%:R * (\sum_t ns t) * ln c.
  rewrite mulr_sumr [n%:R * _]mulr_sumr mulr_suml -!sumrB; apply: eq_bigr => t _; rewrite ffunE -scalemxAr mxtraceZ detZ.
  have d0 := pd_det_gt0 (pK t).
  rewrite [ln _]ln_mult ?lnc; try by apply/RltP; rewrite ?exprn_gt0.
  by move: (ns t : R) (\tr _) (ln (\det _)) (n%:R : R) (ln c); clear; move=> w x y z v; mcring.
have -> : \sum_t ns t * (\tr (S t *m K t) - ln (\det (K t))) = (\sum_t ns t * \tr (S t *m K t)) - \sum_t ns t * ln (\det (K t)).
  by rewrite -sumrB; apply: eq_bigr => t _; rewrite mulrBr.
rewrite /copies /=; move: (\sum_t ns t * \tr (S t *m K t)) (\sum_t ns t * ln (\det (K t))) (\sum_t l1 (K t))
  (\sum_(s < m.+1) \sum_(t < m.+1 | t == s.+1 :> nat) psi (K t - K s)) (n%:R * \sum_t ns t) (ln c) (tgl_alpha p) (tgl_beta p); clear.
by move=> x1 x2 x3 x4 x5 x6 x7 x8 e; mcnra.
Qed.
Print Assumptions C197_total.

Lemma psd_entry n (A : 'M[R]_n) i j : psd A -> `|A i j| <= (A i i + A j j) / 2%:R.
Proof.
move=> pA; have [sA qA] := pA.
have [->|ij] := eqVneq i j.
  have d : 0 <= A j j by rewrite -quad_delta.
  by rewrite ger0_norm //; move: (A j j : R) d => x d; mclra.
have q (s : R) := @quad_delta2 _ A i j s sA.
have h1 := qA (delta_mx i 0 + 1 *: delta_mx j 0); have h2 := qA (delta_mx i 0 + (- 1) *: delta_mx j 0); rewrite !q in h1 h2.
move: h1 h2; move: (A i i : R) (A i j : R) (A j j : R) => x y z; rewrite sqrrN expr1n !mul1r mulr1 mulrN1 => h1 h2.
by rewrite ler_norml; apply/andP; split; mclra.
Qed.
Lemma psd_l1 n (A : 'M[R]_n) : psd A -> l1 A <= n%:R * \tr A.
Proof.
move=> pA; apply: (@le_trans _ _ (\sum_i \sum_j (A i i + A j j) / 2%:R)).
  by apply: ler_sum => i _; apply: ler_sum => j _; exact: psd_entry.
rewrite le_eqVlt; apply/orP; left; apply/eqP.
have e i : \sum_j (A i i + A j j) / 2%:R = (n%:R * A i i + \tr A) / 2%:R.
  by rewrite -mulr_suml big_split /= sumr_const card_ord mulr_natl.
rewrite (eq_bigr _ (fun i _ => e i)) -mulr_suml big_split /= sumr_const card_ord -mulr_sumr -/(\tr A) -[\tr A *+ n]mulr_natl.
by move: (\tr A) => x; have num (y : R) : (y + y) / 2%:R = y; [mclra | exact: num].
Qed.
Lemma psd_tr0 n (A : 'M[R]_n) : psd A -> \tr A <= 0 -> A = 0.
Proof.
move=> pA t0; have := psd_l1 pA; have tA : \tr A = 0.
  by apply/eqP; rewrite eq_le t0; apply: sumr_ge0 => i _; rewrite -quad_delta; case: pA.
rewrite tA mulr0 => l0; have : l1 A = 0 by apply/eqP; rewrite eq_le l0; apply: sumr_ge0 => i _; apply: sumr_ge0.
move/eqP; rewrite psumr_eq0 => [/allP h|i _]; last by apply: sumr_ge0.
apply/matrixP => i j; have := h i (mem_index_enum i); rewrite /= psumr_eq0 // => /allP /(_ j (mem_index_enum j)) /=.
by rewrite normr_eq0 mxE => /eqP.
Qed.

(** C198: when tau is more than the number of variables times alpha, the latent part is zero *)
Theorem C198_no_latent n (eigh : eigh_t n) : eigh_ok eigh -> forall S : 'M[R]_n, sym S ->
  forall alpha tau rho K L U Rm, 0 <= alpha -> n%:R * alpha < tau -> 0 < rho -> sym L -> sym U ->
  lgl_updates eigh S alpha tau rho K L U = (Rm, K, L, U) ->
  L = 0 /\ minimiser (@pd n) (fun K => \tr (S *m K) - ln (\det K) + alpha * l1 K) K.
Proof.
move=> He S sS alpha tau rho K L U Rm a0 big r0 sL sU E.
have t0 : 0 <= tau by apply: le_trans (ltW big); apply: mulr_ge0; rewrite ?ler0n.
have [[/= sK pL pKL] h] := C21_stationary_is_optimal He sS a0 t0 r0 sL sU E.
have L0 : L = 0.
  apply: psd_tr0 => //; have := h (K - L, 0) => /= /(_ (And3 _ _ _)); rewrite subr0 mxtrace0 mulr0 addr0.
  move=> /(_ (proj1 pKL) (@psd0 n) pKL) le;
  have {}le : tau * \tr L <= alpha * l1 L.
    have tri2 : l1 (K - L) <= l1 K + l1 L by have := l1D K (- L); rewrite -[l1 L]mul1r -[1]normrN1 -l1Z scaleN1r.
    have := ler_wpmul2l a0 tri2; rewrite mulrDr; move: le; clear.
    move: (\tr _) (ln _) (alpha * _) (alpha * _) (alpha * _) (tau * _) => u1 u2 u3 u4 u5 u6 e1 e2; mclra.
  have := ler_wpmul2l a0 (psd_l1 pL); rewrite mulrA (mulrC alpha n%:R) => le2; have le3 := le_trans le le2.
  rewrite leNgt; apply/negP => tr0; have : n%:R * alpha * \tr L < tau * \tr L by rewrite ltr_pmul2r.
  by rewrite ltNge le3.
split=> //; rewrite L0 subr0 in pKL; split=> // Y pY; have := h (Y, 0) => /=; rewrite L0 !subr0 !mxtrace0 !mulr0 !addr0; apply.
by split=> /=; [exact: (proj1 pY) | exact: psd0 | rewrite ?subr0].
Qed.
Print Assumptions C198_no_latent.

(** the same over time, when a change of the latent part costs at least what the same change of the observed part does *)
Theorem C198_time n m psi phi pp pf (eigh : eigh_t n) : eigh_ok eigh -> convex_fun psi -> convex_fun phi -> prox_of psi pp -> prox_of phi pf ->
  forall p rho, 0 <= lt_alpha p -> n%:R * lt_alpha p < lt_tau p -> 0 <= lt_beta p -> 0 <= lt_eta p -> 0 < rho ->
  (forall X Y, psi (X - Y) <= psi X + psi Y) -> (forall X, lt_beta p * psi X <= lt_eta p * phi X) -> phi 0 = 0 ->
  forall (S : stack n m.+1) ns, slices (@sym n) S -> (forall t, 0 < ns t) -> forall v d Rm,
  lt_updates (ltgl_R_update eigh S ns) eigh (PsiPlain psi pp) (PsiPlain phi pf) p rho v d = (Rm, v, d) -> forall t, lt_W0 v t = 0.
Proof.
move=> He cp cf hp hf p rho a0 big b0 e0 r0 tri dom ph0 S ns sS ns0 v d Rm E.
have t0 : 0 <= lt_tau p by apply: le_trans (ltW big); apply: mulr_ge0; rewrite ?ler0n.
have [_ _ _ [[/= pL pKL] h]] := C69_stationary_is_optimal He cp cf hp hf a0 t0 b0 e0 r0 sS ns0 E.
move: (lt_Z0 v) (lt_W0 v) pL pKL h => K L pL pKL h.
have tr0 t : 0 <= \tr (L t) by apply: sumr_ge0 => i _; rewrite -quad_delta; case: (pL t).
suff le : \sum_t \tr (L t) <= 0.
  move=> t; apply: psd_tr0 (pL t) _; apply: le_trans le; rewrite (bigD1 t) //= ler_addl; exact: sumr_ge0.
have z t : (0 : stack n m.+1) t = 0 by rewrite ffunE.
have fe : latent_feasible (@pd n) (K - L) (0 : stack n m.+1).
  by split=> t; rewrite z ?subr0; [exact: psd0 | rewrite !ffunE; exact: pKL].
have := h (K - L, 0) fe; rewrite /latent_obj /=.
have -> : logdet_loss ns S (fun t => (K - L) t - (0 : stack n m.+1) t) = logdet_loss ns S (fun t => K t - L t).
  by apply: eq_bigr => t _; rewrite z subr0 !ffunE.
have -> : \sum_t \tr ((0 : stack n m.+1) t) = 0 by rewrite big1 // => t _; rewrite z mxtrace0.
have -> : neighbour_coupling phi (0 : stack n m.+1) = 0.
  by rewrite /neighbour_coupling big1 // => s _; rewrite big1 // => t _; rewrite !z subr0.
have l1le : lt_alpha p * (\sum_t l1 ((K - L) t)) <= lt_alpha p * (\sum_t l1 (K t)) + n%:R * lt_alpha p * (\sum_t \tr (L t)).
  rewrite -mulrA mulrCA -mulrDr; apply: ler_wpmul2l => //; rewrite mulr_sumr -big_split; apply: ler_sum => t _ /=.
  rewrite !ffunE; apply: le_trans (l1D _ _) _; rewrite ler_add2l -scaleN1r l1Z normrN1 mul1r; exact: psd_l1.
have cle : lt_beta p * neighbour_coupling psi (K - L) <= lt_beta p * neighbour_coupling psi K + lt_eta p * neighbour_coupling phi L.
  rewrite /neighbour_coupling !mulr_sumr -big_split; apply: ler_sum => s _ /=; rewrite !mulr_sumr -big_split; apply: ler_sum => t _ /=.
  rewrite !ffunE opprD addrACA -opprD; apply: le_trans (ler_wpmul2l b0 (tri _ _)) _; rewrite mulrDr ler_add2l; exact: dom.
rewrite !mulr0 !addr0 => e; rewrite leNgt; apply/negP => lt.
have st : n%:R * lt_alpha p * (\sum_t \tr (L t)) < lt_tau p * (\sum_t \tr (L t)) by rewrite ltr_pmul2r.
move: e st l1le cle; move: (logdet_loss _ _ _) (lt_alpha p * \sum_t l1 ((K - L) t)) (lt_alpha p * \sum_t l1 (K t)) (n%:R * lt_alpha p * \sum_t \tr (L t)) (lt_tau p * \sum_t \tr (L t))
  (_ * neighbour_coupling psi (K - L)) (_ * neighbour_coupling psi K) (_ * neighbour_coupling phi L); clear.
by move=> x1 x2 x3 x4 x5 x6 x7 x8 e st l1le cle; mclra.
Qed.
Print Assumptions C198_time.

Definition exA (a b : R) : tgl_params := TGLParams a 1 b 5 (10%:R^-1) 0 true true true None 0 (RhoOptions 10%:R 1 1).
Example C197_case : exists eigh : eigh_t 2, eigh_ok eigh /\
  (forall a b : R, 0 < a -> 0 <= b -> exists (Z U : triple 2 2) K, slices (@sym 2) U.1.1 /\
     tgl_updates eigh (PsiPlain (@l1 2 2) (@soft_thresholding 2 2)) exSt (fun=> 1) (exA a b) 1 Z U = (K, Z, U)) /\
  (forall c (X : 'M[R]_2), 0 < c -> l1 (c *: X) = c * l1 X) /\
  (forall tau : R, 0 < tau -> exists K L U, [/\ sym L, sym U & lgl_updates eigh exS 1 tau 1 K L U = (K - L, K, L, U)]).
Proof.
have [eigh He] := eigh_exists 2; exists eigh; split=> //; split; last split=> [c X c0|tau t0]; last 2 first.
- by rewrite l1Z gtr0_norm.
- have [K [L h]] := C101_latent_graphical_lasso exS_psd ltr01 t0; have [[/= sK pL pKL] _] := h.
  exists K, L, (1^-1 *: (invmx (K - L) - exS)); split; [exact: (proj1 pL) | |].
    by apply: symZ; apply: symB; [apply: sym_inv; exact: pd_sym | exact: exS_sym].
  exact: (C21_optimal_is_stationary He exS_sym ler01 (ltW t0) ltr01 h).
move=> a b a0 b0; have l10 (X : 'M[R]_2) : 0 <= l1 X by apply: sumr_ge0 => i _; apply: sumr_ge0.
have [|K h] := @C101_time_graphical_lasso 2 3 (@l1 2 2) exSt (fun=> 1) a b _ (fun=> ltr01) (@l1_convex 2) l10 a0 b0.
  by move=> t; rewrite ffunE; exact: exS_psd.
have [U [sU e]] := C23_optimal_is_stationary (p := exA a b) He exSt_sym (fun=> ltr01) (@l1_convex 2) (@l1_prox 2) (ltW a0) b0 ltr01 h.
by exists (copies K), U, K.
Qed.
Example C198_case : exists eigh : eigh_t 2, [/\ eigh_ok eigh, 2%:R * 1 < 3%:R :> R,
  exists K L U, [/\ sym L, sym U & lgl_updates eigh exS 1 3%:R 1 K L U = (K - L, K, L, U)] &
  exists v d, lt_updates (ltgl_R_update eigh exSt (fun=> 1)) eigh (PsiPlain (@l1 2 2) (@soft_thresholding 2 2)) (PsiPlain (@l1 2 2) (@soft_thresholding 2 2))
    (LTParams 1 3%:R 1 1 1 5 (10%:R^-1) 0 true true (RhoOptions 10%:R 1 1) true) 1 v d = (lt_Z0 v - lt_W0 v, v, d) /\
  [/\ (forall X Y : 'M[R]_2, l1 (X - Y) <= l1 X + l1 Y) & l1 (0 : 'M[R]_2) = 0]].
Proof.
have [eigh [He [_ [_ h]]]] := C197_case; exists eigh; split=> //; first by mclra.
  by apply: h; rewrite ltr0n.
have l10 (X : 'M[R]_2) : 0 <= l1 X by apply: sumr_ge0 => i _; apply: sumr_ge0.
have [|||||| v [d e]] := C101_latent_time_graphical_lasso_rests (p := LTParams 1 3%:R 1 1 1 5 (10%:R^-1) 0 true true (RhoOptions 10%:R 1 1) true) (rho := 1)
  He (@l1_convex 2) (@l1_convex 2) (@l1_prox 2) (@l1_prox 2) (@l1_T 2) (@l1_T 2) l10 l10 _ _ _ _ _ _ (S := exSt) (fun=> ltr01).
- exact: ltr01.
- by rewrite /= ltr0n.
- exact: ler01.
- exact: ler01.
- exact: ltr01.
- by move=> t; rewrite ffunE; exact: exS_psd.
exists v, d; split=> //; split=> [X Y|]; last by rewrite -(scale0r 0) l1Z normr0 mul0r.
by apply: le_trans (l1D _ _) _; rewrite -[X in _ <= _ + X]mul1r -[1]normrN1 -l1Z scaleN1r.
Qed.
