(** Sparse plus low-rank consensus problems: structure, uniqueness, the off-diagonal objective, and
    the two losses used by the solvers. *)
From Coq Require Import Reals Lra Psatz Epsilon.
From mathcomp Require Import all_ssreflect all_algebra.
From Verif Require Import RStruct RTac LinTac Spectral S_Mat RMx ADMM NP M_Prox S_Prox P_Eigh.
From Verif Require Import P_Prox P_Prox2 P_Rules M_Loop P_Loop M_GL S_GL P_GL P_GL2 M_LGL P_LGL.
From Verif Require Import M_TGL S_TGL P_TGL P_TGL2 P_Admm P_TGL3 HB P_TGL4 M_KTGL P_KTGL P_KTGL2.
From Verif Require Import M_LTGL S_LTGL P_LatCore.
Import Order.TTheory GRing.Theory Num.Theory.

Set Implicit Arguments.
Unset Strict Implicit.
Unset Printing Implicit Defensive.
Local Open Scope ring_scope.

Lemma pair_update_sym n (prox : 'M[R]_n -> R -> 'M[R]_n) A1 A2 w rho :
  (forall a lam, sym a -> sym (prox a lam)) -> sym A1 -> sym A2 ->
  sym (pair_update prox A1 A2 w rho).1 /\ sym (pair_update prox A1 A2 w rho).2.
Proof.
move=> hp s1 s2; rewrite /pair_update /=; split; apply: symZ.
  by apply: symB; [apply: symD | apply: hp; apply: symB].
by apply: symD; [apply: symD | apply: hp; apply: symB].
Qed.

Section Gen.
Variables (n T : nat) (E : finType) (l r : E -> 'I_T).
Local Notation st := (stack n T).
Local Notation pr := (cpr n E).
Implicit Types (K L : stack n T) (D X : cpr n E).

Lemma pr_symD D X : pr_sym D -> pr_sym X -> pr_sym (D + X).
Proof. by move=> [a b] [c d]; split=> e; rewrite cprD; apply: symD. Qed.
Lemma pr_symN D : pr_sym D -> pr_sym (- D).
Proof. by move=> [a b]; split=> e; rewrite cprN; apply: symN. Qed.
Lemma pr_symZ (a : R) D : pr_sym D -> pr_sym (a *: D).
Proof. by move=> [c b]; split=> e; rewrite cprZ; apply: symZ. Qed.
Lemma pr_sym0 : pr_sym (0 : pr).
Proof. by split=> e; rewrite /= ffunE; apply: sym0. Qed.
Lemma st_symD (K L : st) : slices (@sym n) K -> slices (@sym n) L -> slices (@sym n) (K + L).
Proof. by move=> a b t; rewrite stD; apply: symD. Qed.
Lemma st_symN (K : st) : slices (@sym n) K -> slices (@sym n) (- K).
Proof. by move=> a t; rewrite stN; apply: symN. Qed.
Lemma st_symZ (a : R) (K : st) : slices (@sym n) K -> slices (@sym n) (a *: K).
Proof. by move=> h t; rewrite stZ; apply: symZ. Qed.
Lemma st_sym0 : slices (@sym n) (0 : st).
Proof. by move=> t; rewrite ffunE; apply: sym0. Qed.
Lemma sym_sum (I : finType) (P : pred I) (F : I -> 'M[R]_n) :
  (forall i, P i -> sym (F i)) -> sym (\sum_(i | P i) F i).
Proof. by move=> h; elim/big_ind: _ => //; [exact: sym0 | move=> x y; apply: symD]. Qed.
Lemma cadj_sym D : pr_sym D -> slices (@sym n) (cadj l r D).
Proof. by move=> [a b] t; rewrite ffunE; apply: symD; apply: sym_sum. Qed.
Lemma cpair_sym prox w rho D : (forall a lam, sym a -> sym (prox a lam)) -> pr_sym D ->
  pr_sym (cpair prox w rho D).
Proof. by move=> hp [a b]; split=> e; rewrite ffunE; have [] := pair_update_sym (w e) rho hp (a e) (b e). Qed.

Variables (pp pf : 'M[R]_n -> R -> 'M[R]_n) (alpha tau : R) (w1 w2 : E -> R).
Variables (Rup : st -> st) (eigh : eigh_t n) (rho : R).
Hypothesis He : eigh_ok eigh.
Hypothesis ps : forall a lam, sym a -> sym (pp a lam).
Hypothesis fs : forall a lam, sym a -> sym (pf a lam).
Hypotheses (t0 : 0 <= tau) (r0 : 0 < rho).

(** the variables read by an iteration, other than Z_0, are symmetric *)
Definition cinv (v : st * pr * st * pr) (d : st * pr * pr) : Prop :=
  [/\ pr_sym v.1.1.2, slices (@sym n) v.1.2, slices (@sym n) d.1.1 & pr_sym d.1.2 /\ pr_sym d.2].

Lemma cstep_struct v d (Rm : st) (v' : st * pr * st * pr) (d' : st * pr * pr) : cinv v d -> slices (@sym n) Rm ->
  cstep l r pp pf alpha tau w1 w2 Rup eigh rho v d Rm v' d' ->
  [/\ slices (@sym n) v'.1.1.1, slices (@psd n) v'.1.2, pr_sym v'.1.1.2 /\ pr_sym v'.2,
      slices (@sym n) d'.1.1 & pr_sym d'.1.2 /\ pr_sym d'.2].
Proof.
case: v d v' d' => [[[Za ZE] Wa] WE] [[Xa XE] UE] [[[Za' ZE'] Wa'] WE'] [[Xa' XE'] UE'] /=.
move=> [/= sZE sW sX [sXE sU]] sR [_ eZ eW [eZE eWE] [eX eXE eUE]].
have sZ' : slices (@sym n) Za'.
  move=> t; rewrite eZ ffunE; apply: soft_sym; apply: symZ.
  have h : slices (@sym n) (Rm + Wa + Xa + cadj l r (ZE - XE)).
    apply: st_symD; first by apply: st_symD => //; apply: st_symD.
    by apply: cadj_sym; apply: pr_symD => //; apply: pr_symN.
  exact: h.
have pW : slices (@psd n) Wa' by rewrite eW; apply: cW0_psd.
have sW' t : sym (Wa' t) by apply: psd_sym.
have s1 : pr_sym ZE' by rewrite eZE; apply: cpair_sym => //; apply: pr_symD => //; apply: ccop_sym.
have s2 : pr_sym WE' by rewrite eWE; apply: cpair_sym => //; apply: pr_symD => //; apply: ccop_sym.
split=> //.
- rewrite eX; apply: st_symD => //; apply: st_symD => //; apply: st_symD => //; exact: st_symN.
- by split; rewrite ?eXE ?eUE; apply: pr_symD => //; apply: pr_symD; rewrite ?ccop_sym //;
    [apply: ccop_sym | apply: pr_symN | apply: ccop_sym | apply: pr_symN].
Qed.
End Gen.

Section Opt2.
Variables (n T : nat) (E : finType) (l r : E -> 'I_T).
Variables (psi phi : 'M[R]_n -> R) (alpha tau : R) (w1 w2 : E -> R).
Hypotheses (cpsi : convex_fun psi) (cphi : convex_fun phi).
Hypotheses (a0 : 0 <= alpha) (t0 : 0 <= tau) (w10 : forall e, 0 <= w1 e) (w20 : forall e, 0 <= w2 e).
Variables (f : stack n T -> R) (Dm : stack n T -> Prop).
Local Notation feas := (cfeas Dm).
Local Notation obj := (cobj l r psi phi alpha tau w1 w2 f).

Section Uniq.
Hypothesis fm : forall X Y, Dm X -> Dm Y -> [/\ Dm (2%:R^-1 *: (X + Y)),
  2%:R * f (2%:R^-1 *: (X + Y)) <= f X + f Y & X <> Y -> 2%:R * f (2%:R^-1 *: (X + Y)) < f X + f Y].
Lemma lat_unique K L K' L' : minimiser feas obj (K, L) -> minimiser feas obj (K', L') -> K - L = K' - L'.
Proof.
move=> [[/= pL dR] h1] [[/= pL' dR'] h2]; apply/eqP; apply/negP => /negP/eqP ne.
have [dM _ hlt] := fm dR dR'; have {hlt} := hlt ne.
have eM : 2%:R^-1 *: (K - L + (K' - L')) = 2%:R^-1 *: (K + K') - 2%:R^-1 *: (L + L').
  by lin.
rewrite eM in dM *.
have fe : feas (2%:R^-1 *: (K + K'), 2%:R^-1 *: (L + L')).
  split=> //= t; rewrite stZ stD; apply: psdZ; [by mclra | exact: psdD].
have := h1 _ fe; have := h2 _ fe; rewrite /cobj /=.
have hc psi' w (D X : cpr n E) : convex_fun psi' -> (forall e, 0 <= w e) ->
    2%:R * edge_pen psi' w (2%:R^-1 *: (D + X)) <= edge_pen psi' w D + edge_pen psi' w X.
  move=> cv w0; have h0 : 0 <= 2%:R^-1 :> R by mclra.
  have h3 : 2%:R^-1 <= 1 :> R by mclra.
  have := edge_pen_convex D X cv w0 h0 h3.
  have -> : (1 - 2%:R^-1) *: D + 2%:R^-1 *: X = 2%:R^-1 *: (D + X) by lin.
  by move: (edge_pen _ _ _) (edge_pen _ _ _) (edge_pen _ _ _); clear => a b c h; mclra.
have cc (A B : stack n T) : ccop l r (2%:R^-1 *: (A + B)) = 2%:R^-1 *: (ccop l r A + ccop l r B).
  by rewrite scalerDr ccopL -[2%:R^-1 *: B]addr0 ccopL; apply: cpr_ext => e; rewrite !(cprD, cprZ) !ffunE addr0 scalerDr.
have := hc psi w1 (ccop l r K) (ccop l r K') cpsi w10.
have := hc phi w2 (ccop l r L) (ccop l r L') cphi w20; rewrite -!cc {hc cc}.
have -> : sum_tr (2%:R^-1 *: (L + L')) = 2%:R^-1 * (sum_tr L + sum_tr L').
  rewrite /sum_tr -big_split mulr_sumr; apply: eq_bigr => t _.
  by rewrite stZ stD mxtraceZ mxtraceD.
have hl : 2%:R * sum_l1 (2%:R^-1 *: (K + K')) <= sum_l1 K + sum_l1 K'.
  rewrite /sum_l1 -big_split mulr_sumr; apply: ler_sum => t _.
  rewrite stZ stD l1Z ger0_norm; last by mclra.
  by have := l1D (K t) (K' t); move: (l1 _) (l1 _) (l1 _); clear => a b c h; rewrite /=; mclra.
have := ler_wpmul2l a0 hl; clear -a0.
move: (sum_l1 _) (sum_l1 _) (sum_l1 _) (sum_tr _) (sum_tr _) (f _) (f _) (f _) => a b c d e f1 f2 f3.
move: (edge_pen _ _ _) (edge_pen _ _ _) (edge_pen _ _ _) (edge_pen _ _ _) (edge_pen _ _ _) (edge_pen _ _ _).
move=> x1 x2 x3 x4 x5 x6 g1 g2 g3 g4 g5 g6.
have : f1 < f1 by mclra.
by rewrite ltxx.
Qed.
End Uniq.

(** the same problem with the off-diagonal l1 norm *)
Definition codobj (KL : stack n T * stack n T) : R :=
  f (KL.1 - KL.2) + alpha * (\sum_t l1od (KL.1 t)) + tau * sum_tr KL.2
  + edge_pen psi w1 (ccop l r KL.1) + edge_pen phi w2 (ccop l r KL.2).

Lemma edge_pen_shift (K : stack n T) D : edge_pen psi w1 (ccop l r ([ffun t => K t + D] : stack n T)) =
  edge_pen psi w1 (ccop l r K).
Proof.
apply: eq_bigr => e _; congr (_ * psi _); rewrite !ffunE.
by move: (K _) (K _) => a b; lin.
Qed.

Lemma lat_not_od (K L c : stack n T) (i : 'I_n) (s : 'I_T) : 0 < alpha -> (forall t, 0 < K t i i) ->
  (forall v : stack n T, slices (@sym n) v -> exists C d : R, [/\ 0 < d, 0 <= C &
    forall t, 0 < t -> t <= d ->
    Dm (K - L + t *: v) /\ f (K - L + t *: v) <= f (K - L) + t * cdv n T c v + C * t ^+ 2]) ->
  minimiser feas obj (K, L) -> ~ minimiser feas codobj (K, L).
Proof.
move=> ap Kp fs [[/= pL dR] h1] [_ h2].
pose D : stack n T := [ffun=> delta_mx i i].
have sD : slices (@sym n) D by move=> t; rewrite ffunE; apply: delta_sym.
have sN : slices (@sym n) (- D) by move=> t; rewrite stN; apply: symN.
have [C1 [d1 [p1 q1 g1]]] := fs D sD; have [C2 [d2 [p2 q2 g2]]] := fs _ sN.
have [e [e0 he]] := @fin_pos_bound _ (fun t => K t i i) Kp.
have [m1 m2 m3] := np_minP d1 d2; have [m4 m5 m6] := np_minP (np_min d1 d2) e.
have ep : 0 < np_min (np_min d1 d2) e by case: m6 => -> //; case: m3 => ->.
have Tp : 0 < T%:R :> R by rewrite ltr0n; case: T s => [[]|].
suff : 0 <= - (alpha * T%:R) by rewrite oppr_ge0 leNgt mulr_gt0.
apply: (@le0_lim_delta _ (C1 + C2) _ ep) => x x0 xe.
have x1 : x <= d1 by apply: le_trans (le_trans m4 m1).
have x2 : x <= d2 by apply: le_trans (le_trans m4 m2).
have [r1 s1] := g1 x x0 x1; have [r2 s2] := g2 x x0 x2.
have e1 : K + x *: D - L = K - L + x *: D by rewrite addrAC.
have e2 : K - x *: D - L = K - L + x *: (- D) by rewrite addrAC scalerN.
have f1 : feas (K + x *: D, L) by split=> //=; rewrite e1.
have f2 : feas (K - x *: D, L) by split=> //=; rewrite e2.
have eD1 : K + x *: D = [ffun t => K t + x *: delta_mx i i].
  by apply/ffunP => t; rewrite stD stZ !ffunE.
have eD2 : K - x *: D = [ffun t => K t - x *: delta_mx i i].
  by apply/ffunP => t; rewrite stB stZ !ffunE.
have := h2 _ f1; have := h1 _ f2; rewrite /cobj /codobj; cbn [fst snd]; rewrite e1 e2.
rewrite eD1 eD2 !edge_pen_shift.
have -> : \sum_t l1od (([ffun t => K t + x *: delta_mx i i] : stack n T) t) = \sum_t l1od (K t).
  by apply: eq_bigr => t _; rewrite ffunE l1od_shift.
have -> : sum_l1 ([ffun t => K t - x *: delta_mx i i] : stack n T) = sum_l1 K - T%:R * x.
  have -> : T%:R * x = \sum_(t < T) x by rewrite sumr_const card_ord mulr_natl.
  rewrite /sum_l1 -sumrB; apply: eq_bigr => t _.
  rewrite ffunE -scaleNr l1_shift //; first exact: ltW.
  by rewrite subr_ge0; apply: le_trans (le_trans _ m5) (he t).
move: s1 s2; rewrite ipNr -(pmulr_rge0 _ x0).
move: (f _) (f _) (f _) (cdv _ _ _ _) (sum_l1 _) (\sum_t l1od _) (sum_tr _).
move: (edge_pen _ _ _) (edge_pen _ _ _) (T%:R); clear.
by move=> a b t u v w z y s q g1 g2 g3 g4; mclra.
Qed.
End Opt2.

(** * the log-det loss *)
Section LogDet.
Variables (n T : nat) (eigh : eigh_t n) (S : stack n T) (ns : 'I_T -> R) (rho : R).
Hypothesis He : eigh_ok eigh.
Hypothesis sS : slices (@sym n) S.
Hypothesis ns0 : forall t, 0 < ns t.
Hypothesis r0 : 0 < rho.
Definition ldf (K : stack n T) : R := \sum_t ns t * gl_f (S t) (K t).
Definition ldD (K : stack n T) : Prop := slices (@pd n) K.
Definition ldc (K : stack n T) : stack n T := [ffun t => ns t *: (S t - invmx (K t))].

Lemma ld_Rspec A : ldD (ltgl_R_update eigh S ns rho A) /\
  forall Y, ldD Y -> ldf (ltgl_R_update eigh S ns rho A) +
    rho * cdv n T (A - ltgl_R_update eigh S ns rho A) (Y - ltgl_R_update eigh S ns rho A) <= ldf Y.
Proof.
set K := ltgl_R_update _ _ _ _ _.
have sA t : sym ((- rho / ns t) *: symmetrise (A t) + S t).
  by apply: symD => //; apply: symZ; apply: symmetrise_sym.
have l0 t : 0 < ns t / rho by apply: divr_gt0.
have eK t : K t = prox_logdet eigh ((- rho / ns t) *: symmetrise (A t) + S t) (ns t / rho) by rewrite ffunE.
have pK : slices (@pd n) K by move=> t; rewrite eK; apply: (proj1 (prox_logdet_spec He (sA t) (l0 t))).
split=> // Y pY; rewrite /ldf cdvE mulr_sumr -big_split; apply: ler_sum => t _; cbv beta.
have [_] := prox_logdet_spec He (sA t) (l0 t); rewrite -eK => eI.
have := gl_f_subg (sS t) (pK t) (pY t); rewrite eI.
rewrite -(ler_pmul2l (ns0 t)) mulrDr !stB -!fdotZl.
have nn : ns t != 0 by apply: lt0r_neq0.
have rn : rho != 0 by apply: lt0r_neq0.
have -> : ns t *: (S t - ((- rho / ns t) *: symmetrise (A t) + S t + (ns t / rho)^-1 *: K t))
   = rho *: (symmetrise (A t) - K t).
  move: (S t) (symmetrise (A t)) (K t) => X B C.
  by lin.
rewrite !fdotZl !fdotBl.
have -> : fdot (symmetrise (A t)) (Y t - K t) = fdot (A t) (Y t - K t).
  by rewrite /symmetrise fdot_asym //; apply: symB => //; apply: pd_sym.
by [].
Qed.

Lemma ldc_sym K : ldD K -> slices (@sym n) (ldc K).
Proof. by move=> pK t; rewrite ffunE; apply: symZ; apply: symB => //; apply: sym_inv; apply: pd_sym. Qed.
Lemma ld_subg K Y : ldD K -> ldD Y -> ldf K + cdv n T (ldc K) (Y - K) <= ldf Y.
Proof.
move=> pK pY; rewrite /ldf cdvE -big_split; apply: ler_sum => t _; cbv beta.
by rewrite stB ffunE fdotZl [X in X <= _]/= -mulrDr ler_pmul2l //; apply: gl_f_subg.
Qed.
Lemma ld_smooth K (v : stack n T) : ldD K -> slices (@sym n) v -> exists C d : R, [/\ 0 < d, 0 <= C &
  forall t, 0 < t -> t <= d ->
    ldD (K + t *: v) /\ ldf (K + t *: v) <= ldf K + t * cdv n T (ldc K) v + C * t ^+ 2].
Proof.
move=> pK sv; have [C [d [h1 h2 h3]]] := stack_smooth sS ns0 pK sv; exists C, d; split=> // t p1 p2.
have [h4 h5] := h3 t p1 p2; split=> //; apply: le_trans h5 _.
suff -> : cdv n T (ldc K) v = \sum_t fdot (ns t *: (S t - invmx (K t))) (v t) by [].
by apply: eq_bigr => u _; rewrite /= ffunE.
Qed.
Lemma ld_mid X Y : ldD X -> ldD Y -> [/\ ldD (2%:R^-1 *: (X + Y)),
  2%:R * ldf (2%:R^-1 *: (X + Y)) <= ldf X + ldf Y &
  X <> Y -> 2%:R * ldf (2%:R^-1 *: (X + Y)) < ldf X + ldf Y].
Proof.
move=> pX pY.
have hle u : 2%:R * (ns u * gl_f (S u) ((2%:R^-1 *: (X + Y)) u)) <=
    ns u * gl_f (S u) (X u) + ns u * gl_f (S u) (Y u).
  have /= := @gl_f_mid _ (S u) _ _ (pX u) (pY u) false (fun h => False_ind _ (notF h)).
  by rewrite stZ stD -mulrDr (mulrCA 2%:R) ler_pmul2l.
split.
- by move=> t; rewrite stZ stD; apply: mid_pd.
- by rewrite /ldf mulr_sumr -big_split; apply: ler_sum => u _; apply: hle.
- move=> ne; have [t nt] : exists t, X t != Y t.
    by apply/existsP; rewrite -negb_forall; apply/negP => /forallP h; apply: ne; apply/ffunP => t; apply/eqP.
  rewrite /ldf mulr_sumr -big_split /= (bigD1 t) //= [X in _ < X](bigD1 t) //=.
  apply: ltr_le_add; last by apply: ler_sum => u _; apply: hle.
  have /= := @gl_f_mid _ (S t) _ _ (pX t) (pY t) true (fun _ => elimN eqP nt).
  by rewrite stZ stD -mulrDr (mulrCA 2%:R) ltr_pmul2l.
Qed.
End LogDet.

(** * the squared Frobenius loss *)
Section Frob.
Variables (n T : nat) (S : stack n T) (rho : R).
Hypothesis sS : slices (@sym n) S.
Hypothesis r0 : 0 < rho.
Definition frf (K : stack n T) : R := \sum_t fnorm2 (S t - K t).
Definition frD (K : stack n T) : Prop := slices (@sym n) K.
Definition frc (K : stack n T) : stack n T := [ffun t => 2%:R *: (K t - S t)].

Lemma fnorm2_expand (A B C : 'M[R]_n) :
  fnorm2 (A - C) = fnorm2 (A - B) + fdot (2%:R *: (B - A)) (C - B) + fnorm2 (C - B).
Proof.
have -> : A - C = (A - B) - (C - B) by lin.
have -> : B - A = - (A - B) by lin.
move: (A - B) (C - B) => X Y; rewrite !fnorm2E fdotZl fdotNl !fdotBl !fdotBr (fdotC Y X).
by move: (fdot X X) (fdot X Y) (fdot Y Y) => a b c; mcring.
Qed.
Lemma fr_expand K Y : frf Y = frf K + cdv n T (frc K) (Y - K) + \sum_t fnorm2 (Y t - K t).
Proof.
rewrite /frf cdvE -!big_split; apply: eq_bigr => t _ /=.
by rewrite stB ffunE; apply: fnorm2_expand.
Qed.
Lemma fr_sq_ge0 (K : stack n T) : 0 <= \sum_t fnorm2 (K t).
Proof. by apply: sumr_ge0 => t _; rewrite fnorm2E; apply: fdotAA_ge0. Qed.
Lemma fr_subg K Y : frf K + cdv n T (frc K) (Y - K) <= frf Y.
Proof.
rewrite (fr_expand K Y) ler_addl; have := fr_sq_ge0 (Y - K).
by under eq_bigr do rewrite stB.
Qed.
Lemma fr_Rspec A : frD A -> frD (ltmd_R_update S rho A) /\
  forall Y, frD Y -> frf (ltmd_R_update S rho A) +
    rho * cdv n T (A - ltmd_R_update S rho A) (Y - ltmd_R_update S rho A) <= frf Y.
Proof.
move=> sA; set K := ltmd_R_update _ _ _.
have eK t : K t = (2%:R + rho)^-1 *: (rho *: A t + 2%:R *: S t) by rewrite ffunE.
split; first by move=> t; rewrite eK; apply: symZ; apply: symD; apply: symZ.
move=> Y _; have := fr_subg K Y.
suff -> : frc K = rho *: (A - K) by rewrite ipZl.
apply/ffunP => t; rewrite stZ stB ffunE eK.
have nz : 2%:R + rho != 0 by apply: lt0r_neq0; apply: addr_gt0; rewrite ?ltr0n.
by move: (A t) (S t) => B C; lin.
Qed.
Lemma frc_sym K : frD K -> slices (@sym n) (frc K).
Proof. by move=> h t; rewrite ffunE; apply: symZ; apply: symB. Qed.
Lemma fr_smooth K (v : stack n T) : frD K -> slices (@sym n) v -> exists C d : R, [/\ 0 < d, 0 <= C &
  forall t, 0 < t -> t <= d ->
    frD (K + t *: v) /\ frf (K + t *: v) <= frf K + t * cdv n T (frc K) v + C * t ^+ 2].
Proof.
move=> sK sv; exists (\sum_t fnorm2 (v t)), 1; split; [exact: ltr01 | exact: fr_sq_ge0 |].
move=> t t0 _; split; first by move=> u; rewrite stD stZ; apply: symD => //; apply: symZ.
rewrite (fr_expand K (K + t *: v)) [K + _ - K]addrC addKr ipZr.
suff -> : \sum_u fnorm2 ((K + t *: v) u - K u) = (\sum_u fnorm2 (v u)) * t ^+ 2 by [].
rewrite mulr_suml; apply: eq_bigr => u _; rewrite stD stZ [K u + _ - _]addrC addKr.
by rewrite !fnorm2E fdotZl fdotZr; mcring.
Qed.
Lemma fr_mid X Y : frD X -> frD Y -> [/\ frD (2%:R^-1 *: (X + Y)),
  2%:R * frf (2%:R^-1 *: (X + Y)) <= frf X + frf Y &
  X <> Y -> 2%:R * frf (2%:R^-1 *: (X + Y)) < frf X + frf Y].
Proof.
move=> sX sY; set M := 2%:R^-1 *: (X + Y).
have e1 := fr_expand M X; have e2 := fr_expand M Y.
have e3 : cdv n T (frc M) (Y - M) = - cdv n T (frc M) (X - M).
  by rewrite -ipNr; congr (cdv _ _ _ _); rewrite /M; lin.
have e4 : X - M = 2%:R^-1 *: (X - Y) by rewrite /M; lin.
have p1 : 0 <= \sum_t fnorm2 (X t - M t).
  by have := fr_sq_ge0 (X - M); under eq_bigr do rewrite stB.
have p2 : 0 <= \sum_t fnorm2 (Y t - M t).
  by have := fr_sq_ge0 (Y - M); under eq_bigr do rewrite stB.
split.
- by move=> t; rewrite stZ stD; apply: symZ; apply: symD.
- by rewrite e1 e2 e3; move: p1 p2; move: (\sum_t _) (\sum_t _) (cdv _ _ _ _) (frf _) => a b c d p1 p2; clear -p1 p2; mclra.
- move=> ne; have p3 : 0 < \sum_t fnorm2 (X t - M t).
    rewrite lt_neqAle p1 andbT; apply/negP => /eqP/esym/psumr_eq0P h; apply: ne.
    have xm : X - M = 0.
      apply/ffunP => t; rewrite stB [RHS]ffunE; apply: fdotAA_eq0; rewrite -fnorm2E; apply: h => // u _.
      by rewrite fnorm2E; apply: fdotAA_ge0.
    move: xm; rewrite e4 => /eqP; rewrite scaler_eq0 subr_eq0 => /orP[|/eqP //].
    by rewrite invr_eq0 pnatr_eq0.
  by rewrite e1 e2 e3; move: p3 p2; move: (\sum_t _) (\sum_t _) (cdv _ _ _ _) (frf _) => a b c d p3 p2; clear -p3 p2; mclra.
Qed.
End Frob.
