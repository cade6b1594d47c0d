(** Kernel time graphical lasso: stationary points, uniqueness, first-neighbour kernels. *)
From Coq Require Import Reals Lra Psatz Epsilon.
From mathcomp Require Import all_ssreflect all_algebra.
From Verif Require Import RStruct RTac LinTac Spectral S_Mat RMx ADMM NP M_Prox S_Prox P_Eigh.
From Verif Require Import P_Prox P_Prox2 P_Rules M_Loop P_Loop M_GL S_GL P_GL P_GL2 M_LGL P_LGL.
From Verif Require Import M_TGL S_TGL P_TGL P_TGL2 P_Admm P_TGL3 HB P_TGL4 M_KTGL S_KTGL P_KTGL.
Import Order.TTheory GRing.Theory Num.Theory.

Set Implicit Arguments.
Unset Strict Implicit.
Unset Printing Implicit Defensive.
Local Open Scope ring_scope.

(** * the optimum of a log-det problem is unique *)
Section Mid.
Variables (n : nat) (S K Y : 'M[R]_n).
Hypotheses (pK : pd K) (pY : pd Y).
Let M := 2%:R^-1 *: (K + Y).
Lemma mid_pd : pd M.
Proof. by apply: pdZ; [mclra | apply: pdD_psd => //; apply: pd_psd]. Qed.
Lemma gl_f_mid (b : bool) : (b -> K <> Y) ->
  (if b then 2%:R * gl_f S M < gl_f S K + gl_f S Y else 2%:R * gl_f S M <= gl_f S K + gl_f S Y).
Proof.
move=> hb; have pM := mid_pd.
have d1 : K - M = 2%:R^-1 *: (K - Y) by rewrite /M; lin.
have d2 : Y - M = - (2%:R^-1 *: (K - Y)) by rewrite /M; lin.
have tE : \tr (S *m M) = 2%:R^-1 * (\tr (S *m K) + \tr (S *m Y)).
  by rewrite -scalemxAr linearZ /= mulmxDr linearD.
have tD : \tr (invmx M *m (K - M)) + \tr (invmx M *m (Y - M)) = 0.
  by rewrite d1 d2 mulmxN linearN /= subrr.
have h1 := logdet_tangent pM pK; have h2 := logdet_tangent pM pY.
case: b hb => hb; last first.
  rewrite /gl_f tE; move: h1 h2 tD; rewrite /logdet.
  move: (ln _) (ln _) (ln _) (\tr _) (\tr _) (\tr _) (\tr _).
  by clear; move=> a b c d e f g h1 h2 h3; mclra.
have kM : K <> M.
  move=> h; case: (hb isT); apply/eqP; rewrite -subr_eq0.
  have : 2%:R *: (K - M) = K - Y by rewrite d1; lin.
  by rewrite {1}h subrr scaler0 => <-.
have h3 := logdet_tangent_lt pM pK kM.
rewrite /gl_f tE; move: h2 h3 tD; rewrite /logdet.
move: (ln _) (ln _) (ln _) (\tr _) (\tr _) (\tr _) (\tr _).
by clear; move=> a b c d e f g h1 h2 h3; mclra.
Qed.
End Mid.

Section Uniq.
Variables (n T : nat) (S : stack n T) (ns : 'I_T -> R) (pen : stack n T -> R).
Hypothesis ns0 : forall t, 0 < ns t.
Hypothesis pc : forall K Y, 2%:R * pen (2%:R^-1 *: (K + Y)) <= pen K + pen Y.
Local Notation obj := (fun K : stack n T => \sum_t ns t * gl_f (S t) (K t) + pen K).
Lemma logdet_opt_unique (K Y : stack n T) :
  minimiser (fun K : stack n T => slices (@pd n) K) obj K ->
  minimiser (fun K : stack n T => slices (@pd n) K) obj Y -> K = Y.
Proof.
move=> [pK hK] [pY hY]; apply/ffunP => t; apply/eqP; apply/negP => /negP ne.
set M := 2%:R^-1 *: (K + Y); have pM : slices (@pd n) M.
  by move=> u; rewrite stZ stD; apply: mid_pd.
have := hK _ pM; have := hY _ pM; have := pc K Y; rewrite -/M; cbv beta.
suff : 2%:R * (\sum_t ns t * gl_f (S t) (M t)) <
   \sum_t ns t * gl_f (S t) (K t) + \sum_t ns t * gl_f (S t) (Y t).
  move: (\sum_t _) (\sum_t _) (\sum_t _) (pen _) (pen _) (pen _); clear.
  move=> a b c d e f h1 h2 h3 h4; have : a < a; [by mclra | by rewrite ltxx].
rewrite mulr_sumr -big_split /= (bigD1 t) //= [X in _ < X](bigD1 t) //=.
apply: ltr_le_add.
  have /= := @gl_f_mid _ (S t) _ _ (pK t) (pY t) true (fun _ => elimN eqP ne).
  by rewrite /M stZ stD -mulrDr (mulrCA 2%:R) ltr_pmul2l.
apply: ler_sum => u _; have /= := @gl_f_mid _ (S u) _ _ (pK u) (pY u) false (fun h => False_ind _ (notF h)).
by rewrite /M stZ stD -mulrDr (mulrCA 2%:R) ler_pmul2l.
Qed.
End Uniq.

(** * an optimum for the full l1 penalty is not one for the off-diagonal penalty, for any
    coupling that does not see a common shift *)
Section L1od.
Variables (n m : nat) (S : stack n m.+1) (ns : 'I_m.+1 -> R) (pen : ('I_m.+1 -> 'M[R]_n) -> R).
Hypothesis sS : slices (@sym n) S.
Hypothesis ns0 : forall t, 0 < ns t.
Hypothesis shift : forall (K : stack n m.+1) D, pen ([ffun t => K t + D] : stack n m.+1) = pen K.
Local Notation obj alpha p := (fun K : stack n m.+1 =>
  (\sum_t ns t * (\tr (S t *m K t) - ln (\det (K t)))) + alpha * (\sum_t p (K t)) + pen K).
Lemma l1_not_od_gen alpha (K : stack n m.+1) (i : 'I_n) : 0 < alpha ->
  minimiser (fun K : stack n m.+1 => slices (@pd n) K) (obj alpha (@l1 n n)) K ->
  ~ minimiser (fun K : stack n m.+1 => slices (@pd n) K) (obj alpha (@l1od n)) K.
Proof.
move=> a0 [pK h1] [_ h2].
pose Q (t : 'I_m.+1) (cd : R * R) := [/\ 0 < cd.2, 0 <= cd.1 &
  forall x, 0 < x -> x <= cd.2 -> [/\ pd (K t + x *: delta_mx i i), pd (K t - x *: delta_mx i i), x <= K t i i &
    gl_f (S t) (K t + x *: delta_mx i i) + gl_f (S t) (K t - x *: delta_mx i i)
      <= 2%:R * gl_f (S t) (K t) + cd.1 * x ^+ 2]].
have [cd hcd] : exists cd : 'I_m.+1 -> R * R, forall t, Q t (cd t).
  have ex t : exists cd, Q t cd.
    by have [C [d h]] := gl_f_smooth i (sS t) (pK t); exists (C, d).
  by exists (fun t => epsilon (inhabits (0, 0)) (Q t)) => t; apply: epsilon_spec.
have [e [e0 he]] := @fin_pos_bound _ (fun t => (cd t).2) (fun t => let: And3 h _ _ := hcd t in h).
pose C := \sum_t ns t * (cd t).1.
have C0 : 0 <= C by apply: sumr_ge0 => t _; apply: mulr_ge0; [exact: ltW | case: (hcd t)].
suff : 0 <= - (alpha * m.+1%:R) by rewrite oppr_ge0 leNgt mulr_gt0.
apply: (@le0_lim_delta _ C _ e0) => x x0 xe.
have hx t := let: And3 _ _ h := hcd t in h x x0 (le_trans xe (he t)).
pose Kp : stack n m.+1 := [ffun t => K t + x *: delta_mx i i].
pose Km : stack n m.+1 := [ffun t => K t - x *: delta_mx i i].
have pp : slices (@pd n) Kp by move=> t; rewrite ffunE; case: (hx t).
have pm : slices (@pd n) Km by move=> t; rewrite ffunE; case: (hx t).
have := h2 Kp pp; have := h1 Km pm; cbv beta.
have -> : pen Kp = pen K by rewrite shift.
have -> : pen Km = pen K by rewrite shift.
have -> : \sum_t l1od (Kp t) = \sum_t l1od (K t).
  by apply: eq_bigr => t _; rewrite ffunE l1od_shift.
have -> : \sum_t l1 (Km t) = \sum_t l1 (K t) - m.+1%:R * x.
  have -> : m.+1%:R * x = \sum_(t < m.+1) x by rewrite sumr_const card_ord mulr_natl.
  rewrite -sumrB; apply: eq_bigr => t _.
  rewrite ffunE -scaleNr l1_shift //; first exact: ltW (pd_diag_gt0 i (pK t)).
  by rewrite subr_ge0; case: (hx t).
have hs : \sum_t ns t * (\tr (S t *m Kp t) - ln (\det (Kp t))) +
  \sum_t ns t * (\tr (S t *m Km t) - ln (\det (Km t))) <=
  2%:R * (\sum_t ns t * (\tr (S t *m K t) - ln (\det (K t)))) + C * x ^+ 2.
  rewrite -big_split mulr_sumr /C mulr_suml -big_split; apply: ler_sum => t _ /=.
  have [_ _ _ h] := hx t; rewrite !ffunE -mulrDr.
  have := ler_wpmul2l (ltW (ns0 t)) h; rewrite /gl_f /logdet.
  move: (_ - ln _) (_ - ln _) (_ - ln _) (cd t).1 (ns t) => a b c d e1 h'.
  by clear -h'; mclra.
move: hs; rewrite -(pmulr_rge0 _ x0).
move: (\sum_t ns t * _) (\sum_t ns t * _) (\sum_t ns t * _) (\sum_t l1 _) (\sum_t l1od _).
move: (pen _) (m.+1%:R) => q T a b c d f h3 h4 h5.
clear -h3 h4 h5; mclra.
Qed.
End L1od.

Section KTGL2.
Variables (n T : nat) (eigh : eigh_t n) (psi : 'M[R]_n -> R) (prox : 'M[R]_n -> R -> 'M[R]_n).
Hypothesis He : eigh_ok eigh.
Variables (S : stack n T) (ns : 'I_T -> R).
Hypothesis sS : slices (@sym n) S.
Hypothesis ns0 : forall t, 0 < ns t.
Hypothesis cv : convex_fun psi.
Implicit Types (K : stack n T) (Z U W : ktriple n T) (p : ktgl_params T).
Local Notation kf := (fun K : stack n T => \sum_t ns t * gl_f (S t) (K t)).
Local Notation kD := (fun K : stack n T => slices (@pd n) K).
Local Notation kkkt p rho := (kkt (@kdv n T) (@kdw n T) (@kcopies n T) (@kBt n T) kD kf
  (ktgl_g psi (ktgl_alpha p) (kernel_of p)) rho).
Local Notation kopt p := (minimiser kD
    (fun K => kernel_obj (@l1 n n) psi ns S (ktgl_alpha p) (kernel_of p) K)).

Lemma kernel_objE alpha (w : 'M[R]_T) K :
  kernel_obj (@l1 n n) psi ns S alpha w K = kf K + ktgl_g psi alpha w (kcopies K).
Proof.
rewrite /kernel_obj /ktgl_g -(sum_tpair (fun s t => w s t * psi (K t - K s))) addrA; congr (_ + _ + _).
by apply: eq_bigr => e _; rewrite !ffunE.
Qed.

Lemma ktgl_fixed_opt p rho Z U K : prox_of psi prox ->
  0 <= ktgl_alpha p -> kern_ge0 (kernel_of p) -> 0 < rho ->
  slices (@sym n) U.1.1 -> ktgl_updates eigh prox S ns p rho Z U = (K, Z, U) ->
  Z = kcopies K /\ kopt p K.
Proof.
move=> hp a0 b0 r0 sU E.
have st := ktgl_step He sS ns0 cv hp a0 b0 r0 sU E.
have [e k] := step_fixed st; split=> //.
have [h1 h2] := kkt_opt (@kcopiesB n T) (@kcopies_adj n T) k.
by split=> // Y pY; rewrite !kernel_objE; apply: h2.
Qed.

Lemma onb_kdw : onb (@kdw n T).
Proof. by apply: onb_pair; [apply: onb_pair|]; apply: onb_ffun; apply: onb_mat. Qed.

Lemma ktgl_g_convex alpha (w : 'M[R]_T) Z W (t : R) : 0 <= alpha -> kern_ge0 w -> 0 <= t -> t <= 1 ->
  ktgl_g psi alpha w ((1 - t) *: Z + t *: W) <= (1 - t) * ktgl_g psi alpha w Z + t * ktgl_g psi alpha w W.
Proof.
move=> a0 b0 t0 t1; rewrite /ktgl_g.
have h1 : \sum_i l1 (((1 - t) *: Z + t *: W).1.1 i) <= (1 - t) * (\sum_i l1 (Z.1.1 i)) + t * \sum_i l1 (W.1.1 i).
  rewrite !mulr_sumr -big_split; apply: ler_sum => i _; cbv beta.
  by rewrite ktriD stD !ktriZ !stZ; apply: l1_convex.
have h2 : \sum_e w (t_l e) (t_r e) * psi (((1 - t) *: Z + t *: W).2 e - ((1 - t) *: Z + t *: W).1.2 e) <=
   (1 - t) * (\sum_e w (t_l e) (t_r e) * psi (Z.2 e - Z.1.2 e))
   + t * \sum_e w (t_l e) (t_r e) * psi (W.2 e - W.1.2 e).
  rewrite !mulr_sumr -big_split; apply: ler_sum => e _; cbv beta.
  have w0 : 0 <= w (t_l e) (t_r e) by apply: b0; exact: (valP e).
  rewrite [X in _ <= X]/= (mulrCA (1 - t)) (mulrCA t (w _ _)) -mulrDr; apply: ler_wpmul2l => //.
  apply: le_trans (cv _ _ t0 t1); rewrite !ktriD !edD !ktriZ !edZ.
  suff -> : (1 - t) *: Z.2 e + t *: W.2 e - ((1 - t) *: Z.1.2 e + t *: W.1.2 e)
     = (1 - t) *: (Z.2 e - Z.1.2 e) + t *: (W.2 e - W.1.2 e) by [].
  by move: (Z.2 e) (W.2 e) (Z.1.2 e) (W.1.2 e) => a b c d; lin.
have := ler_add (ler_wpmul2l a0 h1) h2.
move: (\sum_i _) (\sum_i _) (\sum_i _) (\sum_e _) (\sum_e _) (\sum_e _).
by clear; move=> a b c d e f h; mclra.
Qed.

Lemma ktgl_opt_kkt p rho K : 0 <= ktgl_alpha p -> kern_ge0 (kernel_of p) -> 0 < rho -> kopt p K ->
  exists U, kkkt p rho K U.
Proof.
move=> a0 b0 r0 [pK hm]; have [I [es ho]] := onb_kdw.
pose c : stack n T := [ffun t => ns t *: (S t - invmx (K t))].
apply: (@opt_kkt _ _ (@kdv n T) (@kdw n T) (@kcopies n T) (@kBt n T) (@kcopiesL n T) (@kcopies_adj n T) _ _ ho
  kD kf _ _ (slices (@sym n)) K c) => //.
- by move=> X Y t; apply: ktgl_g_convex.
- by move=> t; rewrite ffunE; apply: sym0.
- by move=> a u v su sv t; rewrite stD stZ; apply: symD => //; apply: symZ.
- by move=> Y pY t; rewrite stB; apply: symB; apply: pd_sym.
- move=> Y pY; rewrite kdvE -big_split; apply: ler_sum => t _; cbv beta.
  rewrite /= ffunE stB fdotZl -mulrDr ler_pmul2l //; exact: gl_f_subg.
- move=> v sv; have [C [d [h1 h2 h3]]] := stack_smooth sS ns0 pK sv.
  exists C, d; split=> // x x0 xd; have [h4 h5] := h3 x x0 xd; split=> //.
  apply: le_trans h5 _; rewrite kdvE.
  have -> : \sum_t fdot (c t) (v t) = \sum_t fdot (ns t *: (S t - invmx (K t))) (v t).
    by apply: eq_bigr => t _; rewrite ffunE.
  by [].
- by split=> // Y pY; rewrite -!kernel_objE; apply: hm.
Qed.

Lemma ktgl_kkt_sym p rho K U : 0 <= ktgl_alpha p -> 0 < rho -> kkkt p rho K U ->
  kkkt p rho K ([ffun t => symmetrise (U.1.1 t)], U.1.2, U.2).
Proof.
move=> a0 r0 [[pK hf] hg]; set U' : ktriple n T := (_, _, _).
have sK t : sym (K t) by apply: pd_sym.
split.
  split=> // Y pY; have := hf Y pY; congr (_ + _ <= _).
  rewrite !ipZl; congr (_ * _); rewrite ipC (ipC _ (kBt U')) -!kcopies_adj !kdwE; congr (_ + _ + _).
  apply: eq_bigr => t _; rewrite [U'.1.1 t]ffunE [(kcopies _).1.1 t]stB fdotC [RHS]fdotC /symmetrise fdot_asym //.
  by apply: symB; apply: pd_sym.
move=> W.
have g0 (X : stack n T) : ktgl_alpha p * (\sum_t l1 (K t)) + rho * (\sum_t fdot (U.1.1 t) (X t - K t))
   <= ktgl_alpha p * (\sum_t l1 (X t)).
  have := hg (X, lefts K, rights K); rewrite ipZl kdwE /ktgl_g /=.
  rewrite [\sum_e fdot (U.1.2 e) _]big1 => [|t _]; last by rewrite edB subrr fdot0r.
  rewrite [\sum_e fdot (U.2 e) _]big1 => [|t _]; last by rewrite edB subrr fdot0r.
  have -> : \sum_t fdot (U.1.1 t) ((X - K) t) = \sum_t fdot (U.1.1 t) (X t - K t).
    by apply: eq_bigr => t _; rewrite stB.
  by move: (\sum_t _) (\sum_t _) (\sum_t _) (\sum_t _) => a b c d; clear; move=> h; mclra.
have g1 : ktgl_alpha p * (\sum_t l1 (K t)) + rho * (\sum_t fdot (symmetrise (U.1.1 t)) (W.1.1 t - K t))
   <= ktgl_alpha p * (\sum_t l1 (W.1.1 t)).
  have := g0 W.1.1; have := g0 [ffun t => (W.1.1 t)^T].
  have -> : \sum_t l1 ([ffun t => (W.1.1 t)^T] t) = \sum_t l1 (W.1.1 t).
    by apply: eq_bigr => t _; rewrite ffunE l1T.
  have -> : \sum_t fdot (symmetrise (U.1.1 t)) (W.1.1 t - K t) =
    2%:R^-1 * (\sum_t fdot (U.1.1 t) (W.1.1 t - K t) + \sum_t fdot (U.1.1 t) ([ffun t => (W.1.1 t)^T] t - K t)).
    rewrite -big_split mulr_sumr; apply: eq_bigr => t _; rewrite ffunE /symmetrise /=.
    rewrite fdotZl fdotDl; congr (_ * (_ + _)).
    by rewrite -[LHS]fdot_tr trmxK linearB /= sK.
  by move: (\sum_t _) (\sum_t _) (\sum_t _) (\sum_t _) => a b c d; clear; move=> h1 h2; mclra.
have g2 := hg (K, W.1.2, W.2); rewrite ipZl kdwE /ktgl_g /= in g2.
rewrite [\sum_t fdot (U.1.1 t) _]big1 in g2; last by move=> t _; rewrite stB subrr fdot0r.
rewrite ipZl kdwE /ktgl_g /=.
have -> : \sum_t fdot ([ffun t => symmetrise (U.1.1 t)] t) ((W.1.1 - K) t) =
  \sum_t fdot (symmetrise (U.1.1 t)) (W.1.1 t - K t).
  by apply: eq_bigr => t _; rewrite stB ffunE.
move: g1 g2; move: (\sum_t _) (\sum_t _) (\sum_t _) (\sum_t _) (\sum_t _) (\sum_t _) (\sum_t _).
by clear; move=> a b c d e f g h1 h2; mclra.
Qed.

Lemma ktgl_opt_fixed p rho K : prox_of psi prox -> 0 <= ktgl_alpha p -> kern_ge0 (kernel_of p) ->
  0 < rho -> kopt p K ->
  exists U, slices (@sym n) U.1.1 /\
   ktgl_updates eigh prox S ns p rho (kcopies K) U = (K, kcopies K, U).
Proof.
move=> hp a0 b0 r0 mK; have [U0 k0] := ktgl_opt_kkt a0 b0 r0 mK.
have k := ktgl_kkt_sym a0 r0 k0; set U : ktriple n T := (_, _, _) in k.
have sU : slices (@sym n) U.1.1 by move=> t; rewrite ffunE; apply: symmetrise_sym.
exists U; split=> //; case E: (ktgl_updates _ _ _ _ _ _ _ _) => [[K' Z'] U'].
have st := ktgl_step He sS ns0 cv hp a0 b0 r0 sU E.
have [-> -> [eK _ _]] := kkt_step_fixed (@kcopiesB n T) (@kcopies_adj n T) r0 k st.
by rewrite eK.
Qed.

(** the optimum is unique *)
Lemma kernel_opt_unique alpha (w : 'M[R]_T) K Y : 0 <= alpha -> kern_ge0 w ->
  minimiser kD (fun K => kernel_obj (@l1 n n) psi ns S alpha w K) K ->
  minimiser kD (fun K => kernel_obj (@l1 n n) psi ns S alpha w K) Y -> K = Y.
Proof.
move=> a0 b0 mK mY.
apply: (@logdet_opt_unique _ _ S ns (fun K => ktgl_g psi alpha w (kcopies K)) ns0).
- move=> X Z; have h0 : 0 <= 2%:R^-1 :> R by mclra.
  have h1 : 2%:R^-1 <= 1 :> R by mclra.
  have := ktgl_g_convex (kcopies X) (kcopies Z) a0 b0 h0 h1.
  have -> : (1 - 2%:R^-1) *: kcopies X + 2%:R^-1 *: kcopies Z = kcopies (2%:R^-1 *: (X + Z)).
    rewrite scalerDr kcopiesL -[2%:R^-1 *: Z]addr0 kcopiesL.
    have -> : kcopies 0 = 0 :> ktriple n T by congr (_, _, _); apply/ffunP => t; rewrite !ffunE.
    by rewrite addr0; congr (_ *: _ + _); mcfield.
  by move: (ktgl_g _ _ _ _) (ktgl_g _ _ _ _) (ktgl_g _ _ _ _); clear => a b c h; mclra.
- by case: mK => pK h; split=> // Z pZ; rewrite -!kernel_objE; apply: h.
- by case: mY => pK h; split=> // Z pZ; rewrite -!kernel_objE; apply: h.
Qed.
End KTGL2.
