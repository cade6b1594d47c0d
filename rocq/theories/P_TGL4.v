(** Time graphical lasso: optima have multipliers, are stationary, and the loop terminates. *)
From Coq Require Import Reals Lra Psatz Epsilon.
From mathcomp Require Import all_ssreflect all_algebra.
From Verif Require Import RStruct RTac LinTac Spectral S_Mat RMx ADMM NP M_Prox S_Prox P_Eigh.
From Verif Require Import P_Prox P_Prox2 P_Rules M_Loop P_Loop M_GL S_GL P_GL P_GL2 M_LGL P_LGL.
From Verif Require Import M_TGL S_TGL P_TGL P_TGL2 P_Admm P_TGL3 HB.
Import Order.TTheory GRing.Theory Num.Theory.

Set Implicit Arguments.
Unset Strict Implicit.
Unset Printing Implicit Defensive.
Local Open Scope ring_scope.

Section Smooth.
Variables (n T : nat) (S : stack n T) (ns : 'I_T -> R).
Hypothesis sS : slices (@sym n) S.
Hypothesis ns0 : forall t, 0 < ns t.

Lemma stack_smooth (K v : stack n T) : slices (@pd n) K -> slices (@sym n) v ->
  exists C d, [/\ 0 < d, 0 <= C & forall x, 0 < x -> x <= d ->
    slices (@pd n) (K + x *: v) /\
    \sum_t ns t * gl_f (S t) ((K + x *: v) t) <=
    (\sum_t ns t * gl_f (S t) (K t)) + x * (\sum_t fdot (ns t *: (S t - invmx (K t))) (v t)) + C * x ^+ 2].
Proof.
move=> pK sv.
pose Q (t : 'I_T) (cd : R * R) := [/\ 0 < cd.2, 0 <= cd.1 &
  forall x, 0 < x -> x <= cd.2 -> pd (K t + x *: v t) /\
  logdet (K t) + x * \tr (invmx (K t) *m v t) - cd.1 * x ^+ 2 <= logdet (K t + x *: v t)].
have [cd hcd] : exists cd : 'I_T -> R * R, forall t, Q t (cd t).
  have ex t : exists cd, Q t cd.
    by have [C [d h]] := logdet_expand (pK t) (sv t); exists (C, d).
  by exists (fun t => epsilon (inhabits (0, 0)) (Q t)) => t; apply: epsilon_spec.
have [e [e0 he]] := @fin_pos_bound _ (fun t => (cd t).2) (fun t => let: And3 h _ _ := hcd t in h).
exists (\sum_t ns t * (cd t).1), e; split=> //.
  by apply: sumr_ge0 => t _; apply: mulr_ge0; [exact: ltW | case: (hcd t)].
move=> x x0 xe.
have hx t := let: And3 _ _ h := hcd t in h x x0 (le_trans xe (he t)).
split; first by move=> t; rewrite stD stZ; case: (hx t).
rewrite mulr_sumr mulr_suml -!big_split; apply: ler_sum => t _; cbv beta.
have [_ h] := hx t; rewrite stD stZ /gl_f !tr_fdot // (fdotDr (K t) _ (S t)) fdotZr fdotZl fdotBl.
rewrite tr_fdot in h; last by apply: sym_inv; apply: pd_sym.
have := ler_wpmul2l (ltW (ns0 t)) h.
move: (logdet _) (logdet _) (fdot _ _) (fdot _ _) (fdot _ _) (ns t) (cd t).1.
by clear; move=> a b c d e f g h; rewrite /=; mclra.
Qed.
End Smooth.

Lemma l1_convex n : convex_fun (@l1 n n).
Proof.
move=> x y t t0 t1; apply: le_trans (l1D _ _) _; rewrite !l1Z !ger0_norm //.
by rewrite subr_ge0.
Qed.

Local Opaque tgl_updates.
Section TGL4.
Variables (n m : nat) (eigh : eigh_t n) (psi : 'M[R]_n -> R) (prox : 'M[R]_n -> R -> 'M[R]_n).
Hypothesis He : eigh_ok eigh.
Variables (S : stack n m.+1) (ns : 'I_m.+1 -> R).
Hypothesis sS : slices (@sym n) S.
Hypothesis ns0 : forall t, 0 < ns t.
Hypothesis cv : convex_fun psi.
Implicit Types (K : stack n m.+1) (Z U W : triple n m) (p : tgl_params).
Local Notation px := (PsiPlain psi prox).
Local Notation tkkt p rho := (kkt (@dv n m) (@dw n m) (@copies n m) (@Bt n m) (@tgl_D n m) (tgl_f S ns)
  (tgl_g psi (tgl_alpha p) (tgl_beta p)) rho).
Local Notation topt p := (minimiser (fun K : stack n m.+1 => slices (@pd n) K)
    (fun K => time_obj (@l1 n n) psi ns S (tgl_alpha p) (tgl_beta p) K)).

Lemma onb_dw : onb (@dw n m).
Proof. by apply: onb_pair; [apply: onb_pair|]; apply: onb_ffun; apply: onb_mat. Qed.

Lemma tgl_g_convex alpha beta Z W (t : R) : 0 <= alpha -> 0 <= beta -> 0 <= t -> t <= 1 ->
  tgl_g psi alpha beta ((1 - t) *: Z + t *: W) <= (1 - t) * tgl_g psi alpha beta Z + t * tgl_g psi alpha beta W.
Proof.
move=> a0 b0 t0 t1; rewrite /tgl_g.
have h1 : \sum_i l1 (((1 - t) *: Z + t *: W).1.1 i) <= (1 - t) * (\sum_i l1 (Z.1.1 i)) + t * \sum_i l1 (W.1.1 i).
  rewrite !mulr_sumr -big_split; apply: ler_sum => i _; cbv beta.
  by rewrite triD stD !triZ !stZ; apply: l1_convex.
have h2 : \sum_i psi (((1 - t) *: Z + t *: W).2 i - ((1 - t) *: Z + t *: W).1.2 i) <=
   (1 - t) * (\sum_i psi (Z.2 i - Z.1.2 i)) + t * \sum_i psi (W.2 i - W.1.2 i).
  rewrite !mulr_sumr -big_split; apply: ler_sum => i _; cbv beta.
  apply: le_trans (cv _ _ t0 t1); rewrite !triD !stD !triZ !stZ.
  suff -> : (1 - t) *: Z.2 i + t *: W.2 i - ((1 - t) *: Z.1.2 i + t *: W.1.2 i)
     = (1 - t) *: (Z.2 i - Z.1.2 i) + t *: (W.2 i - W.1.2 i) by [].
  by move: (Z.2 i) (W.2 i) (Z.1.2 i) (W.1.2 i) => a b c d; lin.
have := ler_add (ler_wpmul2l a0 h1) (ler_wpmul2l b0 h2).
move: (\sum_i _) (\sum_i _) (\sum_i _) (\sum_i _) (\sum_i _) (\sum_i _).
by clear; move=> a b c d e f h; mclra.
Qed.

Lemma copiesL a K K' : copies (a *: K + K') = a *: copies K + copies K'.
Proof. by rewrite /copies; congr (_, _, _); apply/ffunP => t; rewrite !ffunE. Qed.

Lemma tgl_opt_kkt p rho K : 0 <= tgl_alpha p -> 0 <= tgl_beta p -> 0 < rho -> topt p K ->
  exists U, tkkt p rho K U.
Proof.
move=> a0 b0 r0 [pK hm]; have [I [es ho]] := onb_dw.
pose c : stack n m.+1 := [ffun t => ns t *: (S t - invmx (K t))].
apply: (@opt_kkt _ _ (@dv n m) (@dw n m) (@copies n m) (@Bt n m) copiesL (@copies_adj n m) _ _ ho
  (@tgl_D n m) (tgl_f S ns) _ _ (slices (@sym n)) K c) => //.
- by move=> X Y t; apply: tgl_g_convex.
- by move=> t; rewrite ffunE; apply: sym0.
- by move=> a u v su sv t; rewrite stD stZ; apply: symD => //; apply: symZ.
- by move=> Y pY t; rewrite stB; apply: symB; apply: pd_sym.
- move=> Y pY; rewrite dvE /tgl_f -big_split; apply: ler_sum => t _; cbv beta.
  rewrite /= ffunE stB fdotZl -mulrDr ler_pmul2l //; exact: gl_f_subg.
- move=> v sv; have [C [d [h1 h2 h3]]] := stack_smooth sS ns0 pK sv.
  exists C, d; split=> // x x0 xd; have [h4 h5] := h3 x x0 xd; split=> //.
  apply: le_trans h5 _; rewrite dvE.
  have -> : \sum_t fdot (c t) (v t) = \sum_t fdot (ns t *: (S t - invmx (K t))) (v t).
    by apply: eq_bigr => t _; rewrite ffunE.
  by [].
- by split=> // Y pY; rewrite -!time_objE; apply: hm.
Qed.

(** the multiplier of Z_0 can be taken symmetric *)
Lemma tgl_kkt_sym p rho K U : 0 <= tgl_alpha p -> 0 < rho -> tkkt p rho K U ->
  tkkt p rho K ([ffun t => symmetrise (U.1.1 t)], U.1.2, U.2).
Proof.
move=> a0 r0 [[pK hf] hg]; set U' : triple n m := (_, _, _).
have sK t : sym (K t) by apply: pd_sym.
split.
  split=> // Y pY; have := hf Y pY; congr (_ + _ <= _).
  rewrite !ipZl; congr (_ * _); rewrite ipC (ipC _ (Bt U')) -!copies_adj !dwE; congr (_ + _ + _).
  apply: eq_bigr => t _; rewrite [U'.1.1 t]ffunE [(copies _).1.1 t]stB fdotC [RHS]fdotC /symmetrise fdot_asym //.
  by apply: symB; apply: pd_sym.
move=> W.
have g0 (X : stack n m.+1) : tgl_alpha p * (\sum_t l1 (K t)) + rho * (\sum_t fdot (U.1.1 t) (X t - K t))
   <= tgl_alpha p * (\sum_t l1 (X t)).
  have := hg (X, but_last K, but_first K); rewrite ipZl dwE /tgl_g /=.
  rewrite [\sum_t fdot (U.1.2 t) _]big1 => [|t _]; last by rewrite stB subrr fdot0r.
  rewrite [\sum_t fdot (U.2 t) _]big1 => [|t _]; last by rewrite stB subrr fdot0r.
  have -> : \sum_t fdot (U.1.1 t) ((X - K) t) = \sum_t fdot (U.1.1 t) (X t - K t).
    by apply: eq_bigr => t _; rewrite stB.
  by move: (\sum_t _) (\sum_t _) (\sum_t _) (\sum_t _) => a b c d; clear; move=> h; mclra.
have g1 : tgl_alpha p * (\sum_t l1 (K t)) + rho * (\sum_t fdot (symmetrise (U.1.1 t)) (W.1.1 t - K t))
   <= tgl_alpha p * (\sum_t l1 (W.1.1 t)).
  have := g0 W.1.1; have := g0 [ffun t => (W.1.1 t)^T].
  have -> : \sum_t l1 ([ffun t => (W.1.1 t)^T] t) = \sum_t l1 (W.1.1 t).
    by apply: eq_bigr => t _; rewrite ffunE l1T.
  have -> : \sum_t fdot (symmetrise (U.1.1 t)) (W.1.1 t - K t) =
    2%:R^-1 * (\sum_t fdot (U.1.1 t) (W.1.1 t - K t) + \sum_t fdot (U.1.1 t) ([ffun t => (W.1.1 t)^T] t - K t)).
    rewrite -big_split mulr_sumr; apply: eq_bigr => t _; rewrite ffunE /symmetrise /=.
    rewrite fdotZl fdotDl; congr (_ * (_ + _)).
    by rewrite -[LHS]fdot_tr trmxK linearB /= sK.
  by move: (\sum_t _) (\sum_t _) (\sum_t _) (\sum_t _) => a b c d; clear; move=> h1 h2; mclra.
have g2 := hg (K, W.1.2, W.2); rewrite ipZl dwE /tgl_g /= in g2.
rewrite [\sum_t fdot (U.1.1 t) _]big1 in g2; last by move=> t _; rewrite stB subrr fdot0r.
rewrite ipZl dwE /tgl_g /=.
have -> : \sum_t fdot ([ffun t => symmetrise (U.1.1 t)] t) ((W.1.1 - K) t) =
  \sum_t fdot (symmetrise (U.1.1 t)) (W.1.1 t - K t).
  by apply: eq_bigr => t _; rewrite stB ffunE.
move: g1 g2; move: (\sum_t _) (\sum_t _) (\sum_t _) (\sum_t _) (\sum_t _) (\sum_t _) (\sum_t _).
by clear; move=> a b c d e f g h1 h2; mclra.
Qed.



Lemma kkt_step_fixed (V W : lmodType R) (dv : innerp V) (dw : innerp W) (B : V -> W) (Bt : W -> V) D f g rho :
  (forall x y, B (x - y) = B x - B y) -> (forall x w, dw (B x) w = dv x (Bt w)) -> 0 < rho ->
  forall xs us x z u, kkt dv dw B Bt D f g rho xs us -> admm_step dv dw B Bt D f g rho (B xs) us x z u ->
  [/\ z = B xs, u = us & B x = B xs].
Proof.
move=> BD Badj r0 xs us x z u k st; have := step_mono BD Badj r0 st k.
rewrite /lyap !subrr !ip0l addr0; have h := ip_ge0 dw ((z - B xs) + (u - us)); rewrite nrm2D in h.
move=> h2; have h3 := ip_ge0 dw (u - us); have h4 := ip_ge0 dw (z - B xs).
have [e1 e2] : dw (u - us) (u - us) = 0 /\ dw (z - B xs) (z - B xs) = 0.
  move: h h2 h3 h4; move: (dw _ _) (dw _ _) (dw _ _); clear => a b c h1 h2 h3 h4.
  by split; apply/eqP; rewrite eq_le; apply/andP; split=> //; mclra.
have z1 := ip_eq0 e2; have u1 := ip_eq0 e1.
have ez : z = B xs by apply/eqP; rewrite -subr_eq0 z1.
have eu : u = us by apply/eqP; rewrite -subr_eq0 u1.
split=> //; case: st => _ _; rewrite ez eu => h'.
have -> : B x = (us + B x - B xs) - us + B xs by lin.
by rewrite -h'; lin.
Qed.

Lemma tgl_opt_fixed p rho K : prox_of psi prox -> 0 <= tgl_alpha p -> 0 <= tgl_beta p -> 0 < rho -> topt p K ->
  exists U, slices (@sym n) U.1.1 /\
   tgl_updates eigh px S ns p rho (copies K) U = (K, copies K, U).
Proof.
move=> hp a0 b0 r0 mK; have [U0 k0] := tgl_opt_kkt a0 b0 r0 mK.
have k := tgl_kkt_sym a0 r0 k0; set U : triple n m := (_, _, _) in k.
have sU : slices (@sym n) U.1.1 by move=> t; rewrite ffunE; apply: symmetrise_sym.
exists U; split=> //; case E: (tgl_updates _ _ _ _ _ _ _ _) => [[K' Z'] U'].
have st := tgl_step He sS ns0 cv hp a0 b0 r0 sU E.
have [-> -> [eK _]] := kkt_step_fixed (@copiesB n m) (@copies_adj n m) r0 k st.
by rewrite eK.
Qed.

(** * termination *)
Section Term.
Variable p : tgl_params.
Hypothesis hp : prox_of psi prox.
Hypothesis ps : forall a lam, sym a -> sym (prox a lam).
Hypothesis ti1 : tau_inc (tgl_rho_options p) = 1.
Hypothesis td1 : tau_dec (tgl_rho_options p) = 1.
Hypothesis a0 : 0 <= tgl_alpha p.
Hypothesis b0 : 0 <= tgl_beta p.
Local Notation body := (tgl_body eigh px S ns p).
Local Notation upd s := (tgl_updates eigh px S ns p (tgl_rho s) (tgl_Z s) (tgl_U s)).
Local Notation e := (sqrt ((m.+1 * (n * n) + 2 * (m * (n * n)))%:R) * tgl_tol p).

Lemma trho_const r a b : update_rho (tgl_rho_options p) r a b = r.
Proof. by rewrite /update_rho ti1 td1 mul1r divr1; case: ifP => //; case: ifP. Qed.

Lemma tgl_body_const j s : 0 < tgl_rho s -> let r := upd s in
  out_state (body j s).1 = TGLState r.1.2 r.2 r.1.2 (tgl_rho s) r.1.1.
Proof.
move=> rs; rewrite /= /tgl_body; case: (tgl_updates _ _ _ _ _ _ _ _) => [[K Z] U] /=.
case: (stop_at_test _ _ _) => //=.
by case: (stop_test _) => //=; rewrite trho_const divff ?scale1r // lt0r_neq0.
Qed.

Lemma sqrt_le x y : 0 <= y -> x <= y ^+ 2 -> sqrt x <= y.
Proof.
move=> y0 h; have [x0|x0] := lerP 0 x.
  rewrite -(@ler_pexpn2r _ 2) ?nnegrE //; last by apply/RleP; apply: sqrt_pos.
  by rewrite RsqrE sqrt_sqrt //; apply/RleP.
by rewrite sqrt_neg_0 //; apply/RleP; apply: ltW.
Qed.

Lemma tgl_break1 j s : 0 < tgl_rho s -> tgl_Zold s = tgl_Z s -> slices (@sym n) (tgl_U s).1.1 ->
  0 <= tgl_rtol p -> 0 <= e ->
  let r := upd s in
  dw n m (r.2 - tgl_U s) (r.2 - tgl_U s) <= e ^+ 2 ->
  tgl_rho s ^+ 2 * dw n m (r.1.2 - tgl_Z s) (r.1.2 - tgl_Z s) <= e ^+ 2 ->
  is_break (body j s).1.
Proof.
move=> rs old sU rt0 e0 /=; rewrite tgl_body_break /tgl_check.
case E: (tgl_updates _ _ _ _ _ _ _ _) => [[K Z] U] /= h1 h2.
have [_ _ eU] := tgl_step He sS ns0 cv hp a0 b0 rs sU E.
apply/orP; right; rewrite /stop_test /= old; apply/andP; split.
- apply: le_trans (_ : e <= _); last first.
    rewrite ler_addl; apply: mulr_ge0 => //.
    by apply: le_trans (proj1 (np_max_ge _ _)); apply/RleP; apply: sqrt_pos.
  have e1 : copies K - Z = U - tgl_U s by rewrite eU; move: (copies K) (tgl_U s) => a b; clear; lin.
  by apply: sqrt_le => //; rewrite sqnormE e1.
- apply: le_trans (_ : e <= _); last first.
    rewrite ler_addl; apply: mulr_ge0; last by apply/RleP; apply: sqrt_pos.
    by apply: mulr_ge0 => //; apply: ltW.
  rewrite mulrC -ler_pdivl_mulr //; apply: sqrt_le; first by apply: divr_ge0 => //; apply: ltW.
  by rewrite sqnormE expr_div_n ler_pdivl_mulr ?exprn_gt0 // mulrC.
Qed.

Section Run.
Variable st : tgl_state n m.
Hypothesis rst : 0 < tgl_rho st.
Hypothesis sst : tri_sym (tgl_U st).
Local Notation it := (iter_state body 0 st).

Lemma t_rho k : tgl_rho (it k) = tgl_rho st.
Proof. by elim: k => //= k IH; rewrite tgl_body_const IH. Qed.
Lemma t_sym k : tri_sym (tgl_U (it k)).
Proof.
elim: k => // k IH.
have ti : 0 < tau_inc (tgl_rho_options p) by rewrite ti1 ltr01.
have td : 0 < tau_dec (tgl_rho_options p) by rewrite td1 ltr01.
have rk : 0 < tgl_rho (it k) by rewrite t_rho.
by have [[_ ?] _] := tgl_body_inv psi (p := p) He sS ns0 ps ti td (0 + k) (conj rk IH).
Qed.

Lemma t_step k : admm_step (@dv n m) (@dw n m) (@copies n m) (@Bt n m) (@tgl_D n m) (tgl_f S ns)
  (tgl_g psi (tgl_alpha p) (tgl_beta p)) (tgl_rho st) (tgl_Z (it k)) (tgl_U (it k)) (tgl_K (it k.+1))
  (tgl_Z (it k.+1)) (tgl_U (it k.+1)).
Proof.
have rk : 0 < tgl_rho (it k) by rewrite t_rho.
have [sk _ _] := t_sym k.
apply: (@tgl_step _ _ _ _ _ He _ _ sS ns0 cv hp) => //; rewrite /= tgl_body_const // -(t_rho k) /=.
by case: (tgl_updates _ _ _ _ _ _ _ _) => [[]].
Qed.

Lemma t_break k : 0 <= tgl_rtol p -> 0 <= e ->
  dw n m (tgl_U (it k.+2) - tgl_U (it k.+1)) (tgl_U (it k.+2) - tgl_U (it k.+1)) <= e ^+ 2 ->
  tgl_rho st ^+ 2 * dw n m (tgl_Z (it k.+2) - tgl_Z (it k.+1)) (tgl_Z (it k.+2) - tgl_Z (it k.+1)) <= e ^+ 2 ->
  is_break (body k.+1 (it k.+1)).1.
Proof.
move=> rt0 t0 h1 h2; have rs : 0 < tgl_rho (it k.+1) by rewrite t_rho.
have E := tgl_body_const (0 + k.+1) rs.
have e2 : it k.+2 = out_state (body (0 + k.+1) (it k.+1)).1 by [].
rewrite e2 E in h1; rewrite e2 E -(t_rho k.+1) in h2.
have old : tgl_Zold (it k.+1) = tgl_Z (it k.+1) by rewrite /= tgl_body_const // t_rho.
have [sk _ _] := t_sym k.+1.
by apply: tgl_break1.
Qed.

Lemma t_nowarn Ko : topt p Ko -> 0 <= tgl_rtol p -> 0 < e ->
  exists N, forall max_iter, (N < max_iter)%N -> ~~ le_else (py_for body max_iter 0 st [::] None).
Proof.
move=> mK rt0 e0; have [U k] := tgl_opt_kkt a0 b0 rst mK.
have [N [N0 h1 h2]] := gen_bound (tgl_rho st) e0
 (dw n m (tgl_U st - U) (tgl_U st - U) + dw n m (tgl_Z st - copies Ko) (tgl_Z st - copies Ko)).
exists N => mi hm.
by apply: (gen_nowarn (@copiesB n m) (@copies_adj n m) rst t_step e0 _ k N0 hm) => // j; apply: t_break => //; apply: ltW.
Qed.
End Run.
End Term.
End TGL4.

(** the parameters with another iteration limit *)
Definition with_max_iter (p : tgl_params) (k : nat) : tgl_params :=
  TGLParams (tgl_alpha p) (tgl_rho0 p) (tgl_beta p) k (tgl_tol p) (tgl_rtol p) (tgl_return_history p)
    (tgl_return_n_iter p) (tgl_compute_objective p) (tgl_stop_at p) (tgl_stop_when p) (tgl_rho_options p).

Lemma tgl_terminates n m (eigh : eigh_t n) psi prox pinvh (S : stack n m.+1) ns p init :
  eigh_ok eigh -> slices (@sym n) S -> (forall t, 0 < odflt (fun=> 1) ns t) ->
  convex_fun psi -> prox_of psi prox -> (forall a lam, sym a -> sym (prox a lam)) ->
  0 < tgl_rho0 p -> tau_inc (tgl_rho_options p) = 1 -> tau_dec (tgl_rho_options p) = 1 ->
  0 <= tgl_alpha p -> 0 <= tgl_beta p -> 0 <= tgl_rtol p -> 0 < n%:R * tgl_tol p ->
  (exists Ko : stack n m.+1, minimiser (fun K : stack n m.+1 => slices (@pd n) K)
     (fun K => time_obj (@l1 n n) psi (odflt (fun=> 1) ns) S (tgl_alpha p) (tgl_beta p) K) Ko) ->
  exists N, forall k, (N < k)%N -> forall r,
    time_graphical_lasso eigh pinvh (PsiPlain psi prox) S ns (with_max_iter p k) init = Ok r ->
    tgl_warned r = false.
Proof.
move=> He sS ns0 cv hp ps r0 ti td a0 b0 rt0 nt0 [Ko mK].
have e0 : 0 < sqrt ((m.+1 * (n * n) + 2 * (m * (n * n)))%:R) * tgl_tol p.
  have [n0 t0] : (0 < n)%N /\ 0 < tgl_tol p.
    case: n nt0 {eigh psi prox pinvh S init He sS cv hp ps Ko mK} => [|k]; first by rewrite mul0r ltxx.
    by rewrite pmulr_rgt0 ?ltr0n.
  apply: mulr_gt0 => //; apply/RltP; apply: sqrt_lt_R0; apply/RltP; rewrite ltr0n.
  by rewrite addn_gt0 !muln_gt0 n0.
have sst : tri_sym (tgl_U (tgl_init pinvh S p init)) by split=> t; rewrite /= ffunE; apply: sym0.
have [N hN] := @t_nowarn _ _ _ _ _ He _ _ sS ns0 cv _ hp ps ti td a0 b0 (tgl_init pinvh S p init) r0 sst _ mK rt0 e0.
exists N => k kN r /tgl_call [_ _ _ ->]; apply/negbTE; exact: hN.
Qed.
