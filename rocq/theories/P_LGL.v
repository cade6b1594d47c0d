(** Proofs about the latent graphical lasso model. *)
From Coq Require Import Reals Lra Psatz.
From mathcomp Require Import all_ssreflect all_algebra.
From Verif Require Import RStruct RTac LinTac Spectral S_Mat RMx ADMM NP M_Prox S_Prox P_Eigh.
From Verif Require Import P_Prox P_Prox2 P_Rules M_Loop P_Loop M_GL S_GL P_GL P_GL2 M_LGL S_LGL.
Import Order.TTheory GRing.Theory Num.Theory.

Set Implicit Arguments.
Unset Strict Implicit.
Unset Printing Implicit Defensive.
Local Open Scope ring_scope.

Lemma symmetrise_sym n (A : 'M[R]_n) : sym (symmetrise A).
Proof. exact: sym_halfsum. Qed.
Lemma symmetrise_id n (A : 'M[R]_n) : sym A -> symmetrise A = A.
Proof. by rewrite /sym /symmetrise => ->; lin. Qed.

(** derivative of tr(S K) - log det K along a symmetric direction, at a point that is not
    improved by small steps *)
Lemma logdet_dir n (S K E : 'M[R]_n) (c delta : R) : sym S -> pd K -> sym E -> 0 < delta ->
  (forall t, 0 < t -> t <= delta -> pd (K + t *: E) ->
     gl_f S K <= gl_f S (K + t *: E) + t * c) ->
  0 <= fdot (S - invmx K) E + c.
Proof.
move=> sS pK sE d0 h; have [C [d [dp C0 hx]]] := logdet_expand pK sE.
have [m1 m2 m3] := np_minP d delta.
have mp : 0 < np_min d delta by case: m3 => ->.
apply: (@le0_lim_delta _ C _ mp) => t t0 td.
have [pN hN] := hx _ t0 (le_trans td m1).
have := h _ t0 (le_trans td m2) pN.
rewrite /gl_f !tr_fdot // fdotDr fdotZr fdotBl.
rewrite tr_fdot in hN; last by apply: sym_inv; apply: pd_sym.
rewrite -(pmulr_rge0 _ t0).
move: hN; move: (logdet _) (logdet _) (fdot _ _) (fdot _ _) (fdot _ _) => a b u v w hN h1.
by clear -hN h1; mclra.
Qed.

Section LGL.
Variables (n : nat) (eigh : eigh_t n) (nuc : 'M[R]_n -> R) (pinvh : 'M[R]_n -> 'M[R]_n).
Hypothesis He : eigh_ok eigh.
Variables (S : 'M[R]_n).
Hypothesis sS : sym S.
Implicit Types K L U A : 'M[R]_n.

Lemma lgl_sSA A rho : sym (S - rho *: symmetrise A).
Proof. by apply: symB => //; apply: symZ; apply: symmetrise_sym. Qed.

Lemma lgl_struct alpha tau rho K L U Rm K' L' U' : 0 < rho -> 0 <= tau -> sym L -> sym U ->
  lgl_updates eigh S alpha tau rho K L U = (Rm, K', L', U') ->
  [/\ pd Rm, sym K', psd L' & sym U'].
Proof.
move=> r0 t0 sL sU [<- <- <- <-] {Rm K' L' U'}.
have iv : 0 < 1 / rho by rewrite div1r invr_gt0.
have tr : 0 <= tau / rho by apply: divr_ge0 => //; apply: ltW.
have pR := proj1 (prox_logdet_spec He (lgl_sSA (K - L - U) rho) iv).
move: pR; move: (prox_logdet _ _ _) => Rm pR; have sR := pd_sym pR.
have sK' : sym (soft_thresholding (L + Rm + U) (alpha / rho)).
  by apply: soft_sym; apply: symD => //; apply: symD.
move: sK'; move: (soft_thresholding _ _) => K' sK'.
have [pL _ _] := prox_trace_spec He (symmetrise_sym (K' - Rm - U)) tr.
split=> //; apply: symD => //; apply: symD; last exact: psd_sym.
exact: symB.
Qed.

(** optimality conditions *)
Definition lgl_kkt alpha tau rho K L U : Prop :=
  [/\ lgl_feasible (K, L), invmx (K - L) = S + rho *: U,
      forall W, alpha * l1 K + rho * fdot U (W - K) <= alpha * l1 W &
      forall M, psd M -> - (rho * fdot U (M - L)) <= tau * \tr M - tau * \tr L].

(** stationary points *)
Lemma lgl_fixed alpha tau rho K L U Rm : 0 <= alpha -> 0 <= tau -> 0 < rho -> sym L -> sym U ->
  lgl_updates eigh S alpha tau rho K L U = (Rm, K, L, U) -> lgl_kkt alpha tau rho K L U.
Proof.
move=> a0 t0 r0 sL sU E; have [pR sK pL _] := lgl_struct r0 t0 sL sU E.
case: E; rewrite div1r => eR; rewrite eR => eK; rewrite eK => eL; rewrite eL => eU.
have eRm : Rm = K - L.
  have -> : Rm = (U + (Rm - K + L)) - U + K - L by lin.
  by rewrite eU; lin.
have rn : rho != 0 by apply: lt0r_neq0.
have iv : 0 < rho^-1 by rewrite invr_gt0.
have ar : 0 <= alpha / rho by apply: divr_ge0 => //; apply: ltW.
have tr : 0 <= tau / rho by apply: divr_ge0 => //; apply: ltW.
split.
- by split=> //=; rewrite -eRm.
- have [_] := prox_logdet_spec He (lgl_sSA (K - L - U) rho) iv.
  rewrite eR invrK symmetrise_id; last by apply: symB => //; apply: symB.
  rewrite eRm => ->; move: (K - L) => X; by lin.
- move=> W; have := soft_subgrad (L + Rm + U) W ar; rewrite eK.
  rewrite -(ler_pmul2l r0) mulrDr !(mulrA rho (alpha / rho)).
  have -> : rho * (alpha / rho) = alpha by rewrite mulrCA mulfV ?mulr1.
  by have -> : L + Rm + U - K = U by rewrite eRm; lin.
- move=> M pM; have := prox_trace_spec He (symmetrise_sym (K - Rm - U)) tr.
  rewrite /= eL symmetrise_id; last by apply: symB => //; apply: symB => //; apply: pd_sym.
  rewrite eRm; have -> : L + (tau / rho)%:M - (K - (K - L) - U) = (tau / rho)%:M + U.
    by move: (_%:M) => T; lin.
  case=> _ p2 c0; have h0 := psd_fdot_ge0 p2 pM; rewrite fdotDl in h0; rewrite fdotDl in c0.
  have es X : fdot (tau / rho)%:M X = tau / rho * \tr X.
    by rewrite -tr_fdot ?mul_scalar_mx ?mxtraceZ //; exact: tr_scalar_mx.
  rewrite es in c0; rewrite es in h0; rewrite fdotBr.
  move: c0 h0; move: (\tr L) (\tr M) (fdot U L) (fdot U M) => x y u v c0 h.
  have h2 : 0 <= rho * (tau / rho * y + v) by apply: mulr_ge0 => //; apply: ltW.
  have h3 : rho * (tau / rho * x + u) = 0 by rewrite c0 mulr0.
  have ec z : rho * (tau / rho * z) = tau * z by rewrite mulrA mulrCA mulfV // mulr1.
  rewrite mulrDr ec in h2; rewrite mulrDr ec in h3.
  by clear -h2 h3; mclra.
Qed.

Lemma lgl_kkt_opt alpha tau rho K L U : lgl_kkt alpha tau rho K L U ->
  minimiser (@lgl_feasible n) (lgl_obj (@l1 n n) S alpha tau) (K, L).
Proof.
move=> [fe eI hK hL].
split=> // -[K' L'] [/= sK' pL' pN]; rewrite /lgl_obj /=.
have [_ _ /= pR] := fe; have h1 := gl_f_subg sS pR pN; have h2 := hK K'; have h3 := hL _ pL'.
move: h1; rewrite /gl_f /logdet eI.
have -> : S - (S + rho *: U) = - (rho *: U) by lin.
have -> : K' - L' - (K - L) = (K' - K) - (L' - L) by lin.
rewrite fdotNl fdotZl (fdotBr (K' - K)) => h1.
by clear -h1 h2 h3; mclra.
Qed.

Lemma lgl_fixed_opt alpha tau rho K L U Rm : 0 <= alpha -> 0 <= tau -> 0 < rho -> sym L -> sym U ->
  lgl_updates eigh S alpha tau rho K L U = (Rm, K, L, U) ->
  minimiser (@lgl_feasible n) (lgl_obj (@l1 n n) S alpha tau) (K, L).
Proof. by move=> a0 t0 r0 sL sU E; apply: (@lgl_kkt_opt _ _ rho _ _ U); apply: lgl_fixed E. Qed.

Lemma prox_trace_var A lam X : sym A -> 0 <= lam -> psd X ->
  (forall Y, psd Y -> 0 <= fdot (X - A) (Y - X) + lam * \tr (Y - X)) ->
  prox_trace_indicator eigh A lam = X.
Proof.
move=> sA l0 pX h; apply: unique_min_eq (prox_trace_unique He sA l0) _.
apply: (@strong_unique _ _ _ _ 2%:R^-1) => // [|Y pY]; first mclra.
rewrite /trace_obj; have -> : Y - A = (X - A) + (Y - X) by lin.
rewrite [fnorm2 (X - A + _)]fnorm2D.
have -> : \tr Y = \tr X + \tr (Y - X) by rewrite linearB /= addrC subrK.
by have h1 := h Y pY; clear -h1; mclra.
Qed.

Lemma lgl_kkt_fixed alpha tau rho K L U : 0 <= alpha -> 0 <= tau -> 0 < rho -> sym U ->
  lgl_kkt alpha tau rho K L U -> lgl_updates eigh S alpha tau rho K L U = (K - L, K, L, U).
Proof.
move=> a0 t0 r0 sU [[/= sK pL pR] eI hK hL].
have rn : rho != 0 by apply: lt0r_neq0.
have iv : 0 < rho^-1 by rewrite invr_gt0.
have ar : 0 <= alpha / rho by apply: divr_ge0 => //; apply: ltW.
have tr : 0 <= tau / rho by apply: divr_ge0 => //; apply: ltW.
have sL := psd_sym pL.
have ec x z : rho * (x / rho * z) = x * z by rewrite mulrA mulrCA mulfV // mulr1.
have eR : prox_logdet eigh (S - rho *: symmetrise (K - L - U)) (1 / rho) = K - L.
  rewrite div1r; apply: (prox_logdet_char He) => //; first exact: lgl_sSA.
  rewrite invrK eI symmetrise_id; last by apply: symB => //; apply: symB.
  by move: (K - L) => X; lin.
have eK : soft_thresholding (L + (K - L) + U) (alpha / rho) = K.
  apply: unique_min_eq (soft_unique _ ar) _; apply: subgrad_unique => Y.
  have -> : L + (K - L) + U - K = U by lin.
  by rewrite -(ler_pmul2l r0) mulrDr !ec.
have eL : prox_trace_indicator eigh (symmetrise (K - (K - L) - U)) (tau / rho) = L.
  have -> : K - (K - L) - U = L - U by lin.
  rewrite symmetrise_id; last exact: symB.
  apply: prox_trace_var => // [|Y pY]; first exact: symB.
  have -> : L - (L - U) = U by lin.
  rewrite -(pmulr_rge0 _ r0) mulrDr ec linearB /= mulrBr; have h1 := hL Y pY.
  by clear -h1; mclra.
rewrite /lgl_updates eR eK eL; congr (_, _, _, _).
by lin.
Qed.

Lemma l1Z (a : R) K : l1 (a *: K) = `|a| * l1 K.
Proof.
rewrite /l1 mulr_sumr; apply: eq_bigr => i _; rewrite mulr_sumr; apply: eq_bigr => j _.
by rewrite mxE normrM.
Qed.
Lemma l1D K L : l1 (K + L) <= l1 K + l1 L.
Proof.
rewrite /l1 -big_split; apply: ler_sum => i _; rewrite -big_split; apply: ler_sum => j _.
by rewrite mxE ler_norm_add.
Qed.
Lemma l1T K : l1 K^T = l1 K.
Proof.
by rewrite /l1 exchange_big; apply: eq_bigr => i _; apply: eq_bigr => j _; rewrite mxE.
Qed.
Lemma l1_half K : l1 (symmetrise K) <= l1 K.
Proof.
rewrite /symmetrise l1Z ger0_norm; last by mclra.
by have := l1D K K^T; rewrite l1T => h; mclra.
Qed.

Lemma lgl_opt_kkt alpha tau rho K L : 0 <= alpha -> 0 < rho ->
  minimiser (@lgl_feasible n) (lgl_obj (@l1 n n) S alpha tau) (K, L) ->
  lgl_kkt alpha tau rho K L (rho^-1 *: (invmx (K - L) - S)).
Proof.
move=> a0 r0 [fe hm]; have [/= sK pL pR] := fe.
have rn : rho != 0 by apply: lt0r_neq0.
have eU X : rho * fdot (rho^-1 *: (invmx (K - L) - S)) X = fdot (invmx (K - L) - S) X.
  by rewrite fdotZl mulrA mulfV // mul1r.
have d1 : 0 < (1 : R) by exact: ltr01.
have sG : sym (invmx (K - L) - S) by apply: symB => //; apply: sym_inv; apply: pd_sym.
split=> //.
- by rewrite scalerA mulfV // scale1r; move: (invmx _) => X; lin.
- have hs Y : sym Y -> alpha * l1 K + fdot (invmx (K - L) - S) (Y - K) <= alpha * l1 Y.
    move=> sY; have sE : sym (Y - K) by apply: symB.
    have := @logdet_dir n S (K - L) (Y - K) (alpha * (l1 Y - l1 K)) 1 sS pR sE d1.
    have -> : S - invmx (K - L) = - (invmx (K - L) - S) by move: (invmx _) => X; lin.
    rewrite fdotNl => h; suff h0 : 0 <= - fdot (invmx (K - L) - S) (Y - K) + alpha * (l1 Y - l1 K).
      by clear h; move: (fdot _ _) h0 => x h; mclra.
    apply: h => t t1 t2 pN.
    have f' : lgl_feasible (K + t *: (Y - K), L).
      by split=> //=; [apply: symD => //; apply: symZ | rewrite addrAC].
    have := hm _ f'; rewrite /lgl_obj /= (addrAC K) /gl_f /logdet.
    have hl : l1 (K + t *: (Y - K)) <= (1 - t) * l1 K + t * l1 Y.
      have -> : K + t *: (Y - K) = (1 - t) *: K + t *: Y by lin.
      apply: le_trans (l1D _ _) _; rewrite !l1Z !ger0_norm //; first exact: ltW.
      by rewrite subr_ge0.
    have := ler_wpmul2l a0 hl; move: (l1 _) (l1 _) (l1 _) (_ - ln _) (_ - ln _) => x y z u v h1 h2.
    by clear -h1 h2; mclra.
  move=> W; rewrite eU; have := hs _ (symmetrise_sym W).
  rewrite (fdotBr _ K) (fdotC _ (symmetrise W)) fdot_asym // (fdotC W) -fdotBr => h1.
  by apply: le_trans h1 _; apply: ler_wpmul2l => //; apply: l1_half.
- move=> M pM; rewrite eU; have sL := psd_sym pL; have sM := psd_sym pM.
  have sE : sym (- (M - L)) by apply: symN; apply: symB.
  have := @logdet_dir n S (K - L) (- (M - L)) (tau * \tr M - tau * \tr L) 1 sS pR sE d1.
  have -> : S - invmx (K - L) = - (invmx (K - L) - S) by move: (invmx _) => X; lin.
  rewrite fdotNl fdotNr opprK => h.
  suff h0 : 0 <= fdot (invmx (K - L) - S) (M - L) + (tau * \tr M - tau * \tr L).
    by clear h; move: (fdot _ _) h0 => x h; mclra.
  apply: h => t t1 t2 pN.
  have eX : K - L + t *: - (M - L) = K - (L + t *: (M - L)) by lin.
  have f' : lgl_feasible (K, L + t *: (M - L)).
    split=> //=; last by rewrite -eX.
    have -> : L + t *: (M - L) = (1 - t) *: L + t *: M by lin.
    by apply: psdD; apply: psdZ => //; [rewrite subr_ge0 | apply: ltW].
  have := hm _ f'; rewrite /lgl_obj /= eX /gl_f /logdet.
  have -> : \tr (L + t *: (M - L)) = \tr L + t * (\tr M - \tr L).
    by rewrite mxtraceD mxtraceZ; congr (_ + _ * _); rewrite linearB.
  move: (\tr L) (\tr M) (_ - ln _) (_ - ln _) (_ * l1 _) => x y u v w h1.
  by clear -h1; mclra.
Qed.

Lemma lgl_opt_fixed alpha tau rho K L : 0 <= alpha -> 0 <= tau -> 0 < rho ->
  minimiser (@lgl_feasible n) (lgl_obj (@l1 n n) S alpha tau) (K, L) ->
  let U := rho^-1 *: (invmx (K - L) - S) in
  lgl_updates eigh S alpha tau rho K L U = (K - L, K, L, U).
Proof.
move=> a0 t0 r0 mK; have k := lgl_opt_kkt a0 r0 mK; rewrite /=; apply: lgl_kkt_fixed => //.
have [[/= sK pL pR] _ _ _] := k; apply: symZ; apply: symB => //; apply: sym_inv.
exact: pd_sym.
Qed.

(** with the documented, off-diagonal, penalty no stationary point is optimal *)
Lemma lgl_fixed_not_doc alpha tau rho K L U Rm (i : 'I_n) : 0 < alpha -> 0 <= tau -> 0 < rho ->
  sym L -> sym U -> lgl_updates eigh S alpha tau rho K L U = (Rm, K, L, U) ->
  ~ minimiser (@lgl_feasible n) (lgl_obj (@l1od n) S alpha tau) (K, L).
Proof.
move=> a0 t0 r0 sL sU E [_ hm].
have [[/= sK pL pR] eI hK hL] := lgl_fixed (ltW a0) t0 r0 sL sU E.
have ki : 0 < K i i.
  have -> : K i i = (K - L) i i + L i i by rewrite !mxE subrK.
  by apply: ltr_paddr; [apply: psd_diag_ge0 | apply: pd_diag_gt0].
have sE : sym (delta_mx i i : 'M[R]_n) by rewrite /sym trmx_delta.
have fE (A : 'M[R]_n) : fdot A (delta_mx i i) = A i i.
  rewrite /fdot (bigD1 i) //= (bigD1 i) //= !big1 ?addr0; first by rewrite mxE !eqxx mulr1.
    by move=> a ai; rewrite big1 // => b _; rewrite mxE (negbTE ai) mulr0.
  by move=> a ai; rewrite mxE (negbTE ai) andbF mulr0.
have l1E t : 0 <= K i i + t -> l1 (K + t *: delta_mx i i) = l1 K + t.
  move=> kt; transitivity (l1 K + t * fdot (const_mx 1) (delta_mx i i)); last by rewrite fE mxE mulr1.
  rewrite /l1 /fdot mulr_sumr -big_split; apply: eq_bigr => a _.
  rewrite mulr_sumr -big_split; apply: eq_bigr => b _; rewrite !mxE mul1r /=.
  case: eqP => [->|_]; last by rewrite !mulr0 !addr0.
  case: eqP => [->|_]; last by rewrite !mulr0 !addr0.
  by rewrite mulr1 (ger0_norm kt) (gtr0_norm ki).
have lodE t : l1od (K + t *: delta_mx i i) = l1od K.
  rewrite !l1odE; apply: eq_bigr => a _; apply: eq_bigr => b _.
  case: eqP => // ab; rewrite !mxE; case: eqP => [ai|_]; last by rewrite mulr0 addr0.
  by case: eqP => [e|_]; [case: ab; rewrite e ai | rewrite mulr0 addr0].
have uP : rho * U i i = alpha.
  have h t : 0 <= K i i + t -> rho * (t * U i i) <= alpha * t.
    move=> kt; have := hK (K + t *: delta_mx i i); rewrite l1E //.
    have -> : K + t *: delta_mx i i - K = t *: delta_mx i i by lin.
    rewrite fdotZr fE; move: (l1 K) (rho * _) => x y h; by mclra.
  have h1 := h (K i i); have h2 := h (- K i i).
  have {}h1 : rho * (K i i * U i i) <= alpha * K i i by apply: h1; mclra.
  have {}h2 : rho * (- K i i * U i i) <= alpha * - K i i by apply: h2; mclra.
  apply: (mulIf (lt0r_neq0 ki)).
  by move: h1 h2; move: (K i i) (U i i) => k u h1 h2; apply/le_anti/andP; split; mclra.
have d1 : 0 < (1 : R) by exact: ltr01.
have := @logdet_dir n S (K - L) (delta_mx i i) 0 1 sS pR sE d1.
rewrite fE eI !mxE addr0 opprD addNKr uP oppr_ge0 => h.
suff : alpha <= 0 by rewrite leNgt a0.
apply: h => t t1 _ pN; rewrite mulr0 addr0.
have f' : lgl_feasible (K + t *: delta_mx i i, L).
  split=> //=; first by apply: symD => //; apply: symZ.
  by rewrite addrAC.
have := hm _ f'; rewrite /lgl_obj /= lodE (addrAC K) /gl_f /logdet.
by rewrite !ler_add2r.
Qed.

(** * the loop *)
Variable p : lgl_params.
Hypothesis rho0 : 0 < lgl_rho0 p.
Hypothesis tau0 : 0 <= lgl_tau p.
Hypothesis ti : 0 < tau_inc (lgl_rho_options p).
Hypothesis td : 0 < tau_dec (lgl_rho_options p).
Local Notation body := (lgl_body eigh nuc S p).
Local Opaque lgl_updates.

Definition lgl_inv (s : lgl_state n) : Prop := [/\ 0 < lgl_rho s, psd (lgl_L s) & sym (lgl_U s)].
Definition lgl_post (s : lgl_state n) : Prop :=
  [/\ psd (lgl_L s), sym (lgl_U s), sym (lgl_K s) & pd (lgl_Rold s)].

Lemma lgl_body_inv j s : lgl_inv s ->
  lgl_inv (out_state (body j s).1) /\ lgl_post (out_state (body j s).1).
Proof.
move=> [rs pL sU]; rewrite /lgl_body.
case E: (lgl_updates _ _ _ _ _ _ _ _) => [[[Rm K] L] U].
have [pR sK pL' sU'] := lgl_struct rs tau0 (psd_sym pL) sU E.
move: (Convergence _ _ _ _ _) => c.
case: (stop_test _) => //=; case: (is_pinf _) => //=.
by split; split=> //=; [apply: rho_pos | apply: symZ | apply: symZ].
Qed.

Lemma lgl_loop_post init : (0 < lgl_max_iter p)%N ->
  lgl_post (le_state (lgl_loop eigh nuc S p (lgl_init pinvh S p init))).
Proof.
move=> m0; apply: (@py_for_post _ _ body lgl_inv) => //; last exact: lgl_body_inv.
by split=> //=; [apply: psd0 | apply: sym0].
Qed.

(** every intermediate state, not only the last *)
Lemma lgl_iter_post init k : lgl_post (iter_state body 0 (lgl_init pinvh S p init) k.+1).
Proof.
apply: (proj2 (lgl_body_inv _ _)).
elim: k => [|k IH]; last by have [] := lgl_body_inv (0 + k) IH.
by split=> //=; [apply: psd0 | apply: sym0].
Qed.

(** the objective is finite at every iteration, so the second break never fires *)
Lemma lgl_obj_finite j s : lgl_inv s -> ~~ is_pinf (c_obj (body j s).2).
Proof.
move=> [rs pL sU]; rewrite /lgl_body.
case E: (lgl_updates _ _ _ _ _ _ _ _) => [[[Rm K] L] U].
have [pR _ _ _] := lgl_struct rs tau0 (psd_sym pL) sU E.
set o := if lgl_compute_objective p then _ else _.
have ho : ~~ is_pinf o.
  rewrite /o; case: (lgl_compute_objective p) => //.
  by rewrite /lgl_objective /gl_objective /logl /fast_logdet pd_det_gt0.
by case: (stop_test _) => //=; rewrite (negbTE ho).
Qed.

End LGL.

Section Call.
Variables (n : nat) (eigh : eigh_t n) (nuc : 'M[R]_n -> R) (pinvh : 'M[R]_n -> 'M[R]_n).
Variables (S : 'M[R]_n) (p : lgl_params) (init : init_mode n).
Local Notation e0 := (lgl_loop eigh nuc S p (lgl_init pinvh S p init)).
Lemma lgl_call r : latent_graphical_lasso eigh nuc pinvh S p init = Ok r ->
  [/\ lgl_precision r = lgl_K (le_state e0), lgl_latent r = lgl_L (le_state e0),
      lgl_history r = (if lgl_return_history p then Some (le_checks e0) else None),
      lgl_n_iter r = (if lgl_return_n_iter p then le_iter e0 else None) &
      lgl_warned r = le_else e0].
Proof.
rewrite /latent_graphical_lasso; case: (lgl_return_n_iter p); last by case=> <-.
by case: (le_iter _) => // it [<-].
Qed.

Lemma lgl_call_ok : (0 < lgl_max_iter p)%N ->
  exists r, latent_graphical_lasso eigh nuc pinvh S p init = Ok r.
Proof.
move=> m0; rewrite /latent_graphical_lasso.
case: (lgl_return_n_iter p); last by eexists.
have [_ h2 h3 _] := py_for_count (lgl_body eigh nuc S p) (lgl_max_iter p) (lgl_init pinvh S p init).
rewrite -/(lgl_loop _ _ _ _ _) in h2 h3; rewrite h3; move: (h2 m0).
by case: (size _) => // k _; eexists.
Qed.

Lemma lgl_count r : lgl_return_n_iter p -> lgl_return_history p ->
  latent_graphical_lasso eigh nuc pinvh S p init = Ok r ->
  exists h k, [/\ lgl_history r = Some h, lgl_n_iter r = Some k, size h = k.+1,
    (size h <= lgl_max_iter p)%N & lgl_warned r -> size h = lgl_max_iter p].
Proof.
move=> rn rh h; have [_ _ h1 h2 h3] := lgl_call h; rewrite rn rh in h1 h2.
have [c1 c2 c3 c4] :=
  py_for_count (lgl_body eigh nuc S p) (lgl_max_iter p) (lgl_init pinvh S p init).
rewrite -/(lgl_loop _ _ _ _ _) in c1 c2 c3 c4.
exists (le_checks e0); rewrite h1 h2 h3 c3.
move: h; rewrite /latent_graphical_lasso rn c3; case E: (size _) => [|k] // _.
by exists k; split=> //; rewrite E in c1 c4 *.
Qed.

Lemma lgl_zero_iter : lgl_max_iter p = 0%N ->
  (lgl_return_n_iter p -> latent_graphical_lasso eigh nuc pinvh S p init = UnboundLocalError _) /\
  (~~ lgl_return_n_iter p -> exists r, latent_graphical_lasso eigh nuc pinvh S p init = Ok r /\
     lgl_precision r = init_precision pinvh S init /\ lgl_latent r = 0 /\ lgl_warned r = true).
Proof.
move=> m0; rewrite /latent_graphical_lasso /lgl_loop m0 /=.
case: (lgl_return_n_iter p); split=> // _.
by eexists; split; first reflexivity.
Qed.

Lemma lgl_top_struct r : eigh_ok eigh -> sym S -> 0 < lgl_rho0 p -> 0 <= lgl_tau p ->
  0 < tau_inc (lgl_rho_options p) -> 0 < tau_dec (lgl_rho_options p) -> (0 < lgl_max_iter p)%N ->
  latent_graphical_lasso eigh nuc pinvh S p init = Ok r ->
  sym (lgl_precision r) /\ psd (lgl_latent r).
Proof.
move=> He sS r0 t0 ti td m0 /lgl_call [-> -> _ _ _].
by have [] := lgl_loop_post nuc pinvh He sS r0 t0 ti td init m0.
Qed.
End Call.

(** an explicit optimum, hence a stationary point: K diagonal, no latent part *)
Lemma lgl_opt_diag n (S : 'M[R]_n) alpha tau : sym S -> 0 <= alpha ->
  (forall i, 0 < S i i + alpha) -> (forall i j, i != j -> `|S i j| <= alpha) ->
  psd (tau%:M + diag_mx (\row_i (S i i + alpha)) - S) ->
  minimiser (@lgl_feasible n) (lgl_obj (@l1 n n) S alpha tau)
    (diag_mx (\row_i (S i i + alpha)^-1), 0).
Proof.
move=> sS a0 hd ho hp; set K := diag_mx _.
have pK : pd K by apply: pd_diag => i; rewrite mxE invr_gt0.
have eK : invmx K = diag_mx (\row_i (S i i + alpha)).
  have e : K *m diag_mx (\row_i (S i i + alpha)) = 1%:M.
    apply/matrixP => i j; rewrite mul_diag_mx !mxE; case: eqP => [->|_].
      by rewrite mulr1n mulVf // lt0r_neq0.
    by rewrite mulr0n mulr0.
  by rewrite -[LHS]mulmx1 -e mulmxA mulVmx ?mul1mx //; apply: pd_unit.
apply: (@lgl_kkt_opt _ _ sS _ _ 1 _ _ (invmx K - S)).
split; rewrite ?subr0 ?scale1r.
- by split=> //=; rewrite ?subr0 //; [exact: pd_sym | exact: psd0].
- by lin.
- move=> W; rewrite mul1r /l1 /fdot !mulr_sumr -big_split; apply: ler_sum => i _.
  rewrite !mulr_sumr -big_split; apply: ler_sum => j _ /=.
  rewrite eK !mxE; case: (eqVneq i j) => [<-|ij].
    rewrite !mulr1n addrAC subrr add0r gtr0_norm ?invr_gt0 // -mulrDr addrC subrK.
    by apply: ler_wpmul2l => //; apply: ler_norm.
  rewrite !mulr0n sub0r subr0 normr0 mulr0 add0r; apply: le_trans (ler_norm _) _.
  by rewrite normrM normrN; apply: ler_wpmul2r => //; apply: ho.
- move=> M pM; rewrite mul1r subr0 linear0 mulr0 subr0.
  have := psd_fdot_ge0 hp pM; rewrite -addrA fdotDl -eK.
  have -> : fdot tau%:M M = tau * \tr M.
    by rewrite -tr_fdot ?mul_scalar_mx ?mxtraceZ //; exact: tr_scalar_mx.
  by move: (fdot _ _) (_ * _) => x y h; mclra.
Qed.

Lemma psd_gram m n (A : 'M[R]_(m, n)) : psd (A *m A^T).
Proof.
split; first by rewrite /sym trmx_mul trmxK.
move=> v; rewrite /quad !mulmxA -mulmxA -{1}(trmxK A) -trmx_mul.
by rewrite mxE; apply: sumr_ge0 => i _; rewrite mxE -expr2 sqr_ge0.
Qed.
Lemma ord2 (i : 'I_2) : (i == 0) || (i == 1).
Proof. by case: i => [[|[|]]]. Qed.
