(** Proofs about the infimal convolution solver. *)
From Coq Require Import Reals Lra Psatz.
From mathcomp Require Import all_ssreflect all_algebra.
From Verif Require Import RStruct RTac LinTac Spectral S_Mat RMx ADMM NP M_Prox S_Prox P_Eigh.
From Verif Require Import P_Prox P_Prox2 P_Rules M_Loop P_Loop M_GL S_GL P_GL P_GL2 M_LGL S_LGL P_LGL BW Exist P_Exist M_Infimal.
Import Order.TTheory GRing.Theory Num.Theory.

Set Implicit Arguments.
Unset Strict Implicit.
Unset Printing Implicit Defensive.
Local Open Scope ring_scope.

Definition ic_feasible n (KL : 'M[R]_n * 'M[R]_n) : Prop := sym KL.1 /\ psd KL.2.
Definition ic_problem n (S : 'M[R]_n) (alpha tau : R) (KL : 'M[R]_n * 'M[R]_n) : R :=
  fnorm2 (S - (KL.1 - KL.2)) / 2%:R + alpha * l1 KL.1 + tau * \tr KL.2.

Section IC.
Variables (n : nat) (eigh : eigh_t n) (nuc : 'M[R]_n -> R) (pinvh : 'M[R]_n -> 'M[R]_n).
Hypothesis He : eigh_ok eigh.
Variables (S : 'M[R]_n).
Hypothesis sS : sym S.
Implicit Types K L U A : 'M[R]_n.

Lemma ic_R A rho : 0 < rho -> (1 + rho) *: prox_laplacian (S + rho *: A) (rho / 2%:R) = S + rho *: A.
Proof.
move=> r0; rewrite /prox_laplacian scalerA (_ : 1 + 2%:R * (rho / 2%:R) = 1 + rho); last by mclra.
by rewrite divff ?scale1r // lt0r_neq0 // addr_gt0 // ltr01.
Qed.

Lemma ic_struct alpha tau rho K L U Rm K' L' U' : 0 < rho -> 0 <= tau -> sym L -> sym U ->
  ic_updates eigh S alpha tau rho K L U = (Rm, K', L', U') -> [/\ sym Rm, sym K', psd L' & sym U'].
Proof.
move=> r0 t0 sL sU [<- <- <- <-] {Rm K' L' U'}.
have tr : 0 <= tau / rho by apply: divr_ge0 => //; apply: ltW.
have sR : sym (prox_laplacian (S + rho *: symmetrise (K - L - U)) (rho / 2%:R)).
  by apply: symZ; apply: symD => //; apply: symZ; exact: symmetrise_sym.
move: sR; move: (prox_laplacian _ _) => Rm sR.
have sK' : sym (soft_thresholding (L + Rm + U) (alpha / rho)).
  by apply: soft_sym; apply: symD => //; apply: symD.
move: sK'; move: (soft_thresholding _ _) => K' sK'.
have [pL _ _] := prox_trace_spec He (symmetrise_sym (K' - Rm - U)) tr.
split=> //; apply: symD => //; apply: symD; last exact: psd_sym.
exact: symB.
Qed.

(** optimality conditions *)
Definition ic_kkt alpha tau rho K L U : Prop :=
  [/\ ic_feasible (K, L), S - (K - L) = rho *: U,
      forall W, alpha * l1 K + rho * fdot U (W - K) <= alpha * l1 W &
      forall M, psd M -> - (rho * fdot U (M - L)) <= tau * \tr M - tau * \tr L].

Lemma ic_fixed alpha tau rho K L U Rm : 0 <= alpha -> 0 <= tau -> 0 < rho -> sym L -> sym U ->
  ic_updates eigh S alpha tau rho K L U = (Rm, K, L, U) -> ic_kkt alpha tau rho K L U.
Proof.
move=> a0 t0 r0 sL sU E; have [sR sK pL _] := ic_struct r0 t0 sL sU E.
case: E => eR; rewrite eR => eK; rewrite eK => eL; rewrite eL => eU.
have eRm : Rm = K - L.
  have -> : Rm = (U + (Rm - K + L)) - U + K - L by lin.
  by rewrite eU; lin.
have rn : rho != 0 by apply: lt0r_neq0.
have ar : 0 <= alpha / rho by apply: divr_ge0 => //; apply: ltW.
have tr : 0 <= tau / rho by apply: divr_ge0 => //; apply: ltW.
split=> //.
- have := ic_R (symmetrise (K - L - U)) r0; rewrite eR eRm symmetrise_id; last by apply: symB => //; apply: symB.
  move: (K - L) => X e.
  have -> : S - X = (S + rho *: (X - U)) - (1 + rho) *: X + rho *: U by lin.
  by rewrite -e subrr add0r.
- move=> W; have := soft_subgrad (L + Rm + U) W ar; rewrite eK.
  rewrite -(ler_pmul2l r0) mulrDr !(mulrA rho (alpha / rho)).
  have -> : rho * (alpha / rho) = alpha by rewrite mulrCA mulfV ?mulr1.
  by have -> : L + Rm + U - K = U by rewrite eRm; lin.
- move=> M pM; have := prox_trace_spec He (symmetrise_sym (K - Rm - U)) tr.
  rewrite /= eL symmetrise_id; last by apply: symB => //; apply: symB.
  rewrite eRm; have -> : L + (tau / rho)%:M - (K - (K - L) - U) = (tau / rho)%:M + U.
    by move: (_%:M) => T; lin.
  case=> _ p2 c0; have h0 := psd_fdot_ge0 p2 pM; rewrite fdotDl in h0; rewrite fdotDl in c0.
  have es X : fdot (tau / rho)%:M X = tau / rho * \tr X.
    by rewrite -tr_fdot ?mul_scalar_mx ?mxtraceZ //; exact: tr_scalar_mx.
  rewrite es in c0; rewrite es in h0; rewrite fdotBr.
  move: c0 h0; move: (\tr L) (\tr M) (fdot U L) (fdot U M) => x y u v c0 h.
  have h2 : 0 <= rho * (tau / rho * y + v) by apply: mulr_ge0 => //; apply: ltW.
  have h3 : rho * (tau / rho * x + u) = 0 by rewrite c0 mulr0.
  have ec z : rho * (tau / rho * z) = tau * z by rewrite mulrA mulrCA mulfV // mulr1.
  rewrite mulrDr ec in h2; rewrite mulrDr ec in h3.
  by clear -h2 h3; mclra.
Qed.

Lemma ic_kkt_opt alpha tau rho K L U : ic_kkt alpha tau rho K L U ->
  minimiser (@ic_feasible n) (ic_problem S alpha tau) (K, L).
Proof.
move=> [fe eI hK hL]; split=> // -[K' L'] [/= sK' pL']; rewrite /ic_problem /=.
have h2 := hK K'; have h3 := hL _ pL'.
have -> : S - (K' - L') = (S - (K - L)) + (- ((K' - K) - (L' - L))) by lin.
rewrite eI (fnorm2D (rho *: U)) fdotNr fnorm2N fdotZl (fdotBr (K' - K)).
have h4 := fnorm2_ge0 (K' - K - (L' - L)).
move: h2 h3 h4; move: (fnorm2 _) (fnorm2 _) (fdot _ _) (fdot _ _) (l1 _) (l1 _) (\tr _) (\tr _) => a b c d e f g h h2 h3 h4.
by clear -h2 h3 h4; mclra.
Qed.

Lemma ic_kkt_fixed alpha tau rho K L U : 0 <= alpha -> 0 <= tau -> 0 < rho -> sym U ->
  ic_kkt alpha tau rho K L U -> ic_updates eigh S alpha tau rho K L U = (K - L, K, L, U).
Proof.
move=> a0 t0 r0 sU [[/= sK pL] eI hK hL].
have rn : rho != 0 by apply: lt0r_neq0.
have ar : 0 <= alpha / rho by apply: divr_ge0 => //; apply: ltW.
have tr : 0 <= tau / rho by apply: divr_ge0 => //; apply: ltW.
have sL := psd_sym pL.
have ec x z : rho * (x / rho * z) = x * z by rewrite mulrA mulrCA mulfV // mulr1.
have eR : prox_laplacian (S + rho *: symmetrise (K - L - U)) (rho / 2%:R) = K - L.
  have r1 : 1 + rho != 0 by rewrite lt0r_neq0 // addr_gt0 // ltr01.
  apply: (scalerI r1); rewrite ic_R // symmetrise_id; last by apply: symB => //; apply: symB.
  have -> : S = (S - (K - L)) + (K - L) by lin.
  by rewrite eI; move: (K - L) => X; lin.
have eK : soft_thresholding (L + (K - L) + U) (alpha / rho) = K.
  apply: unique_min_eq (soft_unique _ ar) _; apply: subgrad_unique => Y.
  have -> : L + (K - L) + U - K = U by lin.
  by rewrite -(ler_pmul2l r0) mulrDr !ec.
have eL : prox_trace_indicator eigh (symmetrise (K - (K - L) - U)) (tau / rho) = L.
  have -> : K - (K - L) - U = L - U by lin.
  rewrite symmetrise_id; last exact: symB.
  apply: prox_trace_var => // [|Y pY]; first exact: symB.
  have -> : L - (L - U) = U by lin.
  rewrite -(pmulr_rge0 _ r0) mulrDr ec linearB /= mulrBr; have h1 := hL Y pY.
  by clear -h1; mclra.
rewrite /ic_updates eR eK eL; congr (_, _, _, _).
by lin.
Qed.

Lemma ic_opt_kkt alpha tau rho K L : 0 <= alpha -> 0 < rho ->
  minimiser (@ic_feasible n) (ic_problem S alpha tau) (K, L) ->
  ic_kkt alpha tau rho K L (rho^-1 *: (S - (K - L))).
Proof.
move=> a0 r0 [fe hm]; have [/= sK pL] := fe.
have rn : rho != 0 by apply: lt0r_neq0.
have eU X : rho * fdot (rho^-1 *: (S - (K - L))) X = fdot (S - (K - L)) X.
  by rewrite fdotZl mulrA mulfV // mul1r.
have sG : sym (S - (K - L)) by apply: symB => //; apply: symB => //; apply: psd_sym.
have dir (E : 'M[R]_n) (c : R) : (forall t, 0 < t -> t <= 1 ->
    fnorm2 (S - (K - L)) / 2%:R <= fnorm2 (S - (K - L) - t *: E) / 2%:R + t * c) -> 0 <= - fdot (S - (K - L)) E + c.
  move=> h; apply: (@le0_lim_delta _ (fnorm2 E) _ ltr01) => t t1 t2.
  have := h _ t1 t2; move: (S - (K - L)) => G; rewrite [fnorm2 (G - t *: E)]fnorm2D fdotNr fnorm2N fdotZr fnorm2Z => h1.
  rewrite -(pmulr_rge0 _ t1); have := fnorm2_ge0 E; move: h1.
  by move: (fnorm2 _) (fnorm2 _) (fdot _ _) => x y z h1 h2; clear -h1 h2 t1; mcnra.
split=> //.
- by rewrite scalerA mulfV // scale1r.
- have hs Y : sym Y -> alpha * l1 K + fdot (S - (K - L)) (Y - K) <= alpha * l1 Y.
    move=> sY; suff h0 : 0 <= - fdot (S - (K - L)) (Y - K) + alpha * (l1 Y - l1 K).
      by move: (fdot _ _) h0 => x h; mclra.
    apply: dir => t t1 t2.
    have f' : ic_feasible (K + t *: (Y - K), L) by split=> //=; apply: symD => //; apply: symZ; apply: symB.
    have := hm _ f'; rewrite /ic_problem /=.
    have -> : S - (K + t *: (Y - K) - L) = S - (K - L) - t *: (Y - K) by lin.
    have hl : l1 (K + t *: (Y - K)) <= (1 - t) * l1 K + t * l1 Y.
      have -> : K + t *: (Y - K) = (1 - t) *: K + t *: Y by lin.
      apply: le_trans (l1D _ _) _; rewrite !l1Z !ger0_norm //; first exact: ltW.
      by rewrite subr_ge0.
    have := ler_wpmul2l a0 hl; move: (l1 _) (l1 _) (l1 _) (fnorm2 _) (fnorm2 _) => x y z u v h1 h2.
    by clear -h1 h2; mclra.
  move=> W; rewrite eU; have := hs _ (symmetrise_sym W).
  rewrite (fdotBr _ K) (fdotC _ (symmetrise W)) fdot_asym // (fdotC W) -fdotBr => h1.
  by apply: le_trans h1 _; apply: ler_wpmul2l => //; apply: l1_half.
- move=> M pM; rewrite eU.
  suff h0 : 0 <= - fdot (S - (K - L)) (- (M - L)) + (tau * \tr M - tau * \tr L).
    by move: h0; rewrite fdotNr; move: (fdot _ _) => x h; mclra.
  apply: dir => t t1 t2.
  have f' : ic_feasible (K, L + t *: (M - L)).
    split=> //=; have -> : L + t *: (M - L) = (1 - t) *: L + t *: M by lin.
    by apply: psdD; apply: psdZ => //; [rewrite subr_ge0 | apply: ltW].
  have := hm _ f'; rewrite /ic_problem /=.
  have -> : S - (K - (L + t *: (M - L))) = S - (K - L) - t *: - (M - L) by lin.
  have -> : \tr (L + t *: (M - L)) = \tr L + t * (\tr M - \tr L).
    by rewrite mxtraceD mxtraceZ; congr (_ + _ * _); rewrite linearB.
  move: (\tr L) (\tr M) (fnorm2 _) (fnorm2 _) (_ * l1 _) => x y u v w h1.
  by clear -h1; mclra.
Qed.

Lemma ic_opt_fixed alpha tau rho K L : 0 <= alpha -> 0 <= tau -> 0 < rho ->
  minimiser (@ic_feasible n) (ic_problem S alpha tau) (K, L) ->
  let U := rho^-1 *: (S - (K - L)) in ic_updates eigh S alpha tau rho K L U = (K - L, K, L, U).
Proof.
move=> a0 t0 r0 mK; have k := ic_opt_kkt a0 r0 mK; rewrite /=; apply: ic_kkt_fixed => //.
have [[/= sK pL] _ _ _] := k; apply: symZ; apply: symB => //; apply: symB => //.
exact: psd_sym.
Qed.

(** * the loop *)
Variable p : lgl_params.
Hypothesis rho0 : 0 < lgl_rho0 p.
Hypothesis tau0 : 0 <= lgl_tau p.
Hypothesis ti : 0 < tau_inc (lgl_rho_options p).
Hypothesis td : 0 < tau_dec (lgl_rho_options p).
Local Notation body := (ic_body eigh nuc S p).

Definition ic_post (s : lgl_state n) : Prop := [/\ psd (lgl_L s), sym (lgl_U s) & sym (lgl_K s)].

Section Struct.
Local Opaque ic_updates.
Lemma ic_body_inv j s : lgl_inv s -> lgl_inv (out_state (body j s).1) /\ ic_post (out_state (body j s).1).
Proof.
move=> [rs pL sU]; rewrite /ic_body.
case E: (ic_updates _ _ _ _ _ _ _ _) => [[[Rm K] L] U].
have [pR sK pL' sU'] := ic_struct rs tau0 (psd_sym pL) sU E.
move: (Convergence _ _ _ _ _) => c.
case: (stop_test _) => //=; case: (is_pinf _) => //=.
by split; split=> //=; [apply: rho_pos | apply: symZ | apply: symZ].
Qed.
End Struct.

Lemma ic_loop_post : (0 < lgl_max_iter p)%N -> ic_post (le_state (ic_loop eigh nuc S p)).
Proof.
move=> m0; apply: (@py_for_post _ _ body (@lgl_inv n)) => //; last exact: ic_body_inv.
by split=> //=; [apply: psd0 | apply: sym0].
Qed.

(** * small covariances: the solver returns zero *)
Hypothesis pS : psd S.
Hypothesis small : forall i j, `|S i j| <= lgl_alpha p.
Definition ic_zero (s : lgl_state n) : Prop :=
  [/\ 0 < lgl_rho s, lgl_K s = 0, lgl_L s = 0 & exists2 th, 0 <= th <= 1 & lgl_rho s *: lgl_U s = th *: S].

Lemma ic_zero_updates rho U th : 0 < rho -> 0 <= th <= 1 -> rho *: U = th *: S ->
  let r := ic_updates eigh S (lgl_alpha p) (lgl_tau p) rho 0 0 U in
  [/\ r.1.1.2 = 0, r.1.2 = 0 & exists2 th', 0 <= th' <= 1 & rho *: r.2 = th' *: S].
Proof.
move=> r0 /andP[h0 h1] eU; have rn := lt0r_neq0 r0; have r1 : 0 < 1 + rho by rewrite addr_gt0 // ltr01.
have eU' : U = (th / rho) *: S by rewrite mulrC -scalerA -eU scalerA mulVf // scale1r.
have sU : sym U by rewrite eU'; apply: symZ.
pose th' := (th + rho) / (1 + rho).
have b : 0 <= th' <= 1.
  by rewrite /th' ler_pdivl_mulr // ler_pdivr_mulr // mul0r mul1r ler_add2r h1 andbT addr_ge0 // ltW.
have eR : prox_laplacian (S + rho *: symmetrise (0 - 0 - U)) (rho / 2%:R) = ((1 - th) / (1 + rho)) *: S.
  apply: (scalerI (lt0r_neq0 r1)); rewrite ic_R // symmetrise_id; last by rewrite subr0 sub0r; apply: symN.
  rewrite !sub0r oppr0 add0r scalerN eU scalerA mulrCA divff ?mulr1 ?lt0r_neq0 //; lin.
have eRU : ((1 - th) / (1 + rho)) *: S + U = (th' / rho) *: S.
  have num (t r : R) : r != 0 -> 1 + r != 0 -> (1 - t) / (1 + r) + t / r = (t + r) / (1 + r) / r.
    by move=> /eqP ? /eqP ?; mcfield.
  by rewrite eU' -scalerDl num // lt0r_neq0.

have tr : 0 <= lgl_tau p / rho by apply: divr_ge0 => //; apply: ltW.
have eK : soft_thresholding (0 + ((1 - th) / (1 + rho)) *: S + U) (lgl_alpha p / rho) = 0.
  rewrite add0r eRU; apply/matrixP=> i j; rewrite !mxE.
  have hb : `|th' / rho * S i j| <= lgl_alpha p / rho.
    case/andP: b => b0 b1; have t0 : 0 <= th' / rho by apply: divr_ge0 => //; apply: ltW.
    have h : th' * `|S i j| <= lgl_alpha p.
      by apply: le_trans (small i j); rewrite -[X in _ <= X]mul1r; apply: ler_wpmul2r => //; exact: normr_ge0.
    by rewrite normrM (ger0_norm t0) mulrAC ler_pmul2r ?invr_gt0.
  rewrite /soft1; have -> : np_max (`|th' / rho * S i j| - lgl_alpha p / rho) 0 = 0.
    by rewrite /np_max; case: ltP => // h; apply/eqP; rewrite eq_le h subr_le0 hb.
  by rewrite mulr0.
have eL : prox_trace_indicator eigh (symmetrise (0 - ((1 - th) / (1 + rho)) *: S - U)) (lgl_tau p / rho) = 0.
  have -> : 0 - ((1 - th) / (1 + rho)) *: S - U = - ((th' / rho) *: S) by rewrite -eRU; lin.
  have sS' : sym (- ((th' / rho) *: S)) by apply: symN; apply: symZ.
  rewrite symmetrise_id //; apply: prox_trace_var => // [|Y pY]; first exact: psd0.
  case/andP: b => b0 b1; rewrite subr0 sub0r opprK fdotZl addr_ge0 // mulr_ge0 //.
  - by apply: divr_ge0 => //; apply: ltW.
  - exact: psd_fdot_ge0.
  - by have := psd_fdot_ge0 (pd_psd (pd1 n)) pY; rewrite -tr_fdot ?mul1mx //; exact: sym1.
rewrite /ic_updates eR eK eL /=; split=> //; exists th' => //.
rewrite subr0 addr0 addrC eRU scalerA mulrCA divff ?mulr1 //.
Qed.

Section Zero.
Local Opaque ic_updates.
Lemma ic_body_zero j s : ic_zero s -> ic_zero (out_state (body j s).1).
Proof.
case: s => K L U Ro rho [/= r0 -> -> [th b eU]]; rewrite /ic_body /=.
have := ic_zero_updates r0 b eU.
case: (ic_updates _ _ _ _ _ _ _ _) => [[[Rm K'] L'] U'] /= [-> -> [th' b' eU']].
move: (Convergence _ _ _ _ _) => c.
have d : ic_zero (LGLState 0 0 U' Rm rho) by split=> //=; exists th'.
case: (stop_test _) => //=; case: (is_pinf _) => //=.
set r' := update_rho _ _ _ _; have r'0 : 0 < r' by apply: rho_pos.
split=> //=; exists th' => //; rewrite scalerA mulrCA divff ?mulr1 //; exact: lt0r_neq0.
Qed.
End Zero.

Lemma ic_loop_zero : ic_zero (le_state (ic_loop eigh nuc S p)).
Proof.
have z0 : ic_zero (ic_init n p) by split=> //=; exists 0; rewrite ?lexx ?ler01 // scaler0 scale0r.
case: (posnP (lgl_max_iter p)) => [m0|m0]; first by rewrite /ic_loop m0.
apply: (@py_for_post _ _ body ic_zero) => // j s z; split; exact: ic_body_zero.
Qed.
End IC.

(** * existence *)
Definition mpair_coords n : coords ('M[R]_n * 'M[R]_n) [finType of bool * ('I_n * 'I_n)].
Proof.
exists (fun (KL : 'M[R]_n * 'M[R]_n) b => (if b.1 then KL.1 else KL.2) b.2.1 b.2.2)
  (fun l => (\matrix_(i, j) l (true, (i, j)), \matrix_(i, j) l (false, (i, j)))).
by move=> l [[] [i j]] /=; rewrite mxE.
Defined.

Lemma fnorm2_entry n (A : 'M[R]_n) i j : `|A i j| <= 1 + fnorm2 A.
Proof.
have h : A i j ^+ 2 <= fnorm2 A.
  rewrite /fnorm2 (bigD1 i) //= (bigD1 j) //= -addrA ler_addl addr_ge0 //.
    by apply: sumr_ge0 => k _; exact: sqr_ge0.
  by apply: sumr_ge0 => k _; apply: sumr_ge0 => l _; exact: sqr_ge0.
have num (z y : R) : z ^+ 2 <= y -> 0 <= z -> z <= 1 + y by move=> h1 h2; mcnra.
by apply: num (normr_ge0 _); rewrite -normrX ger0_norm // sqr_ge0.
Qed.

Lemma ic_exists n (S : 'M[R]_n) alpha tau : 0 < alpha -> 0 <= tau ->
  exists KL, minimiser (@ic_feasible n) (ic_problem S alpha tau) KL.
Proof.
move=> a0 t0; set B := ic_problem S alpha tau (0, 0).
pose r := B / alpha + (l1 S + (1 + 2%:R * B)).
have l10 (X : 'M[R]_n) : 0 <= l1 X by apply: sumr_ge0 => i _; apply: sumr_ge0.
have tr0 (X : 'M[R]_n) : psd X -> 0 <= \tr X by move=> pX; apply: sumr_ge0 => i _; exact: psd_diag_ge0.
have B0 : 0 <= B.
  have := tr0 _ (psd0 n); have := fnorm2_ge0 (S - (0 - 0)); have := l10 0; rewrite /B /ic_problem /= => h1 h2 h3.
  by apply: addr_ge0; [apply: addr_ge0; [apply: divr_ge0; rewrite ?ler0n | apply: mulr_ge0 => //; apply: ltW] | apply: mulr_ge0].
have bound K L : ic_feasible (K, L) -> ic_problem S alpha tau (K, L) <= B -> l1 K <= B / alpha /\ fnorm2 (S - (K - L)) <= 2%:R * B.
  move=> [/= _ pL]; rewrite /ic_problem /=; have := fnorm2_ge0 (S - (K - L)).
  have := mulr_ge0 (ltW a0) (l10 K); have := mulr_ge0 t0 (tr0 _ pL); rewrite ler_pdivl_mulr // [l1 K * _]mulrC; clearbody B.
  by move: (fnorm2 _) (alpha * _) (tau * _) => x y z h1 h2 h3 h4; split; mclra.
apply: (@min_exists_co _ _ (mpair_coords n) _ _ (0, 0) r) => //; first by split; [exact: sym0 | exact: psd0].
  move=> [K L] fe hB [b [i j]]; have [b1 b2] := bound _ _ fe hB.
  have e1 := le_trans (le_l1 K i j) b1; have e2 := fnorm2_entry (S - (K - L)) i j; have e3 := le_l1 S i j; have e4 := l10 S.
  rewrite !mxE in e2; rewrite /r; case: b => /=.
    by apply: le_trans e1 _; rewrite ler_addl; apply: addr_ge0 => //; apply: addr_ge0; [exact: ler01 | apply: mulr_ge0; rewrite ?ler0n].
  move: e1 e2 e3 e4 b2; move: (K i j : R) (L i j : R) (S i j : R) (B / alpha) (l1 S) (fnorm2 _) => k l s x y z.
  have num (a b c d : R) : `|l| <= `|s| + `|k| + `|s - (k - l)|.
    have {1}-> : l = - (s - k) + (s - (k - l)) by mclra.
    apply: le_trans (ler_norm_add _ _) _; rewrite normrN ler_add2r.
    by apply: le_trans (ler_norm_add _ _) _; rewrite normrN.
  have := num 0 0 0 0; move: (`|l|) (`|s|) (`|k|) (`|_|) => a b c d h1 h2 h3 h4 h5 h6.
  by clear -h1 h2 h3 h4 h5 h6 B0; clearbody B; mclra.
move=> u [K L] v hu hX hv.
have cK : mx_cv (fun k => (u k).1) K by move=> i j; exact: (hX (true, (i, j))).
have cL : mx_cv (fun k => (u k).2) L by move=> i j; exact: (hX (false, (i, j))).
split.
  split=> /=; last by apply: psd_lim cL => k; have [[]] := hu k.
  apply/matrixP => i j; rewrite mxE; apply: (UL_sequence (fun k => (u k).1 j i)); first exact: cK.
  apply: cv_eq (cK i j) => k; have [[/= s1 _] _] := hu k.
  by rewrite -[in LHS]s1 mxE.
apply: cv_le hv; apply: cvD; first apply: cvD.
- apply: cvM (cv_const _); apply: cv_fnorm2 => i j; rewrite !mxE.
  apply: (@cv_eq (fun k => S i j - ((u k).1 i j - (u k).2 i j))) => [k|]; first by rewrite !mxE.
  by apply: cvB; [exact: cv_const | apply: cvB; [exact: cK | exact: cL]].
- by apply: cvM (cv_const _) _; exact: cv_l1.
- by apply: cvM (cv_const _) _; apply: cv_sum => i _; exact: cL.
Qed.

(** * the call *)
Section Call.
Variables (n : nat) (eigh : eigh_t n) (nuc : 'M[R]_n -> R) (pinvh : 'M[R]_n -> 'M[R]_n) (S : 'M[R]_n) (p : lgl_params).
Local Notation e0 := (ic_loop eigh nuc S p).

Lemma ic_call r : infimal_convolution eigh nuc pinvh S p = Ok r ->
  [/\ lgl_precision r = lgl_K (le_state e0) /\ lgl_covariance r = pinvh (lgl_K (le_state e0)), lgl_latent r = lgl_L (le_state e0),
      lgl_history r = (if lgl_return_history p then Some (le_checks e0) else None),
      lgl_n_iter r = (if lgl_return_n_iter p then le_iter e0 else None) & lgl_warned r = le_else e0].
Proof.
rewrite /infimal_convolution; case: (lgl_return_n_iter p); last by case=> <-.
by case: (le_iter _) => [it|] // [<-].
Qed.
Lemma ic_call_ok : (0 < lgl_max_iter p)%N -> exists r, infimal_convolution eigh nuc pinvh S p = Ok r.
Proof.
move=> m0; rewrite /infimal_convolution.
case: (lgl_return_n_iter p); last by eexists.
have [_ h2 h3 _] := py_for_count (ic_body eigh nuc S p) (lgl_max_iter p) (ic_init n p).
rewrite -/(ic_loop _ _ _ _) in h2 h3; rewrite h3; move: (h2 m0).
by case: (size _) => // k _; eexists.
Qed.
Lemma ic_count r : lgl_return_n_iter p -> lgl_return_history p ->
  infimal_convolution eigh nuc pinvh S p = Ok r ->
  exists h k, [/\ lgl_history r = Some h, lgl_n_iter r = Some k, size h = k.+1,
    (size h <= lgl_max_iter p)%N & lgl_warned r -> size h = lgl_max_iter p].
Proof.
move=> rn rh h; have [_ _ h1 h2 h3] := ic_call h; rewrite rn rh in h1 h2.
have [c1 c2 c3 c4] := py_for_count (ic_body eigh nuc S p) (lgl_max_iter p) (ic_init n p).
rewrite -/(ic_loop _ _ _ _) in c1 c2 c3 c4.
exists (le_checks e0); rewrite h1 h2 h3 c3.
move: h; rewrite /infimal_convolution rn c3; case E: (size _) => [|k] // _.
by exists k; split=> //; rewrite E in c1 c4 *.
Qed.
Lemma ic_zero_iter : lgl_max_iter p = 0%N ->
  (lgl_return_n_iter p -> infimal_convolution eigh nuc pinvh S p = UnboundLocalError _) /\
  (~~ lgl_return_n_iter p -> exists r, infimal_convolution eigh nuc pinvh S p = Ok r /\
     lgl_precision r = 0 /\ lgl_latent r = 0 /\ lgl_warned r = true).
Proof.
move=> m0; rewrite /infimal_convolution /ic_loop m0 /=.
case: (lgl_return_n_iter p); split=> // _.
by eexists; split; first reflexivity.
Qed.
End Call.
