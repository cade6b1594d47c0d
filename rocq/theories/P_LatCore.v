(** Sparse plus low-rank consensus problems over a graph of times: the common mathematics of the
    latent time-varying solvers. Times 'I_T, edges E with end points l, r. *)
From Coq Require Import Reals Lra Psatz Epsilon.
From mathcomp Require Import all_ssreflect all_algebra.
From Verif Require Import RStruct RTac LinTac Spectral S_Mat RMx ADMM NP M_Prox S_Prox P_Eigh.
From Verif Require Import P_Prox P_Prox2 P_Rules M_Loop P_Loop M_GL S_GL P_GL P_GL2 M_LGL P_LGL.
From Verif Require Import M_TGL S_TGL P_TGL P_TGL2 P_Admm P_TGL3 HB P_TGL4.
Import Order.TTheory GRing.Theory Num.Theory.

Set Implicit Arguments.
Unset Strict Implicit.
Unset Printing Implicit Defensive.
Local Open Scope ring_scope.

(** two prox-type inequalities with the same data have the same solution *)
Lemma prox_mono_eq (V : lmodType R) (d : innerp V) (rho : R) (a x y : V) (hx hy : R) : 0 < rho ->
  hx + rho * d (a - x) (y - x) <= hy -> hy + rho * d (a - y) (x - y) <= hx -> x = y.
Proof.
move=> r0 h1 h2.
have h : rho * d (x - y) (x - y) <= 0.
  have -> : d (x - y) (x - y) = d (a - x) (y - x) + d (a - y) (x - y).
    have -> : y - x = - (x - y) by lin.
    rewrite ipNr -ipNl -ipDl; congr (d _ _); lin.
  by move: h1 h2; move: (d _ _) (d _ _) => u v h1 h2; clear -h1 h2; mclra.
have : d (x - y) (x - y) = 0.
  by apply/eqP; rewrite eq_le ip_ge0 andbT -(pmulr_rle0 _ r0).
by move/ip_eq0/eqP; rewrite subr_eq0 => /eqP.
Qed.

Section TraceVar.
Variables (n : nat) (eigh : eigh_t n).
Hypothesis He : eigh_ok eigh.
Lemma prox_trace_ineq A lam Y : sym A -> 0 <= lam -> psd Y ->
  let X := prox_trace_indicator eigh A lam in
  lam * \tr X + fdot (A - X) (Y - X) <= lam * \tr Y.
Proof.
move=> sA l0 pY; cbv zeta; set X := prox_trace_indicator _ _ _; have [p1 p2 c0] := prox_trace_spec He sA l0; rewrite -/X in p1 p2 c0.
have h0 := psd_fdot_ge0 p2 pY.
have -> : A - X = lam%:M - (X + lam%:M - A) by move: (lam%:M) => T; lin.
rewrite fdotBl (fdotBr Y) (fdotBr Y) c0.
have es Z : fdot lam%:M Z = lam * \tr Z.
  by rewrite -tr_fdot ?mul_scalar_mx ?mxtraceZ //; exact: tr_scalar_mx.
by rewrite !es; move: h0; move: (fdot _ _) (_ * _) (_ * _) => a b c h; clear -h; mclra.
Qed.
End TraceVar.

Section Core.
Variables (n T : nat) (E : finType) (l r : E -> 'I_T).
Definition cest : Type := {ffun E -> 'M[R]_n}.
Definition cpr : Type := (cest * cest)%type.
Canonical cest_zmod := [zmodType of cest].
Canonical cest_lmod := [lmodType R of cest].
Canonical cpr_zmod := [zmodType of cpr].
Canonical cpr_lmod := [lmodType R of cpr].
Implicit Types (K L A : stack n T) (D X : cpr).

Definition ccop K : cpr := ([ffun e => K (l e)], [ffun e => K (r e)]).
Definition cadj D : stack n T :=
  [ffun t => \sum_(e | l e == t) D.1 e + \sum_(e | r e == t) D.2 e].
Definition cdeg (t : 'I_T) : R := 1 + \sum_e (l e == t)%:R + \sum_e (r e == t)%:R.
Definition cdv : innerp [lmodType R of stack n T] := ffun_ip [finType of 'I_T] (mat_ip n n).
Definition cde : innerp [lmodType R of cpr] := pair_ip (ffun_ip E (mat_ip n n)) (ffun_ip E (mat_ip n n)).
Definition cpair (prox : 'M[R]_n -> R -> 'M[R]_n) (w : E -> R) (rho : R) (A : cpr) : cpr :=
  ([ffun e => (pair_update prox (A.1 e) (A.2 e) (w e) rho).1],
   [ffun e => (pair_update prox (A.1 e) (A.2 e) (w e) rho).2]).

Lemma cdvE K A : cdv K A = \sum_t fdot (K t) (A t). Proof. by []. Qed.
Lemma cdeE D X : cde D X = \sum_e fdot (D.1 e) (X.1 e) + \sum_e fdot (D.2 e) (X.2 e). Proof. by []. Qed.
Lemma cprD D X e : ((D + X).1 e = D.1 e + X.1 e) * ((D + X).2 e = D.2 e + X.2 e).
Proof. by split; rewrite /= ffunE. Qed.
Lemma cprN D e : ((- D).1 e = - D.1 e) * ((- D).2 e = - D.2 e).
Proof. by split; rewrite /= ffunE. Qed.
Lemma cprZ (a : R) D e : ((a *: D).1 e = a *: D.1 e) * ((a *: D).2 e = a *: D.2 e).
Proof. by split; rewrite /= ffunE. Qed.
Lemma cpr_ext D X : (forall e, D.1 e = X.1 e) -> (forall e, D.2 e = X.2 e) -> D = X.
Proof.
case: D X => [D1 D2] [X1 X2] /= h1 h2.
have -> : D1 = X1 by apply/ffunP.
by have -> : D2 = X2 by apply/ffunP.
Qed.
Lemma ccopL a K A : ccop (a *: K + A) = a *: ccop K + ccop A.
Proof. by apply: cpr_ext => e; rewrite !(cprD, cprZ) !ffunE. Qed.
Lemma ccopB K A : ccop (K - A) = ccop K - ccop A.
Proof. by apply: cpr_ext => e; rewrite !(cprD, cprN) !ffunE. Qed.
Lemma cadjL a D X : cadj (a *: D + X) = a *: cadj D + cadj X.
Proof.
apply/ffunP => t; rewrite !ffunE scalerDr !scaler_sumr addrACA -!big_split.
by congr (_ + _); apply: eq_bigr => e _; rewrite !(cprD, cprZ).
Qed.
Lemma cadj0 : cadj 0 = 0.
Proof. by have := cadjL (-1) 0 0; rewrite scaler0 addr0 scaleN1r addNr. Qed.
Lemma cadjZ a D : cadj (a *: D) = a *: cadj D.
Proof. by have := cadjL a D 0; rewrite cadj0 !addr0. Qed.
Lemma cadjB D X : cadj (D - X) = cadj D - cadj X.
Proof. by have := cadjL (-1) X D; rewrite !scaleN1r !(addrC (- _)). Qed.
Lemma cadj_adj K D : cde (ccop K) D = cdv K (cadj D).
Proof.
rewrite cdvE cdeE.
have -> : \sum_t fdot (K t) (cadj D t) =
  \sum_t fdot (K t) (\sum_(e | l e == t) D.1 e) + \sum_t fdot (K t) (\sum_(e | r e == t) D.2 e).
  by rewrite -!big_split; apply: eq_bigr => t _; rewrite !ffunE !fdotDr.
have red (h : E -> 'I_T) (X : cest) :
   \sum_t fdot (K t) (\sum_(e | h e == t) X e) = \sum_e fdot (K (h e)) (X e).
  under eq_bigr do rewrite fdot_sumr.
  rewrite (exchange_big_dep xpredT) //=; apply: eq_bigr => e _.
  by rewrite (big_pred1 (h e)) // => t /=; rewrite eq_sym.
by rewrite !red; congr (_ + _); apply: eq_bigr => e _; rewrite ffunE.
Qed.
Lemma cadj_cop K t : cadj (ccop K) t = (cdeg t - 1) *: K t.
Proof.
have red (h : E -> 'I_T) : \sum_(e | h e == t) K (h e) = (\sum_e (h e == t)%:R) *: K t.
  rewrite scaler_suml big_mkcond; apply: eq_bigr => e _; case: eqP => [->|_]; last by rewrite scale0r.
  by rewrite scale1r.
rewrite !ffunE /=.
have -> : \sum_(e | l e == t) [ffun e0 => K (l e0)] e = \sum_(e | l e == t) K (l e).
  by apply: eq_bigr => e _; rewrite ffunE.
have -> : \sum_(e | r e == t) [ffun e0 => K (r e0)] e = \sum_(e | r e == t) K (r e).
  by apply: eq_bigr => e _; rewrite ffunE.
rewrite !red -scalerDl; congr (_ *: _); rewrite /cdeg.
by move: (\sum_e _) (\sum_e _) => a b; mcring.
Qed.
Lemma cdeg_gt0 t : 0 < cdeg t.
Proof.
rewrite /cdeg -addrA; apply: ltr_paddr; last exact: ltr01.
by apply: addr_ge0; apply: sumr_ge0 => e _; rewrite ler0n.
Qed.

Lemma dgE K t : [ffun t => cdeg t *: K t] t = cdeg t *: K t.
Proof. by rewrite ffunE. Qed.

(** transposition *)
Definition stT K : stack n T := [ffun t => (K t)^T].
Definition prT D : cpr := ([ffun e => (D.1 e)^T], [ffun e => (D.2 e)^T]).
Definition stS K : stack n T := [ffun t => symmetrise (K t)].
Definition prS D : cpr := ([ffun e => symmetrise (D.1 e)], [ffun e => symmetrise (D.2 e)]).
Definition pr_sym D : Prop := (forall e, sym (D.1 e)) /\ (forall e, sym (D.2 e)).
Lemma symmetriseD (A B : 'M[R]_n) : symmetrise (A + B) = symmetrise A + symmetrise B.
Proof. by rewrite /symmetrise (_ : (A + B)^T = A^T + B^T); [|exact: linearD]; move: (A^T) (B^T) => C F; lin. Qed.
Lemma symmetrise_sum (I : finType) (P : pred I) (F : I -> 'M[R]_n) :
  symmetrise (\sum_(i | P i) F i) = \sum_(i | P i) symmetrise (F i).
Proof.
apply: (big_morph (@symmetrise n) symmetriseD).
by rewrite symmetrise_id //; exact: sym0.
Qed.
Lemma cadj_S D : cadj (prS D) = stS (cadj D).
Proof.
apply/ffunP => t; rewrite !ffunE symmetriseD !symmetrise_sum.
by congr (_ + _); apply: eq_bigr => e _; rewrite ffunE.
Qed.
Lemma fdot_symmetrise (A Y : 'M[R]_n) : fdot (symmetrise A) Y = fdot A (symmetrise Y).
Proof. by rewrite /symmetrise fdotZl fdotDl fdotZr fdotDr -[fdot A^T Y]fdot_tr trmxK. Qed.
Lemma symmetriseB (A B : 'M[R]_n) : symmetrise (A - B) = symmetrise A - symmetrise B.
Proof. by rewrite /symmetrise (_ : (A - B)^T = A^T - B^T); [|exact: linearB]; move: (A^T) (B^T) => C F; lin. Qed.

(** the four blocks *)
Variables (psi phi : 'M[R]_n -> R) (pp pf : 'M[R]_n -> R -> 'M[R]_n).
Variables (alpha tau : R) (w1 w2 : E -> R).
Definition edge_pen (psi : 'M[R]_n -> R) (w : E -> R) D : R := \sum_e w e * psi (D.2 e - D.1 e).
Definition sum_l1 K : R := \sum_t l1 (K t).
Definition sum_tr K : R := \sum_t \tr (K t).

Hypotheses (cpsi : convex_fun psi) (cphi : convex_fun phi).
Hypotheses (hpsi : prox_of psi pp) (hphi : prox_of phi pf).
Hypotheses (a0 : 0 <= alpha) (t0 : 0 <= tau) (w10 : forall e, 0 <= w1 e) (w20 : forall e, 0 <= w2 e).

Lemma cpair_ineq psi' prox (w : E -> R) (rho : R) D W : convex_fun psi' -> prox_of psi' prox -> (forall e, 0 <= w e) ->
  0 < rho -> let Z := cpair prox w rho D in
  edge_pen psi' w Z + rho * cde (D - Z) (W - Z) <= edge_pen psi' w W.
Proof.
move=> cv hp w0 r0; cbv zeta; set Z := cpair _ _ _ _; rewrite cdeE -big_split mulr_sumr -big_split; apply: ler_sum => e _ /=.
rewrite !ffunE; exact: pair_subgrad.
Qed.

Lemma cpair_fixed psi' prox (w : E -> R) (rho : R) D Z : convex_fun psi' -> prox_of psi' prox -> (forall e, 0 <= w e) ->
  0 < rho -> (forall W, edge_pen psi' w Z + rho * cde (D - Z) (W - Z) <= edge_pen psi' w W) ->
  cpair prox w rho D = Z.
Proof.
move=> cv hp w0 r0 h; symmetry.
have h2 := cpair_ineq D Z cv hp w0 r0; set Z' := cpair prox w rho D in h2 *.
exact: (prox_mono_eq r0 (h Z') h2).
Qed.

(** one iteration, for an arbitrary R-update *)
Section Step.
Variables (Rup : stack n T -> stack n T) (eigh : eigh_t n) (rho : R).
Hypothesis He : eigh_ok eigh.
Hypothesis r0 : 0 < rho.
Definition cZ0 Rm (W0 X0 : stack n T) ZE XE : stack n T :=
  [ffun t => soft_thresholding ((cdeg t)^-1 *: (Rm + W0 + X0 + cadj (ZE - XE)) t) (alpha / (rho * cdeg t))].
Definition cW0 Rm (Z0 X0 : stack n T) WE UE : stack n T :=
  [ffun t => prox_trace_indicator eigh (symmetrise ((cdeg t)^-1 *: (Z0 - Rm - X0 + cadj (WE - UE)) t))
     (tau / (rho * cdeg t))].

Lemma cZ0_ineq Rm (W0 X0 : stack n T) ZE XE Y : let Z0 := cZ0 Rm W0 X0 ZE XE in
  alpha * sum_l1 Z0 +
    rho * cdv ((Rm + W0 + X0 + cadj (ZE - XE)) - [ffun t => cdeg t *: Z0 t]) (Y - Z0) <= alpha * sum_l1 Y.
Proof.
cbv zeta; set Z0 := cZ0 _ _ _ _ _; rewrite /sum_l1 cdvE !mulr_sumr -big_split; apply: ler_sum => t _ /=.
set A := Rm + W0 + X0 + cadj _.
have d0 := cdeg_gt0 t; have dn := lt0r_neq0 d0; have rn := lt0r_neq0 r0.
have lam0 : 0 <= alpha / (rho * cdeg t) by apply: divr_ge0 => //; apply: ltW; apply: mulr_gt0.
have eZ : Z0 t = soft_thresholding ((cdeg t)^-1 *: A t) (alpha / (rho * cdeg t)) by rewrite ffunE.
have := soft_subgrad ((cdeg t)^-1 *: A t) (Y t) lam0; rewrite -eZ !stB.
have p0 : 0 < rho * cdeg t by apply: mulr_gt0.
rewrite -(ler_pmul2l p0) mulrDr -(mulrA rho (cdeg t) (fdot _ _)) -fdotZl.
have -> : cdeg t *: ((cdeg t)^-1 *: A t - Z0 t) = A t - cdeg t *: Z0 t.
  by rewrite scalerBr scalerA mulfV // scale1r.
have -> : [ffun t0 => cdeg t0 *: Z0 t0] t = cdeg t *: Z0 t by rewrite ffunE.
have ec x : rho * cdeg t * (alpha / (rho * cdeg t) * x) = alpha * x.
  by rewrite mulrA mulrCA mulfV ?mulr1 // lt0r_neq0.
by rewrite !ec.
Qed.

Lemma cZ0_fixed Rm (W0 X0 : stack n T) ZE XE Z0 :
  (forall Y, alpha * sum_l1 Z0 +
    rho * cdv ((Rm + W0 + X0 + cadj (ZE - XE)) - [ffun t => cdeg t *: Z0 t]) (Y - Z0) <= alpha * sum_l1 Y) ->
  cZ0 Rm W0 X0 ZE XE = Z0.
Proof.
move=> h; symmetry; have h2 := cZ0_ineq Rm W0 X0 ZE XE Z0; set Z' := cZ0 _ _ _ _ _ in h2 *.
have h1 := h Z'; move: h1 h2; cbv zeta; set A := Rm + W0 + X0 + cadj _ => h1 h2.
have hs : \sum_t rho * (cdeg t * fdot (Z0 t - Z' t) (Z0 t - Z' t)) <= 0.
  have -> : \sum_t rho * (cdeg t * fdot (Z0 t - Z' t) (Z0 t - Z' t)) =
    rho * (cdv (A - [ffun t => cdeg t *: Z0 t]) (Z' - Z0) + cdv (A - [ffun t => cdeg t *: Z' t]) (Z0 - Z')).
    rewrite !cdvE -big_split mulr_sumr; apply: eq_bigr => t _; congr (_ * _).
    rewrite !stB !dgE -fdotZl.
    have -> : Z' t - Z0 t = - (Z0 t - Z' t) by lin.
    rewrite fdotNr -fdotNl [RHS]/= -fdotDl; congr (fdot _ _); move: (A t) (Z0 t) (Z' t) => a b c; lin.
  move: h1 h2; move: (cdv _ _) (cdv _ _) (_ * sum_l1 _) (_ * sum_l1 _) => a b c d h1 h2.
  by clear -h1 h2; mclra.
apply/ffunP => t; apply/eqP; rewrite -subr_eq0; apply/eqP; apply: fdotAA_eq0.
have pos u : 0 <= rho * (cdeg u * fdot (Z0 u - Z' u) (Z0 u - Z' u)).
  by apply: mulr_ge0; [exact: ltW | apply: mulr_ge0; [exact: ltW (cdeg_gt0 u) | exact: fdotAA_ge0]].
have : \sum_t rho * (cdeg t * fdot (Z0 t - Z' t) (Z0 t - Z' t)) = 0.
  by apply/eqP; rewrite eq_le hs sumr_ge0.
move/psumr_eq0P => /(_ (fun i _ => pos i) t isT)/eqP.
rewrite !mulf_eq0 (negbTE (lt0r_neq0 r0)) (negbTE (lt0r_neq0 (cdeg_gt0 t))) /=.
by move/eqP.
Qed.

Lemma cW0_psd Rm (Z0 X0 : stack n T) WE UE : slices (@psd n) (cW0 Rm Z0 X0 WE UE).
Proof.
move=> t; rewrite ffunE; have d0 := cdeg_gt0 t.
have lam0 : 0 <= tau / (rho * cdeg t) by apply: divr_ge0 => //; apply: ltW; apply: mulr_gt0.
by have [] := prox_trace_spec He (symmetrise_sym ((cdeg t)^-1 *: (Z0 - Rm - X0 + cadj (WE - UE)) t)) lam0.
Qed.

Lemma cW0_ineq Rm (Z0 X0 : stack n T) WE UE (Y : stack n T) : slices (@psd n) Y -> let W0 := cW0 Rm Z0 X0 WE UE in
  tau * sum_tr W0 +
    rho * cdv ((Z0 - Rm - X0 + cadj (WE - UE)) - [ffun t => cdeg t *: W0 t]) (Y - W0) <= tau * sum_tr Y.
Proof.
move=> pY; cbv zeta; set W0 := cW0 _ _ _ _ _; rewrite /sum_tr cdvE !mulr_sumr -big_split; apply: ler_sum => t _ /=.
set A := Z0 - Rm - X0 + cadj _.
have d0 := cdeg_gt0 t; have dn := lt0r_neq0 d0; have rn := lt0r_neq0 r0.
have lam0 : 0 <= tau / (rho * cdeg t) by apply: divr_ge0 => //; apply: ltW; apply: mulr_gt0.
have sA := symmetrise_sym ((cdeg t)^-1 *: A t).
have eZ : W0 t = prox_trace_indicator eigh (symmetrise ((cdeg t)^-1 *: A t)) (tau / (rho * cdeg t)) by rewrite ffunE.
have := prox_trace_ineq He sA lam0 (pY t); rewrite /= -eZ !stB.
have pW := cW0_psd Rm Z0 X0 WE UE t; rewrite -/W0 in pW.
have p0 : 0 < rho * cdeg t by apply: mulr_gt0.
rewrite -(ler_pmul2l p0) mulrDr -(mulrA rho (cdeg t) (fdot _ _)) -fdotZl.
have -> : fdot (cdeg t *: (symmetrise ((cdeg t)^-1 *: A t) - W0 t)) (Y t - W0 t) =
  fdot (A t - cdeg t *: W0 t) (Y t - W0 t).
  rewrite symmetriseZ scalerBr scalerA mulfV // scale1r !fdotBl; congr (_ - _).
  rewrite /symmetrise fdot_asym //; apply: symB; exact: psd_sym.
have -> : [ffun t0 => cdeg t0 *: W0 t0] t = cdeg t *: W0 t by rewrite ffunE.
have ec x : rho * cdeg t * (tau / (rho * cdeg t) * x) = tau * x.
  by rewrite mulrA mulrCA mulfV ?mulr1 // lt0r_neq0.
by rewrite !ec.
Qed.

Lemma cW0_fixed Rm (Z0 X0 : stack n T) WE UE (W0 : stack n T) : slices (@psd n) W0 ->
  (forall Y : stack n T, slices (@psd n) Y -> tau * sum_tr W0 +
    rho * cdv ((Z0 - Rm - X0 + cadj (WE - UE)) - [ffun t => cdeg t *: W0 t]) (Y - W0) <= tau * sum_tr Y) ->
  cW0 Rm Z0 X0 WE UE = W0.
Proof.
move=> pW h; symmetry; have h2 := cW0_ineq Rm Z0 X0 WE UE pW.
have h1 := h _ (cW0_psd Rm Z0 X0 WE UE); set Z' := cW0 _ _ _ _ _ in h1 h2 *.
move: h1 h2; cbv zeta; set A := Z0 - Rm - X0 + cadj _ => h1 h2.
have hs : \sum_t rho * (cdeg t * fdot (W0 t - Z' t) (W0 t - Z' t)) <= 0.
  have -> : \sum_t rho * (cdeg t * fdot (W0 t - Z' t) (W0 t - Z' t)) =
    rho * (cdv (A - [ffun t => cdeg t *: W0 t]) (Z' - W0) + cdv (A - [ffun t => cdeg t *: Z' t]) (W0 - Z')).
    rewrite !cdvE -big_split mulr_sumr; apply: eq_bigr => t _; congr (_ * _).
    rewrite !stB !dgE -fdotZl.
    have -> : Z' t - W0 t = - (W0 t - Z' t) by lin.
    rewrite fdotNr -fdotNl [RHS]/= -fdotDl; congr (fdot _ _); move: (A t) (W0 t) (Z' t) => a b c; lin.
  move: h1 h2; move: (cdv _ _) (cdv _ _) (_ * sum_tr _) (_ * sum_tr _) => a b c d h1 h2.
  by clear -h1 h2; mclra.
apply/ffunP => t; apply/eqP; rewrite -subr_eq0; apply/eqP; apply: fdotAA_eq0.
have pos u : 0 <= rho * (cdeg u * fdot (W0 u - Z' u) (W0 u - Z' u)).
  by apply: mulr_ge0; [exact: ltW | apply: mulr_ge0; [exact: ltW (cdeg_gt0 u) | exact: fdotAA_ge0]].
have : \sum_t rho * (cdeg t * fdot (W0 t - Z' t) (W0 t - Z' t)) = 0.
  by apply/eqP; rewrite eq_le hs sumr_ge0.
move/psumr_eq0P => /(_ (fun i _ => pos i) t isT)/eqP.
rewrite !mulf_eq0 (negbTE (lt0r_neq0 r0)) (negbTE (lt0r_neq0 (cdeg_gt0 t))) /=.
by move/eqP.
Qed.

(** the R-update minimises f + rho/2 |. - A|^2 over Dm *)
Variables (f : stack n T -> R) (Dm PA : stack n T -> Prop).
Hypothesis Rspec : forall A, PA A -> Dm (Rup A) /\
  forall Y, Dm Y -> f (Rup A) + rho * cdv (A - Rup A) (Y - Rup A) <= f Y.

(** stationarity conditions *)
Definition ckkt K L (X0 : stack n T) XE UE : Prop :=
  [/\ slices (@psd n) L /\ Dm (K - L),
      forall Y, Dm Y -> f (K - L) + rho * cdv (- X0) (Y - (K - L)) <= f Y,
      forall Y, alpha * sum_l1 K + rho * cdv (X0 - cadj XE) (Y - K) <= alpha * sum_l1 Y,
      forall Y : stack n T, slices (@psd n) Y -> tau * sum_tr L + rho * cdv (- X0 - cadj UE) (Y - L) <= tau * sum_tr Y &
      (forall W, edge_pen psi w1 (ccop K) + rho * cde XE (W - ccop K) <= edge_pen psi w1 W) /\
      (forall W, edge_pen phi w2 (ccop L) + rho * cde UE (W - ccop L) <= edge_pen phi w2 W)].

(** one iteration *)
Definition cstep (v : stack n T * cpr * stack n T * cpr) (d : stack n T * cpr * cpr)
    (Rm : stack n T) (v' : stack n T * cpr * stack n T * cpr) (d' : stack n T * cpr * cpr) : Prop :=
  let: (Za, ZE, Wa, WE) := v in let: (Xa, XE, UE) := d in
  let: (Za', ZE', Wa', WE') := v' in let: (Xa', XE', UE') := d' in
  [/\ Rm = Rup (Za - Wa - Xa), Za' = cZ0 Rm Wa Xa ZE XE, Wa' = cW0 Rm Za' Xa WE UE,
      ZE' = cpair pp w1 rho (ccop Za' + XE) /\ WE' = cpair pf w2 rho (ccop Wa' + UE) &
      [/\ Xa' = Xa + (Rm - Za' + Wa'), XE' = XE + (ccop Za' - ZE') & UE' = UE + (ccop Wa' - WE')]].

Definition cobj (KL : stack n T * stack n T) : R :=
  f (KL.1 - KL.2) + alpha * sum_l1 KL.1 + tau * sum_tr KL.2
  + edge_pen psi w1 (ccop KL.1) + edge_pen phi w2 (ccop KL.2).
Definition cfeas (KL : stack n T * stack n T) : Prop := slices (@psd n) KL.2 /\ Dm (KL.1 - KL.2).

Lemma ckkt_opt K L (X0 : stack n T) XE UE : ckkt K L X0 XE UE -> minimiser cfeas cobj (K, L).
Proof.
move=> [fe hf hK hL [h1 h2]]; split=> // -[K' L'] [/= pL' pD]; rewrite /cobj /=.
have := hf _ pD; have := hK K'; have := hL _ pL'; have := h1 (ccop K'); have := h2 (ccop L').
rewrite -!ccopB !(ipC cde _ (ccop _)) !cadj_adj !(ipC cdv _ (cadj _)).
have -> : K' - L' - (K - L) = (K' - K) - (L' - L) by lin.
rewrite !ipBl !ipNl !(ipBr _ _ (K' - K) (L' - L)).
move: (cdv _ _) (cdv _ _) (cdv _ _) (cdv _ _) (f _) (f _) (edge_pen _ _ _) (edge_pen _ _ _) => a b c d f1 f2 e1 e2.
move: (edge_pen _ _ _) (edge_pen _ _ _) (_ * sum_l1 _) (_ * sum_l1 _) (_ * sum_tr _) (_ * sum_tr _).
by clear; move=> e3 e4 s1 s2 s3 s4 g1 g2 g3 g4 g5; mclra.
Qed.

Lemma cstep_fixed (Z0 : stack n T) ZE (W0 : stack n T) WE (X0 : stack n T) XE UE Rm : PA (Z0 - W0 - X0) ->
  cstep (Z0, ZE, W0, WE) (X0, XE, UE) Rm (Z0, ZE, W0, WE) (X0, XE, UE) ->
  [/\ Rm = Z0 - W0, ZE = ccop Z0, WE = ccop W0 & ckkt Z0 W0 X0 XE UE].
Proof.
move=> pA [eR eZ eW [eZE eWE] [eX eXE eUE]].
have e1 : Rm = Z0 - W0.
  have -> : Rm = (X0 + (Rm - Z0 + W0)) - X0 + Z0 - W0 by lin.
  by rewrite -eX; lin.
have e2 : ZE = ccop Z0.
  have h : ccop Z0 - ZE = 0 by rewrite -[LHS](addKr XE) -eXE addNr.
  by apply/eqP; rewrite eq_sym -subr_eq0 h.
have e3 : WE = ccop W0.
  have h : ccop W0 - WE = 0 by rewrite -[LHS](addKr UE) -eUE addNr.
  by apply/eqP; rewrite eq_sym -subr_eq0 h.
split=> //; rewrite {}e2 {}e3 in eZ eW eZE eWE *; rewrite e1 in eR eZ eW.
have [dR hR] := Rspec pA; rewrite -eR in dR hR.
have pW : slices (@psd n) W0 by rewrite eW; apply: cW0_psd.
split=> //.
- move=> Y dY; have := hR Y dY.
  by have -> : Z0 - W0 - X0 - (Z0 - W0) = - X0 by lin.
- move=> Y; have := cZ0_ineq (Z0 - W0) W0 X0 (ccop Z0) XE Y; rewrite /= -eZ.
  suff -> : Z0 - W0 + W0 + X0 + cadj (ccop Z0 - XE) - [ffun t => cdeg t *: Z0 t] = X0 - cadj XE by [].
  apply/ffunP => t; rewrite cadjB !(stD, stN) cadj_cop.
  have -> : [ffun t0 => cdeg t0 *: Z0 t0] t = cdeg t *: Z0 t by rewrite ffunE.
  by move: (Z0 t) (W0 t) (X0 t) (cadj XE t) => a b c d; lin.
- move=> Y pY; have := cW0_ineq (Z0 - W0) Z0 X0 (ccop W0) UE pY; rewrite /= -eW.
  suff -> : Z0 - (Z0 - W0) - X0 + cadj (ccop W0 - UE) - [ffun t => cdeg t *: W0 t] = - X0 - cadj UE by [].
  apply/ffunP => t; rewrite cadjB !(stD, stN) cadj_cop.
  have -> : [ffun t0 => cdeg t0 *: W0 t0] t = cdeg t *: W0 t by rewrite ffunE.
  by move: (Z0 t) (W0 t) (X0 t) (cadj UE t) => a b c d; lin.
- split=> W.
    have := cpair_ineq (ccop Z0 + XE) W cpsi hpsi w10 r0; rewrite /= -eZE.
    by have -> : ccop Z0 + XE - ccop Z0 = XE by lin.
  have := cpair_ineq (ccop W0 + UE) W cphi hphi w20 r0; rewrite /= -eWE.
  by have -> : ccop W0 + UE - ccop W0 = UE by lin.
Qed.

Lemma ckkt_fixed K L (X0 : stack n T) XE UE : PA (K - L - X0) -> ckkt K L X0 XE UE ->
  cstep (K, ccop K, L, ccop L) (X0, XE, UE) (K - L) (K, ccop K, L, ccop L) (X0, XE, UE).
Proof.
move=> pA [[pL dR] hf hK hL [h1 h2]].
have eR : K - L = Rup (K - L - X0).
  have [dR' hR'] := Rspec pA; apply: (prox_mono_eq r0 _ (hR' _ dR)).
  have -> : K - L - X0 - (K - L) = - X0 by lin.
  exact: hf.
have eZ : cZ0 (K - L) L X0 (ccop K) XE = K.
  apply: cZ0_fixed => Y; have := hK Y.
  suff -> : K - L + L + X0 + cadj (ccop K - XE) - [ffun t => cdeg t *: K t] = X0 - cadj XE by [].
  apply/ffunP => t; rewrite cadjB !(stD, stN) cadj_cop.
  have -> : [ffun t0 => cdeg t0 *: K t0] t = cdeg t *: K t by rewrite ffunE.
  by move: (K t) (L t) (X0 t) (cadj XE t) => a b c d; lin.
have eW : cW0 (K - L) K X0 (ccop L) UE = L.
  apply: cW0_fixed => // Y pY; have := hL Y pY.
  suff -> : K - (K - L) - X0 + cadj (ccop L - UE) - [ffun t => cdeg t *: L t] = - X0 - cadj UE by [].
  apply/ffunP => t; rewrite cadjB !(stD, stN) cadj_cop.
  have -> : [ffun t0 => cdeg t0 *: L t0] t = cdeg t *: L t by rewrite ffunE.
  by move: (K t) (L t) (X0 t) (cadj UE t) => a b c d; lin.
split=> //.
- split; symmetry; apply: cpair_fixed; [exact: cpsi|by []|by []|by []| |exact: cphi|by []|by []|by []| ] => W.
    by have -> : ccop K + XE - ccop K = XE by lin.
  by have -> : ccop L + UE - ccop L = UE by lin.
- by split; [lin | rewrite subrr addr0 | rewrite subrr addr0].
Qed.
End Step.

(** * an optimum satisfies the stationarity conditions *)
Lemma edge_pen_convex psi' w D X (t : R) : convex_fun psi' -> (forall e, 0 <= w e) -> 0 <= t -> t <= 1 ->
  edge_pen psi' w ((1 - t) *: D + t *: X) <= (1 - t) * edge_pen psi' w D + t * edge_pen psi' w X.
Proof.
move=> cv w0 t00 t1; rewrite /edge_pen !mulr_sumr -big_split; apply: ler_sum => e _.
rewrite [X in _ <= X]/= (mulrCA (1 - t)) (mulrCA t (w _)) -mulrDr; apply: ler_wpmul2l => //.
apply: le_trans (cv _ _ _ t00 t1); rewrite !cprD !cprZ.
suff -> : (1 - t) *: D.2 e + t *: X.2 e - ((1 - t) *: D.1 e + t *: X.1 e)
     = (1 - t) *: (D.2 e - D.1 e) + t *: (X.2 e - X.1 e) by [].
by move: (D.2 e) (X.2 e) (D.1 e) (X.1 e) => a b c d; lin.
Qed.

Lemma edge_pen_T psi' w D : (forall x, psi' x^T = psi' x) -> edge_pen psi' w (prT D) = edge_pen psi' w D.
Proof. by move=> h; apply: eq_bigr => e _; rewrite !ffunE -linearB h. Qed.
Lemma sum_l1T K : sum_l1 (stT K) = sum_l1 K.
Proof. by apply: eq_bigr => t _; rewrite ffunE l1T. Qed.

Lemma half_avg (h a b c : R) : h + a <= c -> h + b <= c -> h + 2%:R^-1 * (a + b) <= c.
Proof. by move=> h1 h2; mclra. Qed.

Lemma subg_stS (h : stack n T -> R) K y : slices (@sym n) K -> (forall A, h (stT A) = h A) ->
  (forall W, h K + cdv y (W - K) <= h W) -> forall W, h K + cdv (stS y) (W - K) <= h W.
Proof.
move=> sK hT hy W; have := half_avg (hy W) (_ : h K + cdv y (stT W - K) <= h W).
have -> : 2%:R^-1 * (cdv y (W - K) + cdv y (stT W - K)) = cdv (stS y) (W - K).
  rewrite !cdvE -big_split mulr_sumr; apply: eq_bigr => t _.
  rewrite [(stS y) t]ffunE fdot_symmetrise !stB symmetriseB (symmetrise_id (sK t)) /= ffunE -fdotDr -fdotZr.
  by congr (fdot _ _); rewrite /symmetrise; move: (W t)^T => B; lin.
by apply; rewrite -(hT W); exact: hy.
Qed.

Lemma subg_prS (h : cpr -> R) D y : pr_sym D -> (forall X, h (prT X) = h X) ->
  (forall W, h D + cde y (W - D) <= h W) -> forall W, h D + cde (prS y) (W - D) <= h W.
Proof.
move=> [s1 s2] hT hy W; have := half_avg (hy W) (_ : h D + cde y (prT W - D) <= h W).
have -> : 2%:R^-1 * (cde y (W - D) + cde y (prT W - D)) = cde (prS y) (W - D).
  rewrite !cdeE addrACA mulrDr; congr (_ + _); rewrite -big_split mulr_sumr; apply: eq_bigr => e _.
    rewrite [(prS y).1 e]ffunE fdot_symmetrise !cprD !cprN symmetriseB (symmetrise_id (s1 e)) /= ffunE -fdotDr -fdotZr.
    by congr (fdot _ _); rewrite /symmetrise; move: (W.1 e)^T => B; lin.
  rewrite [(prS y).2 e]ffunE fdot_symmetrise !cprD !cprN symmetriseB (symmetrise_id (s2 e)) /= ffunE -fdotDr -fdotZr.
  by congr (fdot _ _); rewrite /symmetrise; move: (W.2 e)^T => B; lin.
by apply; rewrite -(hT W); exact: hy.
Qed.

Lemma ccop_sym K : slices (@sym n) K -> pr_sym (ccop K).
Proof. by move=> h; split=> e; rewrite ffunE. Qed.

Section Opt.
Variables (f : stack n T -> R) (Dm : stack n T -> Prop).
Hypothesis Dsym : forall K, Dm K -> slices (@sym n) K.
Hypotheses (psiT : forall x, psi x^T = psi x) (phiT : forall x, phi x^T = phi x).
Variables (K L c : stack n T).
Hypothesis cs : slices (@sym n) c.
Hypothesis fc : forall Y, Dm Y -> f (K - L) + cdv c (Y - (K - L)) <= f Y.
Hypothesis fs : forall v : stack n T, slices (@sym n) v -> exists C d : R, [/\ 0 < d, 0 <= C &
  forall t, 0 < t -> t <= d ->
    Dm (K - L + t *: v) /\ f (K - L + t *: v) <= f (K - L) + t * cdv c v + C * t ^+ 2].
Hypothesis opt : minimiser (cfeas Dm) (cobj f) (K, L).

Lemma opt_pL : slices (@psd n) L. Proof. by case: opt => -[]. Qed.
Lemma opt_D : Dm (K - L). Proof. by case: opt => -[]. Qed.
Lemma opt_sK : slices (@sym n) K.
Proof.
move=> t; have := Dsym opt_D t; rewrite stB => h.
have -> : K t = (K t - L t) + L t by rewrite subrK.
by apply: symD => //; apply: psd_sym; apply: opt_pL.
Qed.

Lemma onb_stack : HB.onb cdv. Proof. by apply: onb_ffun; apply: onb_mat. Qed.
Lemma onb_cpr : HB.onb cde. Proof. by apply: onb_pair; apply: onb_ffun; apply: onb_mat. Qed.

Let kw : innerp [lmodType R of stack n T * cpr] := pair_ip cdv cde.
Lemma opt_K_block : exists y0 yE, [/\ forall W, alpha * sum_l1 K + cdv y0 (W - K) <= alpha * sum_l1 W,
   forall W, edge_pen psi w1 (ccop K) + cde yE (W - ccop K) <= edge_pen psi w1 W &
   forall v : stack n T, slices (@sym n) v -> cdv y0 v + cde yE (ccop v) = - cdv c v].
Proof.
pose B (X : stack n T) : stack n T * cpr := (X, ccop X).
pose g (W : stack n T * cpr) := alpha * sum_l1 W.1 + edge_pen psi w1 W.2.
have BL a x y : B (a *: x + y) = a *: B x + B y by rewrite /B ccopL.
have [I [es ho]] : HB.onb kw by apply: onb_pair; [exact: onb_stack | exact: onb_cpr].
have gc x y (t : R) : 0 <= t -> t <= 1 -> g ((1 - t) *: x + t *: y) <= (1 - t) * g x + t * g y.
  move=> s0 s1; rewrite /g /=.
  have h1 : sum_l1 ((1 - t) *: x.1 + t *: y.1) <= (1 - t) * sum_l1 x.1 + t * sum_l1 y.1.
    rewrite /sum_l1 !mulr_sumr -big_split; apply: ler_sum => i _; cbv beta.
    by rewrite stD !stZ; apply: l1_convex.
  have := ler_add (ler_wpmul2l a0 h1) (edge_pen_convex x.2 y.2 cpsi w10 s0 s1).
  move: (sum_l1 _) (sum_l1 _) (sum_l1 _) (edge_pen _ _ _) (edge_pen _ _ _) (edge_pen _ _ _).
  by clear; move=> u v w z s q h; mclra.
have op (v : stack n T) : slices (@sym n) v -> exists C d : R, [/\ 0 < d, 0 <= C &
  forall t, 0 < t -> t <= d -> g (B K) <= g (B (K + t *: v)) + t * cdv c v + C * t ^+ 2].
  move=> sv; have [C [d [d0 C0 h]]] := fs sv; exists C, d; split=> // t s0 sd.
  have [h1 h2] := h t s0 sd.
  have e : K + t *: v - L = K - L + t *: v by rewrite addrAC.
  have fe : cfeas Dm (K + t *: v, L) by split=> /=; [exact: opt_pL | rewrite e].
  have := (proj2 opt) _ fe; rewrite /cobj /g /B; cbn [fst snd]; rewrite e.
  move: h2; move: (f _) (f _) (cdv _ _) (sum_l1 _) (sum_l1 _) (sum_tr _) => u v' w z s q.
  move: (edge_pen _ _ _) (edge_pen _ _ _) (edge_pen _ _ _).
  by clear; move=> a b c' h1 h2; mclra.
have V0 : slices (@sym n) (0 : stack n T) by move=> t; rewrite ffunE; apply: sym0.
have VD (u v : stack n T) : slices (@sym n) u -> slices (@sym n) v -> slices (@sym n) (u + v).
  by move=> h1 h2 t; rewrite stD; apply: symD.
have VZ (a : R) (u : stack n T) : 0 < a -> slices (@sym n) u -> slices (@sym n) (a *: u).
  by move=> _ h t; rewrite stZ; apply: symZ.
have VN (u : stack n T) : slices (@sym n) u -> slices (@sym n) (- u).
  by move=> h t; rewrite stN; apply: symN.
have [[y0 yE] [hy1 hy2]] := multiplier (dv := cdv) BL ho gc V0 VD VZ op VN.
exists y0, yE; split.
- move=> W; have := hy1 (W, ccop K); rewrite /g; cbn [fst snd].
  have -> : kw (y0, yE) ((W, ccop K) - B K) = cdv y0 (W - K) + cde yE (ccop K - ccop K) by [].
  rewrite subrr ip0r addr0.
  by move: (sum_l1 _) (sum_l1 _) (edge_pen _ _ _) (cdv _ _); clear; move=> a b d e h; mclra.
- move=> W; have := hy1 (K, W); rewrite /g; cbn [fst snd].
  have -> : kw (y0, yE) ((K, W) - B K) = cdv y0 (K - K) + cde yE (W - ccop K) by [].
  rewrite subrr ip0r add0r.
  by move: (sum_l1 _) (edge_pen _ _ _) (edge_pen _ _ _) (cde _ _); clear; move=> a b d e h; mclra.
- by move=> v sv; exact: (hy2 v sv).
Qed.

Lemma opt_L_block : exists yU,
   (forall W, edge_pen phi w2 (ccop L) + cde yU (W - ccop L) <= edge_pen phi w2 W) /\
   forall Y : stack n T, slices (@psd n) Y ->
     tau * sum_tr L + cdv (c - cadj yU) (Y - L) <= tau * sum_tr Y.
Proof.
pose V0 (v : stack n T) := exists a : R, 0 < a /\ slices (@psd n) (L + a *: v).
pose c' : stack n T := [ffun t => tau%:M - c t].
have [I [es ho]] := onb_cpr.
have gc x y (t : R) : 0 <= t -> t <= 1 ->
   edge_pen phi w2 ((1 - t) *: x + t *: y) <= (1 - t) * edge_pen phi w2 x + t * edge_pen phi w2 y.
  by move=> s0 s1; apply: edge_pen_convex.
have V00 : V0 0 by exists 1; split; [exact: ltr01 | rewrite scaler0 addr0; exact: opt_pL].
have V0D u v : V0 u -> V0 v -> V0 (u + v).
  move=> [a [p1 h1]] [b [p2 h2]]; have ps : 0 < a + b by apply: addr_gt0.
  exists (a * b / (a + b)); split; first by apply: divr_gt0 => //; apply: mulr_gt0.
  move=> t; have -> : (L + (a * b / (a + b)) *: (u + v)) t =
    (b / (a + b)) *: (L + a *: u) t + (a / (a + b)) *: (L + b *: v) t.
    rewrite !(stD, stZ); move: (L t) (u t) (v t) (lt0r_neq0 ps) => x y z nz; lin.
  by apply: psdD; apply: psdZ => //; apply: divr_ge0; apply: ltW.
have V0Z a u : 0 < a -> V0 u -> V0 (a *: u).
  move=> p [b [q h]]; exists (b / a); split; first exact: divr_gt0.
  by rewrite scalerA divfK ?lt0r_neq0.
have trE v : cdv c' v = tau * sum_tr v - cdv c v.
  rewrite !cdvE /sum_tr mulr_sumr -sumrB; apply: eq_bigr => t _; rewrite ffunE fdotBl; congr (_ - _).
  by rewrite -tr_fdot ?mul_scalar_mx ?mxtraceZ //; exact: tr_scalar_mx.
have op (v : stack n T) : V0 v -> exists C d : R, [/\ 0 < d, 0 <= C &
  forall t, 0 < t -> t <= d -> edge_pen phi w2 (ccop L) <=
    edge_pen phi w2 (ccop (L + t *: v)) + t * cdv c' v + C * t ^+ 2].
  move=> [a [pa ha]].
  have sv : slices (@sym n) (- v).
    move=> t; have := psd_sym (ha t); rewrite stD stZ stN => h.
    have -> : - v t = - (a^-1 *: ((L t + a *: v t) - L t)).
      by have an := lt0r_neq0 pa; move: (L t) (v t) => x y; lin.
    by apply: symN; apply: symZ; apply: symB => //; apply: psd_sym; apply: opt_pL.
  have [C [d [d0 C0 h]]] := fs sv.
  have [m1 m2 m3] := np_minP d a.
  exists C, (np_min d a); split=> //; first by case: m3 => ->.
  move=> t s0 sd; have [h1 h2] := h t s0 (le_trans sd m1).
  have e : K - (L + t *: v) = K - L + t *: (- v) by lin.
  have pT : slices (@psd n) (L + t *: v).
    move=> i; have -> : (L + t *: v) i = (1 - t / a) *: L i + (t / a) *: (L + a *: v) i.
      rewrite !(stD, stZ); have an := lt0r_neq0 pa; move: (L i) (v i) => x y; lin.
    apply: psdD; apply: psdZ => //; last by apply: divr_ge0; apply: ltW.
      by rewrite subr_ge0 ler_pdivr_mulr // mul1r; apply: le_trans m2.
    exact: opt_pL.
  have fe : cfeas Dm (K, L + t *: v) by split=> //=; rewrite e.
  have := (proj2 opt) _ fe; rewrite /cobj; cbn [fst snd]; rewrite e trE.
  have -> : sum_tr (L + t *: v) = sum_tr L + t * sum_tr v.
    by rewrite /sum_tr mulr_sumr -big_split; apply: eq_bigr => i _; rewrite stD stZ mxtraceD mxtraceZ.
  move: h2; rewrite ipNr; move: (f _) (f _) (cdv _ _) (sum_l1 _) (sum_tr _) (sum_tr _) => u v' w z s q.
  move: (edge_pen _ _ _) (edge_pen _ _ _) (edge_pen _ _ _).
  by clear; move=> a b c' h1 h2; mclra.
have [yU [hy1 hy2]] := multiplier_cone (dv := cdv) ccopL ho gc V00 V0D V0Z op.
exists yU; split=> // Y pY.
have vY : V0 (Y - L).
  by exists 1; split; [exact: ltr01 | rewrite scale1r (addrC L) subrK].
have := hy2 _ vY; rewrite trE (ipC cde) cadj_adj.
have -> : cdv (c - cadj yU) (Y - L) = cdv c (Y - L) - cdv (Y - L) (cadj yU).
  by rewrite (ipC cdv (Y - L)); exact: ipBl.
have -> : sum_tr (Y - L) = sum_tr Y - sum_tr L.
  by rewrite /sum_tr -sumrB; apply: eq_bigr => i _; rewrite stB linearB.
move: (cdv _ _) (cdv _ _) (sum_tr _) (sum_tr _); clear; move=> a b d e h; mclra.
Qed.

Lemma opt_ckkt rho : 0 < rho -> exists (X0 : stack n T) XE UE, [/\ ckkt rho f Dm K L X0 XE UE,
  slices (@sym n) X0, pr_sym XE & pr_sym UE].
Proof.
move=> r0; have rn := lt0r_neq0 r0.
have [y0 [yE [h0 hE hv]]] := opt_K_block; have [yU [hU hL]] := opt_L_block.
have sK := opt_sK; have sL t := psd_sym (opt_pL t).
have h0s := subg_stS sK (fun X : stack n T => congr1 (fun z => alpha * z) (sum_l1T X)) h0.
have hEs := subg_prS (ccop_sym sK) (fun X => edge_pen_T w1 X psiT) hE.
have hUs := subg_prS (ccop_sym sL) (fun X => edge_pen_T w2 X phiT) hU.
have ec : stS y0 + cadj (prS yE) = - c.
  apply/eqP; rewrite -subr_eq0 opprK; apply/eqP; set G := _ + c.
  have sG : slices (@sym n) G.
    move=> t; rewrite /G cadj_S !stD; apply: symD => //.
    by apply: symD; rewrite ffunE; apply: symmetrise_sym.
  apply: (@ip_eq0 _ cdv); rewrite {1}/G ipDl ipDl.
  have e1 : cdv (stS y0) G = cdv y0 G.
    by apply: eq_bigr => t _; rewrite /= ffunE /symmetrise fdot_asym.
  have e2 : cdv (cadj (prS yE)) G = cdv (cadj yE) G.
    by rewrite cadj_S; apply: eq_bigr => t _; rewrite /= ffunE /symmetrise fdot_asym.
  by rewrite e1 e2 (ipC cdv (cadj _)) -cadj_adj (ipC cde) hv // addNr.
have rZ (a b : stack n T) : rho * cdv (rho^-1 *: a) b = cdv a b by rewrite ipZl mulrA mulfV // mul1r.
have rZE a b : rho * cde (rho^-1 *: a) b = cde a b by rewrite ipZl mulrA mulfV // mul1r.
exists (- (rho^-1 *: c)), (rho^-1 *: prS yE), (rho^-1 *: prS yU); split.
- split.
  + by split; [exact: opt_pL | exact: opt_D].
  + by move=> Y dY; rewrite opprK rZ; apply: fc.
  + move=> Y; rewrite cadjZ.
    have -> : - (rho^-1 *: c) - rho^-1 *: cadj (prS yE) = rho^-1 *: (- c - cadj (prS yE)).
      by move: (cadj _) => X; lin.
    rewrite rZ -ec addrK; exact: h0s.
  + move=> Y pY; rewrite cadjZ opprK.
    have -> : rho^-1 *: c - rho^-1 *: cadj (prS yU) = rho^-1 *: (c - cadj (prS yU)).
      by move: (cadj _) => X; lin.
    rewrite rZ; have := hL Y pY.
    suff -> : cdv (c - cadj yU) (Y - L) = cdv (c - cadj (prS yU)) (Y - L) by [].
    rewrite !ipBl; congr (_ - _); rewrite cadj_S; apply: eq_bigr => t _.
    rewrite /= [in RHS]ffunE /symmetrise fdot_asym //; rewrite stB; apply: symB => //; exact: psd_sym.
  + by split=> W; rewrite rZE.
- by move=> t; rewrite stN stZ; apply: symN; apply: symZ.
- by split=> e; rewrite cprZ; apply: symZ; rewrite ffunE; apply: symmetrise_sym.
- by split=> e; rewrite cprZ; apply: symZ; rewrite ffunE; apply: symmetrise_sym.
Qed.
End Opt.
End Core.
