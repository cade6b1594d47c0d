(** The Poisson loop, and the Ising loop on single-sample data. *)
From Coq Require Import Reals Lra Psatz.
From mathcomp Require Import all_ssreflect all_algebra.
From Verif Require Import Calc RStruct RTac LinTac Spectral S_Mat RMx ADMM NP M_Prox M_Loop M_LGL M_Stab P_Prox P_Rules M_GLM S_GLM P_GLM P_GLM2 P_GLM3.
Import Order.TTheory GRing.Theory Num.Theory.

Set Implicit Arguments.
Unset Strict Implicit.
Unset Printing Implicit Defensive.
Local Open Scope ring_scope.

Section Poisson.
Variables (n d : nat) (X : 'M[R]_(n, d.+1)) (r : 'I_d.+1).
Local Notation psm := (psm X r).
Definition pF al theta : R := psm theta + al * l1 theta.

Lemma psm_nll theta : psm theta = poisson_nll (col' r X) (col r X) theta.
Proof.
rewrite psmE /poisson_nll /sample_mean mulrC; congr (_ / _); apply: eq_bigr => i _.
by rewrite [col r X i 0]mxE.
Qed.
Lemma poisson_objective1E theta al : poisson_objective1 X theta r al = pF al theta.
Proof. by []. Qed.

Lemma two_steps al gam g (x : 'cV[R]_d) : 0 <= al -> 0 < gam ->
  forall x1 t, x1 = pstep al gam g x -> t = pstep al gam g x1 ->
  fdot g (t - x) + al * l1 t + (fnorm2 (t - x1) + fnorm2 (x1 - x)) / gam <= al * l1 x.
Proof.
move=> a0 g0 x1 t e1 e2.
have h1 := @soft_step_self _ _ x g al gam a0 g0 x1 e1.
have h2 := @soft_step_self _ _ x1 g al gam a0 g0 t e2.
have e : fdot g (t - x) = fdot g (t - x1) + fdot g (x1 - x) by rewrite -fdotDr; congr fdot; lin.
rewrite e mulrDl; move: h1 h2.
move: (fdot g (t - x1)) (fdot g (x1 - x)) (al * l1 x) (al * l1 x1) (al * l1 t) (fnorm2 (t - x1) / gam) (fnorm2 (x1 - x) / gam) => *; mclra.
Qed.
Lemma fnorm2_two (x x1 t : 'cV[R]_d) : fnorm2 (t - x) <= 2%:R * (fnorm2 (t - x1) + fnorm2 (x1 - x)).
Proof.
have -> : t - x = (t - x1) + (x1 - x) by lin.
have h := fnorm2_ge0 ((t - x1) - (x1 - x)); rewrite fnorm2B in h; rewrite fnorm2D.
move: h; move: (fnorm2 (t - x1)) (fnorm2 (x1 - x)) (fdot _ _) => *; mclra.
Qed.

Lemma accept_descent al gam g x t : 0 <= al -> 0 < gam -> accepts X r g x t gam ->
  t = pstep al gam g x \/ t = pstep al gam g (pstep al gam g x) -> pF al t <= pF al x.
Proof.
move=> a0 g0; rewrite /accepts -(opprB t x) fdotNr fnorm2N opprK => ha hc; rewrite /pF.
have g2 : 0 <= (2%:R * gam)^-1 by rewrite invr_ge0 mulr_ge0 ?ler0n // ltW.
have e2 : gam^-1 = (2%:R * gam)^-1 * 2%:R.
  by rewrite invfM mulrC mulrA mulfV ?mul1r // pnatr_eq0.
case: hc => et.
  have h := @soft_step_self _ _ x g al gam a0 g0 t et.
  have h2 : fnorm2 (t - x) / (2%:R * gam) <= fnorm2 (t - x) / gam.
    by apply: ler_wpmul2l; [exact: fnorm2_ge0 | rewrite e2 ler_pemulr // ler1n].
  move: ha h h2; move: (fnorm2 (t - x) / (2%:R * gam)) (fnorm2 (t - x) / gam) (fdot _ _) (psm t) (psm x) (al * l1 t) (al * l1 x) => *; mclra.
have h := @two_steps al gam g x a0 g0 _ t erefl et.
have h2 : fnorm2 (t - x) / (2%:R * gam) <=
  (fnorm2 (t - pstep al gam g x) + fnorm2 (pstep al gam g x - x)) / gam.
  by rewrite e2 mulrA mulrAC [_ * 2%:R]mulrC; apply: ler_wpmul2r => //; exact: fnorm2_two.
move: h ha h2.
move: (fnorm2 (t - x) / (2%:R * gam)) (_ / gam) (fdot _ _) (psm t) (psm x) (al * l1 t) (al * l1 x) => *; mclra.
Qed.
Lemma accept_fixed al gam x T rho : 0 <= al -> 0 < gam ->
  x = pstep al gam (poisson_gradient X x r None T rho) x \/
  x = pstep al gam (poisson_gradient X x r None T rho) (pstep al gam (poisson_gradient X x r None T rho) x) ->
  forall y, pF al x <= pF al y.
Proof.
move=> a0 g0 hc y; set g := poisson_gradient _ _ _ _ _ _ in hc.
suff e : x = pstep al gam g x.
  apply: (@composite_fixed _ _ psm x g x al gam a0 g0 e erefl) => z; exact: psm_convex.
case: hc => // et.
have h := @two_steps al gam g x a0 g0 _ x erefl et; rewrite subrr fdot0r add0r ger_addl in h.
rewrite pmulr_lle0 ?invr_gt0 // in h.
have h0 : fnorm2 (pstep al gam g x - x) <= 0.
  by apply: le_trans h; rewrite ler_addr fnorm2_ge0.
have /eqP := fnorm2_eq0 (le_anti (introT andP (conj h0 (fnorm2_ge0 _)))).
by rewrite subr_eq0 => /eqP.
Qed.

(** ** the loop *)
Section Run.
Variable (p : poisson_params d).
Hypothesis (a0 : 0 <= po_alpha p) (u0 : 0 < po_update_gamma p < 1) (g0 : 0 < po_gamma p).
Hypothesis hA : po_A p = None.

Lemma poisson_body_spec fuel it s b s' : 0 < gs_gamma s -> poisson_body X r p fuel it s = Some (b, s') ->
  let g := poisson_gradient X (gs_theta s) r None (po_T p) (po_rho p) in
  [/\ 0 < gs_gamma s' <= gs_gamma s,
      accepts X r g (gs_theta s) (gs_theta s') (gs_gamma s') &
      gs_theta s' = pstep (po_alpha p) (gs_gamma s') g (gs_theta s) \/
      gs_theta s' = pstep (po_alpha p) (gs_gamma s') g (pstep (po_alpha p) (gs_gamma s') g (gs_theta s))].
Proof.
move=> gs0; rewrite /poisson_body hA; set g := poisson_gradient _ _ _ _ _ _.
case e : (poisson_line_search _ _ _ _ _ _ _ _) => [[t gam]|] //.
have u1 : 0 < po_update_gamma p <= 1 by have /andP[-> /ltW ->] := u0.
have [k1 k2 k3] := ls_spec a0 u1 gs0 (or_introl erefl) e.
by case: ifP => _ [_ <-].
Qed.
Lemma poisson_body_hist fuel it s b s' :
  0 < gs_gamma s /\ hist (fun t => poisson_objective1 X t r (po_alpha p)) s ->
  poisson_body X r p fuel it s = Some (b, s') ->
  0 < gs_gamma s' /\ hist (fun t => poisson_objective1 X t r (po_alpha p)) s'.
Proof.
move=> [gs0 [objs [h1 h2 h3]]] e.
have [/andP[k0 k1] k2 k3] := poisson_body_spec gs0 e; split=> //.
have hd := accept_descent a0 k0 k2 k3.
move: e; rewrite /poisson_body hA; case: (poisson_line_search _ _ _ _ _ _ _ _) => [[t gam]|] //.
case: ifP => _ [_ es]; rewrite -es /= in hd *; rewrite -!poisson_objective1E in hd.
  exists (rcons objs (poisson_objective1 X t r (po_alpha p))); split.
  - by rewrite /= !map_rcons h1.
  - by apply: nonincr_rcons => // o ho; apply: le_trans hd _; apply: h3.
  - by move=> o; rewrite mem_rcons inE => /orP[/eqP->//|ho]; apply: le_trans hd _; apply: h3.
by exists objs; split=> // o ho; apply: le_trans hd _; apply: h3.
Qed.
Lemma poisson_for_total todo it s l : 0 < gs_gamma s -> exists N e, forall fuel, (N <= fuel)%N ->
  glm_for (poisson_body X r p fuel) todo it s l = Some e.
Proof.
elim: todo it s l => [|k IH] it s l gs0; first by exists 0%N, (s, l).
have [N hN] := @ls_terminates n d X r p (gs_theta s) (gs_gamma s) (po_T p) (po_rho p) a0 u0 gs0.
have gg : 0 < gs_gamma s <= gs_gamma s by rewrite gs0 lexx.
have [x ex] := hN N (leqnn _) (gs_gamma s) (gs_theta s) gg (or_introl erefl).
have hfix fuel : (N <= fuel)%N -> poisson_body X r p fuel it s = poisson_body X r p N it s.
  by move=> hf; rewrite /poisson_body hA ex (ls_mono hf ex).
case eb : (poisson_body X r p N it s) => [[b s']|]; last first.
  by move: eb; rewrite /poisson_body hA ex; case: (x) => ??; case: ifP.
have [/andP[k0 _] _ _] := poisson_body_spec gs0 eb.
case: b eb => eb.
  by exists N, (s', Some it) => fuel hf /=; rewrite hfix // eb.
have [N' [e he]] := IH it.+1 s' (Some it) k0.
exists (maxn N N'), e => fuel; rewrite geq_max => /andP[hf hf'] /=.
by rewrite hfix // eb he.
Qed.
End Run.
End Poisson.

(** ** with a coupling matrix the line search may reject every step *)
Definition stuck_X : 'M[R]_(1, 2) := \matrix_(i, j) (if (j : nat) == 1%N then 1 else 0).
Definition stuck_A : 'M[R]_2 := const_mx (3%:R / 2%:R).
Lemma stuck_Z (t : 'cV[R]_1) : col' 0 stuck_X *m t = t.
Proof.
apply/matrixP => i j; rewrite !ord1 mxE big_ord1 !mxE /= mul1r.
by congr (t _ _); apply: val_inj; rewrite !ord1.
Qed.
Lemma stuck_loss (t : 'cV[R]_1) : poisson_loss1 stuck_X t 0 = exp (t 0 0).
Proof. by rewrite /poisson_loss1 big_ord1 stuck_Z [stuck_X _ _]mxE /= mul0r subr0 !divr1 !mul1r. Qed.
Lemma stuck_gradient : poisson_gradient stuck_X 0 0 (Some stuck_A) 1 1 = const_mx (- 2%:R^-1).
Proof.
rewrite /poisson_gradient !stuck_Z; apply/matrixP => i j; rewrite !ord1.
have e : map_mx exp (0 : 'cV[R]_1) = const_mx 1 by apply/matrixP => a b; rewrite !mxE exp_0.
rewrite e !mxE !big_ord1 !mxE /= !mulr1 !mul1r invr1 !mul1r; mcfield.
Qed.
Lemma stuck_ls p fuel : po_alpha p = 0 -> 0 < po_update_gamma p ->
  forall (gam : R) (th0 : 'cV[R]_1), 0 < gam -> th0 = 0 \/ th0 = const_mx (gam / 2%:R) ->
  poisson_line_search stuck_X 0 p fuel (const_mx (- 2%:R^-1)) 0 th0 gam = None.
Proof.
move=> al0 u0; elim: fuel => // fuel IH gam th0 g0 hth /=.
have es (t : 'cV[R]_1) : soft_thresholding t 0 = t by apply/matrixP => i j; rewrite mxE soft1_0.
rewrite al0 !mul0r !es !stuck_loss cv_dot np_norm2.
have -> : (0 - po_update_gamma p * gam *: const_mx (- 2%:R^-1) : 'cV[R]_1) = const_mx (po_update_gamma p * gam / 2%:R).
  by apply/matrixP => i j; rewrite !mxE sub0r mulrN opprK.
case: ifP => [_|/negbT]; first by apply: IH; [exact: mulr_gt0 | right].
rewrite -leNgt /fdot /fnorm2 !big_ord1 !mxE => h; exfalso; move: h; apply/negP; rewrite -ltNge.
have hx (z : R) : 0 < z -> 1 < exp z.
  by move=> /RltP z0; apply/RltP; have := exp_increasing _ _ z0; rewrite exp_0.
case: hth => ->; rewrite !mxE.
  apply: (@lt_trans _ _ 1); last by apply: hx; rewrite sub0r mulrN opprK; apply: divr_gt0 => //; apply: ltr0Sn.
  rewrite exp_0.
  have -> : 1 - - 2%:R^-1 * (0 - (0 - gam * - 2%:R^-1)) + (0 - (0 - gam * - 2%:R^-1)) ^+ 2 / (2%:R * gam) = 1 - gam / 8%:R.
    have gn : gam != 0 by rewrite gt_eqF.
    by rewrite expr2; mcfield; exact: gn.
  by rewrite ltr_subl_addr ltr_addl divr_gt0 // ltr0Sn.
apply: (@le_lt_trans _ _ 1); last by apply: hx; mclra.
rewrite exp_0.
have -> : 1 - - 2%:R^-1 * (0 - (gam / 2%:R - gam * - 2%:R^-1)) + (0 - (gam / 2%:R - gam * - 2%:R^-1)) ^+ 2 / (2%:R * gam) = 1.
  have gn : gam != 0 by rewrite gt_eqF.
  by rewrite expr2; mcfield; exact: gn.
exact: lexx.
Qed.
Lemma stuck_fit p fuel : po_alpha p = 0 -> 0 < po_update_gamma p -> 0 < po_gamma p ->
  po_A p = Some stuck_A -> po_T p = 1 -> po_rho p = 1 -> (0 < po_max_iter p)%N ->
  poisson_fit_each stuck_X 0 p fuel = None.
Proof.
move=> a0 u0 g0 hA hT hr hm; rewrite /poisson_fit_each; case: (po_max_iter p) hm => // k _ /=.
by rewrite /poisson_body /= hA hT hr stuck_gradient stuck_ls //; left.
Qed.
