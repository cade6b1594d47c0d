(** Proofs about the Gaussian and Poisson node-wise solvers. *)
From Coq Require Import Reals Lra Psatz.
From mathcomp Require Import all_ssreflect all_algebra.
From Verif Require Import Calc RStruct RTac LinTac Spectral S_Mat RMx ADMM NP M_Prox M_Loop M_LGL M_Stab P_Prox P_Rules M_GLM S_GLM P_GLM P_GLM2.
Import Order.TTheory GRing.Theory Num.Theory.

Set Implicit Arguments.
Unset Strict Implicit.
Unset Printing Implicit Defensive.
Local Open Scope ring_scope.

Lemma cv_dot n (a b : 'cV[R]_n) : (a^T *m b) 0 0 = fdot a b.
Proof.
rewrite fdotE /mxtrace big_ord1; congr (fun_of_matrix _ _ _); exact: ord1.
Qed.
Lemma mulmx_bound n d (Z : 'M[R]_(n, d)) (v : 'cV[R]_d) : fnorm2 (Z *m v) <= fnorm2 Z * fnorm2 v.
Proof.
rewrite /fnorm2 mulr_suml; apply: ler_sum => i _; rewrite big_ord1 mxE.
have -> : \sum_i0 \sum_j v i0 j ^+ 2 = \sum_j v j 0 ^+ 2 by apply: eq_bigr => j _; rewrite big_ord1.
exact: (@sum_cauchy d predT (fun j => Z i j) (fun j => v j 0)).
Qed.

(** history of the recorded objective *)
Lemma nonincr_rcons s (x : R) : nonincreasing s -> (forall y, y \in s -> x <= y) -> nonincreasing (rcons s x).
Proof.
move=> h hx i j; rewrite size_rcons ltnS => /andP[ij js].
case: (eqVneq j (size s)) => [e|ne].
  rewrite !nth_rcons e ltnn eqxx; rewrite e in ij.
  by case: ltngtP ij => // hi _; apply/hx/mem_nth.
have jl : (j < size s)%N by rewrite ltn_neqAle ne.
by rewrite !nth_rcons jl (leq_ltn_trans ij jl); apply: h; rewrite ij.
Qed.
Definition hist m n (F : 'M[R]_(m, n) -> R) (s : glm_state m n) : Prop :=
  exists objs, [/\ map gc_obj (gs_checks s) = map Fin objs, nonincreasing objs &
                   forall o, o \in objs -> F (gs_theta s) <= o].

(** composite minimisation: f + alpha l1 *)
Section Composite.
Variables (m n : nat) (f : 'M[R]_(m, n) -> R) (x g t : 'M[R]_(m, n)) (a gam L : R).
Hypothesis (a0 : 0 <= a) (g0 : 0 < gam).
Hypothesis et : t = soft_thresholding (x - gam *: g) (a * gam).

Lemma composite_descent : f t <= f x + fdot g (t - x) + L / 2%:R * fnorm2 (t - x) ->
  f t + a * l1 t + (gam^-1 - L / 2%:R) * fnorm2 (t - x) <= f x + a * l1 x.
Proof.
have h := soft_step_self a0 g0 et.
move: h; set q := fnorm2 _; set u := fdot _ _; rewrite mulrBl [_^-1 * q]mulrC.
move: (q / gam) (L / 2%:R * q) (a * l1 t) (a * l1 x) (f t) (f x) => *; mclra.
Qed.
Lemma composite_gap y : f t <= f x + fdot g (t - x) + L / 2%:R * fnorm2 (t - x) ->
  f x + fdot g (y - x) <= f y ->
  f t + a * l1 t <= f y + a * l1 y + fdot (x - t) (t - y) / gam + L / 2%:R * fnorm2 (t - x).
Proof.
have h := soft_step y a0 g0 et.
have e : fdot g (t - y) = fdot g (t - x) - fdot g (y - x).
  by rewrite -fdotBr; congr fdot; lin.
have e2 : fdot (x - t) (t - y) = - fdot (t - x) (t - y) by rewrite -fdotNl opprB.
rewrite e2 mulNr; rewrite e in h; move: h.
move: (fdot (t - x) (t - y) / gam) (L / 2%:R * _) (a * l1 t) (a * l1 y) (fdot g _) (fdot g _) (f t) (f x) (f y) => *; mclra.
Qed.
Lemma composite_fixed : t = x -> (forall y, f x + fdot g (y - x) <= f y) ->
  forall y, f x + a * l1 x <= f y + a * l1 y.
Proof.
move=> etx hc y; have := soft_step y a0 g0 et; rewrite etx subrr fdot0l mul0r addr0 => h.
have := hc y; rewrite -(opprB x y) fdotNr; move: h.
move: (fdot g _) (a * l1 x) (a * l1 y) (f x) (f y) => *; mclra.
Qed.
End Composite.

Section Gaussian.
Variables (n d : nat) (X : 'M[R]_(n, d.+1)) (r : 'I_d.+1).
Local Notation Z := (col' r X).
Local Notation y := (col r X).
Implicit Types theta : 'cV[R]_d.

Definition gsmooth theta : R := fnorm2 (y - Z *m theta) / (2%:R * n%:R).
Lemma gaussian_objectiveE theta alpha :
  gaussian_objective X theta r alpha = lasso_cost Z y alpha theta - fnorm2 y / (2%:R * n%:R).
Proof.
rewrite /gaussian_objective /lasso_cost -mulmxA -[_ *m _ *m _ *m theta]mulmxA.
rewrite -trmx_mul !cv_dot fnorm2B -fnorm2E.
have -> : l1_norm theta = l1 theta by [].
rewrite !div1r !invfM.
move: (n%:R^-1 : R) (fdot _ _) (fnorm2 (Z *m _)) (fnorm2 y) (alpha * _) => N u v w z.
by mcfield.
Qed.
Lemma gaussian_gradientE theta :
  gaussian_gradient X theta r = - (n%:R^-1 *: (Z^T *m (y - Z *m theta))).
Proof.
rewrite /gaussian_gradient trmx_mul trmxK !div1r mulmxBr mulmxA scalerBr opprB scaleNr addrC.
by [].
Qed.
Lemma gsmooth_quad theta theta' :
  gsmooth theta' = gsmooth theta + fdot (gaussian_gradient X theta r) (theta' - theta)
                   + fnorm2 (Z *m (theta' - theta)) / (2%:R * n%:R).
Proof.
rewrite /gsmooth gaussian_gradientE.
have -> : y - Z *m theta' = (y - Z *m theta) - Z *m (theta' - theta) by rewrite mulmxBr; lin.
rewrite fnorm2B fdotNl fdotZl -fdot_mulr.
rewrite !invfM; move: (n%:R^-1 : R) (fdot _ _) (fnorm2 _) (fnorm2 _) => N u v w.
by mcfield.
Qed.
Definition gL : R := fnorm2 Z / n%:R.
Lemma gsmooth_le theta theta' :
  gsmooth theta' <= gsmooth theta + fdot (gaussian_gradient X theta r) (theta' - theta)
                   + gL / 2%:R * fnorm2 (theta' - theta).
Proof.
rewrite (gsmooth_quad theta theta') ler_add2l /gL.
have -> : fnorm2 Z / n%:R / 2%:R * fnorm2 (theta' - theta) = fnorm2 Z * fnorm2 (theta' - theta) / (2%:R * n%:R).
  by rewrite invfM; move: n%:R^-1 => N; rewrite -!mulrA; congr (_ * _); rewrite mulrA mulrC [_ / 2%:R]mulrC.
apply: ler_wpmul2r; last exact: mulmx_bound.
by rewrite invr_ge0 mulr_ge0 // ler0n.
Qed.
Lemma gsmooth_convex theta theta' :
  gsmooth theta + fdot (gaussian_gradient X theta r) (theta' - theta) <= gsmooth theta'.
Proof.
rewrite (gsmooth_quad theta theta') ler_addl; apply: divr_ge0; first exact: fnorm2_ge0.
by rewrite mulr_ge0 // ler0n.
Qed.
Lemma gaussian_gradientP theta : gradient_at gsmooth theta (gaussian_gradient X theta r).
Proof.
move=> v _.
apply: (@d_ext (fun t => gsmooth theta + t * fdot (gaussian_gradient X theta r) v +
                         fnorm2 (Z *m v) / (2%:R * n%:R) * (t * t))).
  move=> t; rewrite (gsmooth_quad theta (theta + t *: v)) [_ + _ - _]addrC addKr -!addrA; congr (_ + (_ + _)); first by rewrite fdotZr.
  by rewrite -scalemxAr fnorm2Z expr2 mulrAC; congr (_ / _); rewrite mulrC.
set u := fdot _ _; set w := fnorm2 _ / _.
apply: (@d_val _ _ (u + w * (1 * 0 + 0 * 1))); first by rewrite mulr0 mul0r addr0 mulr0 addr0.
apply: d_add; first exact: d_affine.
apply: d_scal; apply: derivable_pt_lim_mult; exact: derivable_pt_lim_id.
Qed.

Definition gF alpha theta : R := lasso_cost Z y alpha theta.
Lemma gF_E alpha theta : gF alpha theta = gsmooth theta + alpha * l1 theta. Proof. by []. Qed.
Lemma gF_ge0 alpha theta : 0 <= alpha -> 0 <= gF alpha theta.
Proof.
move=> a0; apply: addr_ge0; last by apply: mulr_ge0 => //; do 2 (apply: sumr_ge0 => ? _); exact: normr_ge0.
by apply: divr_ge0; [exact: fnorm2_ge0 | rewrite mulr_ge0 // ler0n].
Qed.
Definition gstep alpha gam theta : 'cV[R]_d :=
  soft_thresholding (theta - gam *: gaussian_gradient X theta r) (alpha * gam).
Lemma gstep_descent alpha gam theta : 0 <= alpha -> 0 < gam ->
  gF alpha (gstep alpha gam theta) + (gam^-1 - gL / 2%:R) * fnorm2 (gstep alpha gam theta - theta)
  <= gF alpha theta.
Proof.
move=> a0 g0.
exact: (@composite_descent _ _ gsmooth theta (gaussian_gradient X theta r) _ alpha gam gL a0 g0 erefl
          (gsmooth_le _ _)).
Qed.
Lemma gstep_mono alpha gam theta : 0 <= alpha -> 0 < gam -> gam * gL <= 2%:R ->
  gF alpha (gstep alpha gam theta) <= gF alpha theta.
Proof.
move=> a0 g0 hL; apply: le_trans (gstep_descent theta a0 g0); rewrite ler_addl.
apply: mulr_ge0; last exact: fnorm2_ge0.
rewrite subr_ge0 -(ler_pmul2l g0) mulrA mulfV ?gt_eqF // ler_pdivr_mulr ?mul1r //; exact: ltr0Sn.
Qed.

Lemma gaussian_body_hist p it s b s' : 0 <= ga_alpha p -> 0 < ga_gamma p -> ga_gamma p * gL <= 2%:R ->
  gs_gamma s = ga_gamma p /\ hist (fun t => gaussian_objective X t r (ga_alpha p)) s ->
  gaussian_body X r p it s = Some (b, s') ->
  gs_gamma s' = ga_gamma p /\ hist (fun t => gaussian_objective X t r (ga_alpha p)) s'.
Proof.
move=> a0 g0 hL [hg [objs [h1 h2 h3]]]; rewrite /gaussian_body => -[_ <-] /=; split=> //.
set t := soft_thresholding _ _.
have ht : gaussian_objective X t r (ga_alpha p) <= gaussian_objective X (gs_theta s) r (ga_alpha p).
  by rewrite !gaussian_objectiveE ler_add2r /t hg; apply: gstep_mono.
exists (rcons objs (gaussian_objective X t r (ga_alpha p))); split.
- by rewrite /= !map_rcons h1.
- by apply: nonincr_rcons => // o ho; apply: le_trans ht _; apply: h3.
- by move=> o; rewrite mem_rcons inE => /orP[/eqP->//|ho]; apply: le_trans ht _; apply: h3.
Qed.

Lemma gaussian_stops p (N : nat) : 0 <= ga_alpha p -> 0 < ga_gamma p -> ga_gamma p * gL <= 1 ->
  0 < ga_tol p ->
  2%:R * ga_gamma p * gF (ga_alpha p) (gaussian_start d) < ga_tol p ^+ 2 * N%:R ->
  (N <= ga_max_iter p)%N ->
  exists i s hs t0, [/\ (i < N)%N,
    glm_for (gaussian_body X r p) (ga_max_iter p) 0
      (GLMState (gaussian_start d) (ga_gamma p) [:: gaussian_start d] [::]) None = Some (s, Some i),
    gs_thetas s = rcons (rcons hs t0) (gs_theta s), gs_theta s = gstep (ga_alpha p) (ga_gamma p) t0 &
    np_norm (t0 - gs_theta s) < ga_tol p].
Proof.
move=> a0 g0 hL t0 hN hm.
pose P (s : glm_state d 1) := gs_gamma s = ga_gamma p /\
  exists hs, gs_thetas s = rcons hs (gs_theta s).
pose Ph (s : glm_state d 1) : R := 2%:R * ga_gamma p * gF (ga_alpha p) (gs_theta s).
have g2 : 0 < 2%:R * ga_gamma p by apply: mulr_gt0 => //; apply: ltr0Sn.
have [] := @glm_for_stops _ (gaussian_body X r p) P Ph (ga_tol p ^+ 2) (exprn_gt0 2 t0) _ _ N
  (ga_max_iter p) 0 (GLMState (gaussian_start d) (ga_gamma p) [:: gaussian_start d] [::]) None hm _ hN.
- by move=> s _; apply: mulr_ge0; [exact: ltW | exact: gF_ge0].
- move=> it s [hg _]; rewrite /gaussian_body hg -/(gstep (ga_alpha p) (ga_gamma p) (gs_theta s)).
  set t := gstep _ _ _.
  eexists; eexists; split; [reflexivity | by split=> //; eexists; reflexivity |].
  rewrite -leNgt /Ph /= => hnb.
  have hd := gstep_descent (gs_theta s) a0 g0; rewrite -/t in hd.
  have ht2 : ga_tol p ^+ 2 <= fnorm2 (t - gs_theta s).
    rewrite -fnorm2N opprB -np_norm2.
    by rewrite ler_sqr // ?nnegrE ?np_norm_ge0 // ltW.
  rewrite -(ler_pmul2l g2) mulrDr in hd; apply: le_trans hd.
  rewrite ler_add2l; apply: le_trans ht2 _; rewrite mulrA.
  rewrite -{1}[fnorm2 _]mul1r; apply: ler_wpmul2r; first exact: fnorm2_ge0.
  rewrite mulrBr mulfK ?gt_eqF // ler_subr_addr -ler_subr_addl.
  have -> : 2%:R * ga_gamma p * (gL / 2%:R) = ga_gamma p * gL.
    by move: (ga_gamma p) gL => a c; mcfield.
  have -> : (2%:R - 1 : R) = 1 by mclra.
  exact: hL.
- by split=> //; exists [::].
move=> s0 [s' [i [[hg0 [hh eh]] hb hi e]]]; exists i, s', hh, (gs_theta s0).
move: hb; rewrite /gaussian_body => -[hb es]; split=> //; rewrite -es //= -?eh ?hg0 //.
Qed.
End Gaussian.

Section Poisson.
Variables (n d : nat) (X : 'M[R]_(n, d.+1)) (r : 'I_d.+1).
Local Notation Z := (col' r X).
Local Notation y := (col r X).
Local Notation grad := (fun theta => poisson_gradient X theta r None 0 1).
Implicit Types theta : 'cV[R]_d.

Definition psm theta : R := poisson_loss1 X theta r.
Lemma psmE theta : psm theta = n%:R^-1 * \sum_i (exp ((Z *m theta) i 0) - X i r * (Z *m theta) i 0).
Proof. by rewrite /psm /poisson_loss1 div1r. Qed.
Lemma pgrad_noneE theta T rho : poisson_gradient X theta r None T rho =
  n%:R^-1 *: (Z^T *m (map_mx exp (Z *m theta) - y)).
Proof.
rewrite /poisson_gradient addr0 div1r scaleNr mulmxBr -scalerN opprB.
by [].
Qed.
Lemma pgrad_dot theta (v : 'cV[R]_d) T rho : fdot (poisson_gradient X theta r None T rho) v =
  n%:R^-1 * \sum_i (exp ((Z *m theta) i 0) - X i r) * (Z *m v) i 0.
Proof.
rewrite pgrad_noneE fdotZl -fdot_mulr; congr (_ * _).
by rewrite /fdot; apply: eq_bigr => i _; rewrite big_ord1 !mxE.
Qed.
Lemma mul_sub theta theta' i : (Z *m theta') i 0 - (Z *m theta) i 0 = (Z *m (theta' - theta)) i 0.
Proof. by rewrite mulmxBr !mxE. Qed.

Definition pL (B : R) : R := exp B * fnorm2 Z / n%:R.
Lemma nV_ge0 : (0 : R) <= n%:R^-1. Proof. by rewrite invr_ge0 ler0n. Qed.
Lemma psm_le B theta theta' T rho : (forall i, (Z *m theta) i 0 <= B) -> (forall i, (Z *m theta') i 0 <= B) ->
  psm theta' <= psm theta + fdot (poisson_gradient X theta r None T rho) (theta' - theta)
                + pL B / 2%:R * fnorm2 (theta' - theta).
Proof.
move=> h1 h2.
have eB : 0 <= exp B by apply/RleP; left; apply: exp_pos.
apply: (@le_trans _ _ (psm theta + fdot (poisson_gradient X theta r None T rho) (theta' - theta)
         + n%:R^-1 * (exp B / 2%:R * fnorm2 (Z *m (theta' - theta))))); last first.
  rewrite ler_add2l /pL.
  have -> : exp B * fnorm2 Z / n%:R / 2%:R * fnorm2 (theta' - theta) =
            n%:R^-1 * (exp B / 2%:R * (fnorm2 Z * fnorm2 (theta' - theta))).
    move: (n%:R^-1) (fnorm2 Z) (fnorm2 _) (exp B) => a b c e; mcfield.
  apply: ler_wpmul2l; first exact: nV_ge0.
  apply: ler_wpmul2l; last exact: mulmx_bound.
  by rewrite divr_ge0 // ler0n.
rewrite !psmE pgrad_dot -!mulrDr; apply: ler_wpmul2l; first exact: nV_ge0.
rewrite /fnorm2 mulr_sumr -!big_split; apply: ler_sum => i _ /=.
rewrite big_ord1 -mul_sub.
have := exp_quad (h1 i) (h2 i).
move: (exp B / 2%:R) (exp ((Z *m theta) i 0)) (exp ((Z *m theta') i 0)) ((Z *m theta) i 0) ((Z *m theta') i 0) (X i r) => *; mcnra.
Qed.
Lemma psm_convex theta theta' T rho :
  psm theta + fdot (poisson_gradient X theta r None T rho) (theta' - theta) <= psm theta'.
Proof.
rewrite !psmE pgrad_dot -!mulrDr; apply: ler_wpmul2l; first exact: nV_ge0.
rewrite -!big_split; apply: ler_sum => i _ /=; rewrite -mul_sub.
have /RleP := exp_tangent ((Z *m theta) i 0) ((Z *m theta') i 0).
move: (exp ((Z *m theta) i 0)) (exp ((Z *m theta') i 0)) ((Z *m theta) i 0) ((Z *m theta') i 0) (X i r) => *; mcnra.
Qed.
Lemma pgradP theta T rho : gradient_at psm theta (poisson_gradient X theta r None T rho).
Proof.
move=> v _; rewrite pgrad_dot.
apply: (@d_ext (fun t => n%:R^-1 * \sum_i (exp ((Z *m theta) i 0 + t * (Z *m v) i 0)
   - X i r * ((Z *m theta) i 0 + t * (Z *m v) i 0)))).
  move=> t; rewrite psmE; congr (_ * _); apply: eq_bigr => i _.
  by have -> : (Z *m (theta + t *: v)) i 0 = (Z *m theta) i 0 + t * (Z *m v) i 0
    by rewrite mulmxDr -scalemxAr !mxE.
apply: d_scal; apply: d_sum => i _; rewrite mulrBl.
apply: d_sub; first by apply: d_comp_affine; exact: d_exp.
by apply: d_scal; exact: d_affine.
Qed.

(** ** one pass and two passes of the line search *)
Definition pstep (al gam : R) (g theta : 'cV[R]_d) : 'cV[R]_d := soft_thresholding (theta - gam *: g) (al * gam).
Lemma pstep_bound al gam g theta j : 0 <= al -> 0 <= gam -> `|pstep al gam g theta j 0| <= `|theta j 0| + gam * `|g j 0|.
Proof.
move=> a0 g0; rewrite mxE; apply: le_trans (soft1_nonexp _ (mulr_ge0 a0 g0)) _.
rewrite !mxE; apply: le_trans (ler_norm_sub _ _) _.
by rewrite normrM (ger0_norm g0).
Qed.
Lemma dot_bound theta (b : 'I_d -> R) i : (forall j, `|theta j 0| <= b j) ->
  (Z *m theta) i 0 <= \sum_i \sum_j `|Z i j| * b j.
Proof.
move=> h; apply: (@le_trans _ _ (\sum_j `|Z i j| * b j)).
  rewrite mxE; apply: ler_sum => j _; apply: le_trans (ler_norm _) _.
  by rewrite normrM; apply: ler_wpmul2l.
rewrite (bigD1 i) //= ler_addl; apply: sumr_ge0 => k _; apply: sumr_ge0 => j _; apply: mulr_ge0 => //.
exact: le_trans (h j).
Qed.

Definition accepts (g told t : 'cV[R]_d) (gam : R) : Prop :=
  psm t <= psm told - fdot g (told - t) + fnorm2 (told - t) / (2%:R * gam).

Lemma ls_spec p fuel g told th0 gam t gam' :
  0 <= po_alpha p -> 0 < po_update_gamma p <= 1 -> 0 < gam ->
  (th0 = told \/ th0 = pstep (po_alpha p) gam g told) ->
  poisson_line_search X r p fuel g told th0 gam = Some (t, gam') ->
  [/\ 0 < gam' <= gam, accepts g told t gam' &
      t = pstep (po_alpha p) gam' g told \/
      t = pstep (po_alpha p) gam' g (pstep (po_alpha p) gam' g told)].
Proof.
move=> a0 /andP[u0 u1]; elim: fuel th0 gam => // fuel IH th0 gam g0 hth /=.
case: ifP => [_|/negbT].
  move=> h; have g1 : 0 < po_update_gamma p * gam by apply: mulr_gt0.
  have [/andP[k0 k1] k2 k3] := IH _ _ g1 (or_intror erefl) h.
  split=> //; rewrite k0 /=; apply: le_trans k1 _.
  by rewrite -{2}[gam]mul1r ler_wpmul2r // ltW.
rewrite -leNgt cv_dot np_norm2 => h [<- <-]; split; first by rewrite g0 lexx.
- exact: h.
- by case: hth => ->; [left | right].
Qed.
Lemma ls_mono p fuel fuel' g told th0 gam x : (fuel <= fuel')%N ->
  poisson_line_search X r p fuel g told th0 gam = Some x ->
  poisson_line_search X r p fuel' g told th0 gam = Some x.
Proof.
elim: fuel fuel' th0 gam => // fuel IH [//|fuel'] th0 gam hf /=.
by case: ifP => // _; apply: IH.
Qed.
Lemma ls_terminates p told gam T rho : 0 <= po_alpha p -> 0 < po_update_gamma p < 1 -> 0 < gam ->
  exists N, forall fuel, (N <= fuel)%N -> forall gam1 th0, 0 < gam1 <= gam ->
   (th0 = told \/ th0 = pstep (po_alpha p) gam1 (poisson_gradient X told r None T rho) told) ->
   exists x, poisson_line_search X r p fuel (poisson_gradient X told r None T rho) told th0 gam1 = Some x.
Proof.
move=> a0 /andP[u0 u1] g0; set g := poisson_gradient _ _ _ _ _ _.
pose b j := `|told j 0| + gam * `|g j 0| + gam * `|g j 0|.
pose B := \sum_i \sum_j `|Z i j| * b j.
have bg j : 0 <= gam * `|g j 0| by apply: mulr_ge0 => //; apply: ltW.
have hB0 i : (Z *m told) i 0 <= B.
  by apply: dot_bound => j; rewrite /b -addrA ler_addl addr_ge0.
have hB gam1 th0 i : 0 < gam1 <= gam -> (th0 = told \/ th0 = pstep (po_alpha p) gam1 g told) ->
    (Z *m pstep (po_alpha p) gam1 g th0) i 0 <= B.
  move=> /andP[h1 h2] hth; apply: dot_bound => j.
  have k1 := @pstep_bound (po_alpha p) gam1 g th0 j a0 (ltW h1).
  have k2 : gam1 * `|g j 0| <= gam * `|g j 0| by apply: ler_wpmul2r.
  apply: le_trans k1 _; apply: ler_add => //; case: hth => ->; first by rewrite ler_addl.
  apply: le_trans (@pstep_bound (po_alpha p) gam1 g told j a0 (ltW h1)) _.
  by rewrite ler_add2l.
have acc gam1 th0 fuel : 0 < gam1 <= gam -> (th0 = told \/ th0 = pstep (po_alpha p) gam1 g told) ->
    gam1 * pL B <= 1 -> exists x, poisson_line_search X r p fuel.+1 g told th0 gam1 = Some x.
  move=> hg hth hL /=; case: ifP => [|_]; last by eexists.
  rewrite cv_dot np_norm2 -/(pstep (po_alpha p) gam1 g th0); set t := pstep _ _ _ _.
  have := @psm_le B told t T rho hB0 (fun i => hB _ _ i hg hth); rewrite -/g => hle.
  move=> hlt; exfalso; move: hlt; apply/negP; rewrite -leNgt.
  rewrite -/(psm t) -/(psm told); apply: le_trans hle _.
  rewrite -(opprB t told) fdotNr opprK fnorm2N ler_add2l.
  have /andP[g1 _] := hg.
  rewrite mulrC; apply: ler_wpmul2l; first exact: fnorm2_ge0.
  rewrite invfM mulrC; apply: ler_wpmul2l; first by rewrite invr_ge0 ler0n.
  by rewrite -(ler_pmul2l g1) mulfV // gt_eqF.
have [k hk] := @pow_small (po_update_gamma p) (gam * pL B) (conj (Rlt_le _ _ (elimT (RltP _ _) u0)) (elimT (RltP _ _) u1)).
have ind m gam1 th0 fuel : (m < fuel)%N -> 0 < gam1 <= gam ->
    (th0 = told \/ th0 = pstep (po_alpha p) gam1 g told) ->
    po_update_gamma p ^+ m * (gam1 * pL B) <= 1 ->
    exists x, poisson_line_search X r p fuel g told th0 gam1 = Some x.
  elim: m gam1 th0 fuel => [|m IH] gam1 th0 [//|fuel] hf hg hth hm.
    by apply: acc => //; rewrite expr0 mul1r in hm.
  rewrite /=; case: ifP => _; last by eexists.
  have /andP[g1 g2] := hg.
  apply: IH => //; last by rewrite exprSr -!mulrA in hm *.
    rewrite mulr_gt0 //=; apply: le_trans g2; rewrite -{2}[gam1]mul1r; apply: ler_wpmul2r; exact: ltW.
  by right.
exists k.+1 => fuel hf gam1 th0 hg hth; apply: (ind k) => //.
have pL0 : 0 <= pL B.
  apply: mulr_ge0; last exact: nV_ge0.
  by apply: mulr_ge0; [apply/RleP; left; apply: exp_pos | exact: fnorm2_ge0].
have hk' : po_update_gamma p ^+ k * (gam * pL B) <= 1.
  have e : pow (po_update_gamma p) k = po_update_gamma p ^+ k.
    by elim: (k) => [|m IH] //=; rewrite IH exprS.
  by apply/RleP; rewrite -e.
apply: le_trans hk'; apply: ler_wpmul2l; first by apply: exprn_ge0; apply: ltW.
by apply: ler_wpmul2r => //; case/andP: hg.
Qed.
End Poisson.
