(** Property theorems C118 (stopping test of the forward-backward solver) and C74 (location of a fitted GraphicalLasso). *)
From Coq Require Import Reals Lra String.
From mathcomp Require Import all_ssreflect all_algebra.
From Verif Require Import RStruct RTac LinTac Spectral S_Mat RMx ADMM NP Str M_Prox S_Prox.
From Verif Require Import P_Prox P_Prox2 P_Prox3 M_Loop P_Loop M_GL M_LGL S_Fit P_GL2.
From Verif Require Import M_TGL S_TGL P_TGL M_FB S_FB P_FB P_FB2 P_FB3 P_FB4 P_FB5 P_FB6 P_FB7 P_FB8 T_FB P_Rules M_Utils M_Fit P_Fit.
Import Order.TTheory GRing.Theory Num.Theory.

Set Implicit Arguments.
Unset Strict Implicit.
Unset Printing Implicit Defensive.
Local Open Scope ring_scope.

(** the norm of a list of matrices *)
Definition snorm n T (X : 'I_T -> 'M[R]_n) : R := sqrt (\sum_t fnorm2 (X t)).
(** What the default stopping test certifies (fixed step, full relaxation): at the iterate K it stops at there is a subgradient U of the
    penalty such that the gradient at the previous iterate plus U is small, relative to the larger of the two or to the largest such
    residual so far ([fb_maxres]). *)
Theorem C118_stop_test : forall n m tv pn is_pos_def pinvh (S : stack n m.+2) ns p it s s' c,
  tv_ok tv -> 0 <= fb_alpha p -> 0 <= fb_beta p -> 0 < fb_gam s -> 1 <= fb_lamda p -> fb_choose p = "fixed"%string -> fb_stop_at p = None ->
  fb_body tv pn is_pos_def pinvh S ns p it s = (Break s', c) ->
  let penalty := fb_g (@l1 1 m.+1) p in let grad := fb_grad pinvh S ns p (fb_K s) in
  (0 < it)%N /\ exists U : stack n m.+2, (forall Z : stack n m.+2, penalty (fb_K s') + sdot U (Z - fb_K s') <= penalty Z) /\
    (snorm (grad + U) <= fb_tol p * (Num.max (snorm grad) (snorm U) + (10%:R ^+ 6)^-1) \/
     exists2 M : R, snorm (grad + U) <= fb_tol p * M & M = if fb_maxres s is Some r then Num.max r (snorm (grad + U)) else snorm (grad + U)).
Proof.
move=> n m tv pn ipd pinvh S ns p it s s' c Htv a0 b0 g0 l1' hch hst hb penalty grad.
have sE (X : stack n m.+2) : stack_norm X = snorm X by [].
have maxE (x y : R) : np_max x y = Num.max x y by rewrite /np_max /Num.max; case: ltP.
pose g := fb_gam s; pose y := fb_prox tv (fb_laplacian p) (fb_beta p) (fb_alpha p) g (fb_K s - g *: grad).
have lamE : np_min (np_max (fb_lamda p) 0) 1 = 1.
  have -> : np_max (fb_lamda p) 0 = fb_lamda p by rewrite maxE; apply/max_idPl; exact: le_trans ler01 l1'.
  by rewrite /np_min; case: ltP => // h; apply: le_anti; rewrite l1' ?(ltW h) ?h.
pose U : stack n m.+2 := g^-1 *: (fb_K s - g *: grad - y).
have resE : stack_norm (y - fb_K s) / g = snorm (grad + U).
  have e : y - fb_K s = (- g) *: (grad + U).
    rewrite /U scalerDr scaleNr scaleNr scalerA divff ?gt_eqF // scale1r; lin.
  rewrite -sE !stack_normE e /nrm ipZl ipZr mulrA mulrNN.
  have -> : sqrt (g * g * sip n m.+2 (grad + U) (grad + U)) = g * sqrt (sip n m.+2 (grad + U) (grad + U)).
    have i0 : Rle 0 (sip n m.+2 (grad + U) (grad + U)) by apply/RleP/ip_ge0.
    rewrite sqrt_mult_alt; last by apply/RleP; rewrite mulr_ge0 // ltW.
    by rewrite sqrt_square //; apply/RleP/ltW.
  by rewrite mulrC mulKf // gt_eqF.
have sub (Z : stack n m.+2) : penalty y + sdot U (Z - y) <= penalty Z.
  have h := fb_prox_sub Htv Z a0 b0 g0 (erefl y); rewrite /penalty !fb_gE sdotE.
  have -> : sip n m.+2 U (Z - y) = g^-1 * sip n m.+2 (fb_K s - g *: grad - y) (Z - y) by rewrite ipZl.
  by rewrite -(ler_pmul2l g0) mulrDr mulrA divff ?gt_eqF // mul1r.
have yK : fb_K s + (y - fb_K s) = y by rewrite addrC subrK.
move: hb; rewrite /fb_body /fb_step hch hst /= -/g -/grad -/y lamE scale1r yK resE -/U !sE.
case: ifP => // /andP [/andP [_ h] it0] [<- _] /=; split=> //; exists U; split=> //.
have r0 : 0 <= snorm (grad + U) by rewrite -sE; exact: snorm_ge0.
case/orP: h => h.
  right; set M := oapp _ _ _ in h; exists M; last by rewrite /M; case: (fb_maxres s) => [r|] //=; rewrite maxE.
  have rM : snorm (grad + U) <= M by rewrite /M; case: (fb_maxres s) => [r|] //=; exact: (np_max_ge _ _).2.
  have := le_trans r0 rM; rewrite le_eqVlt => /orP [/eqP M0|M0]; last by rewrite -ler_pdivr_mulr.
  by rewrite -M0 mulr0 M0.
left; rewrite -maxE -ler_pdivr_mulr //; apply: ltr_paddl; last by rewrite invr_gt0 exprn_gt0 // ltr0n.
by apply: le_trans (np_max_ge _ _).1; rewrite -sE; exact: snorm_ge0.
Qed.
Print Assumptions C118_stop_test.

(** C74: location_ of a fitted GraphicalLasso: zero when the data is assumed centred, otherwise the mean of each variable *)
Theorem C74_graphical_lasso_location : forall n (eigh : eigh_t n) pinvh p init centered X f, gl_fit eigh pinvh p init centered X = Val f ->
  forall i, gf_location f 0 i = if centered then 0 else avg X (fun x => x 0 i).
Proof.
move=> n eigh pinvh p init c X f; rewrite /gl_fit; case: ifP => // _; case: (graphical_lasso _ _ _ _ _) => // r [<-] i /=.
by case: c; [rewrite mxE | rewrite col_meanE].
Qed.
Print Assumptions C74_graphical_lasso_location.
