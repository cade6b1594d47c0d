(** The value a stopped lasso run has reached. *)
From Coq Require Import Reals Lra.
From mathcomp Require Import all_ssreflect all_algebra.
From Verif Require Import RStruct RTac LinTac S_Mat RMx S_Linear NP M_Prox P_Prox M_Loop P_Loop P_Rules ADMM M_Linear P_Linear P_Linear2 P_Linear3 P_GLM5 P_Exist.
Import Order.TTheory GRing.Theory Num.Theory.

Set Implicit Arguments.
Unset Strict Implicit.
Unset Printing Implicit Defensive.
Local Open Scope ring_scope.

Section Gap.
Variables (m n : nat) (chol : cholesky_t) (lstsq : lstsq_t) (A : 'M[R]_(m, n)) (b : 'cV[R]_m) (p : ls_params).
Hypothesis hc : cholesky_ok chol.
Hypothesis hl : lstsq_ok lstsq.
Hypothesis l0 : 0 <= ls_lamda p.
Hypothesis r0 : 0 < ls_rho p.
Hypothesis a1 : ls_alpha p = 1.
Local Notation body := (lasso_body chol lstsq A b p).
Local Notation rho := (ls_rho p).
Local Notation lam := (ls_lamda p).

Definition gap_at (z : 'cV[R]_n) (h : convergence) : Prop := exists2 o, c_obj h = Fin o &
  forall y, o <= lasso_problem A b lam y + lam * sqrt n%:R * c_rnorm h + c_snorm h * (fnorm (y - z) + c_rnorm h).

Lemma lasso_objE (x z : 'cV[R]_n) : lasso_objective A b lam x z = ls_f A b x + ls_g lam z.
Proof.
rewrite /lasso_objective /ls_f /ls_g /fnorm2 /l1; congr (_ * _ + _ * _).
  by apply: eq_bigr => i _; rewrite big_ord_recl big_ord0 addr0.
by apply: eq_bigr => i _; rewrite big_ord_recl big_ord0 addr0.
Qed.
Lemma fnormB_le (x y : 'cV[R]_n) : fnorm (x + y) <= fnorm x + fnorm y.
Proof.
have h0 (v : 'cV[R]_n) : 0 <= fnorm v by apply/RleP; exact: sqrt_pos.
rewrite -(@ler_pexpn2r _ 2) ?nnegrE ?h0 ?addr_ge0 // fnorm_sqr fnorm2D -!fnorm_sqr.
have := fdot_cauchy x y; move: (fnorm x) (fnorm y) (fdot x y) => a c d h; mcnra.
Qed.

Lemma fnormZ' (a : R) (x : 'cV[R]_n) : 0 <= a -> fnorm (a *: x) = a * fnorm x.
Proof.
move=> a0; have h0 (v : 'cV[R]_n) : 0 <= fnorm v by apply/RleP; exact: sqrt_pos.
by apply: (@pexpIrn _ 2) => //; rewrite ?nnegrE ?mulr_ge0 // exprMn !fnorm_sqr fnorm2Z.
Qed.
Lemma fnormN' (x : 'cV[R]_n) : fnorm (- x) = fnorm x.
Proof. by rewrite /fnorm fnorm2N. Qed.

Lemma body_gap j s : exists2 h, ls_hist (out_state (body j s).1) = Some h & gap_at (ls_z (out_state (body j s).1)) h /\ (body j s).2 = h.
Proof.
have := lasso_step A b l0 hc hl (ls_z s) (ls_u s) r0; cbv zeta.
rewrite /lasso_body a1 scale1r subrr scale0r addr0.
set x := ls_x _ _ _ _ _ _ _; set z := soft_thresholding _ _; set u := ls_u s + _ => st.
set h := {| c_obj := _ |}.
suff g : gap_at z h by case: (ls_stop h); exists h.
eexists; first by [].
move=> y; have := step_gap (fun x y => erefl) (fun x w => erefl) st (I : everywhere y); rewrite /= lasso_objE !P_Rules.np_normE.
have -> : lasso_problem A b lam y = ls_f A b y + ls_g lam y by rewrite /lasso_problem /ls_f /ls_g [_ / _]mulrC.
have hu : fnorm (rho *: u) <= lam * sqrt n%:R.
  have eu : u = (x + ls_u s) - soft_thresholding (x + ls_u s) (lam / rho) by rewrite /u -/z; lin.
  have t0 : 0 <= lam / rho by rewrite divr_ge0 // ltW.
  have := fnorm_soft (x + ls_u s) t0; rewrite -eu => h1.
  have -> : fnorm (rho *: u) = rho * fnorm u by rewrite fnormZ' // ltW.
  have := ler_wpmul2l (ltW r0) h1; rewrite mulrCA [rho * (_ / _)]mulrC divfK ?gt_eqF // [lam * _]mulrC //.
have h1 : - (rho * fdot u (x - z)) <= fnorm (rho *: u) * fnorm (x - z).
  by rewrite -fdotZl -fdotNr; apply: le_trans (fdot_cauchy _ _) _; rewrite fnormN'.
have h2 : rho * fdot (z - ls_z s) (y - x) <= fnorm (- rho *: (z - ls_z s)) * (fnorm (y - z) + fnorm (x - z)).
  rewrite -fdotZl; apply: le_trans (fdot_cauchy _ _) _; rewrite scaleNr fnormN'.
  apply: ler_wpmul2l; first by apply/RleP; exact: sqrt_pos.
  have -> : y - x = (y - z) + - (x - z) by lin.
  by apply: le_trans (fnormB_le _ _) _; rewrite fnormN'.
have h3 : fnorm (rho *: u) * fnorm (x - z) <= lam * sqrt n%:R * fnorm (x - z).
  by apply: ler_wpmul2r => //; apply/RleP; exact: sqrt_pos.
have num (F G FY GY a1' a2 a3 a4 a5 : R) : F + G - (FY + GY) <= - a1' + a2 -> - a1' <= a3 -> a2 <= a5 -> a3 <= a4 ->
    F + G <= FY + GY + a4 + a5 by move=> g1 g2 g3 g4; mclra.
by move=> h4; exact: num h4 h1 h2 h3.
Qed.
Lemma run_gap N : (0 < N)%N -> let s := le_state (py_for body N 0 (ls_init n) [::] None) in
  exists2 h, ls_hist s = Some h & gap_at (ls_z s) h.
Proof.
move=> N0; apply: (@py_for_post _ _ body (fun=> True) (fun s => exists2 h, ls_hist s = Some h & gap_at (ls_z s) h)) => // j s _.
by split=> //; have [h e [g _]] := body_gap j s; exists h.
Qed.
End Gap.
