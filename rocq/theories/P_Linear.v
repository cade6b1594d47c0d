(** Proofs about the linear models. *)
From Coq Require Import Reals Lra Psatz.
From mathcomp Require Import all_ssreflect all_algebra.
From Verif Require Import RStruct RTac LinTac S_Mat RMx ADMM NP M_Prox M_Loop P_Prox P_Loop P_GL P_GL2 P_Admm P_LGL M_Linear.
Import Order.TTheory GRing.Theory Num.Theory.

Set Implicit Arguments.
Unset Strict Implicit.
Unset Printing Implicit Defensive.
Local Open Scope ring_scope.

(** what is assumed of cholesky and lstsq *)
Definition cholesky_ok (chol : cholesky_t) : Prop := forall k (M : 'M[R]_k), pd M -> chol k M *m (chol k M)^T = M.
Definition lstsq_ok (lstsq : lstsq_t) : Prop := forall k (M : 'M[R]_k) q, M \in unitmx -> M *m lstsq k M q = q.

Lemma chol_solve chol lstsq k (M : 'M[R]_k) q : cholesky_ok chol -> lstsq_ok lstsq -> pd M ->
  lstsq k (chol k M)^T (lstsq k (chol k M) q) = invmx M *m q.
Proof.
move=> hc hl pM; have uM := pd_unit pM; have e := hc k M pM.
have uL : chol k M \in unitmx by have := uM; rewrite -[X in X \in _]e unitmx_mul => /andP[].
have uLt : (chol k M)^T \in unitmx by rewrite unitmx_tr.
have h1 := hl k _ q uL; have h2 := hl k _ (lstsq k (chol k M) q) uLt.
rewrite -[LHS](mulKmx uM); congr (_ *m _).
by rewrite -[X in X *m _]e -mulmxA h2 h1.
Qed.

Section XUpdate.
Variables (m n : nat) (A : 'M[R]_(m, n)) (b : 'cV[R]_m) (rho : R).
Hypothesis r0 : 0 < rho.
Lemma pd_normal : pd (A^T *m A + rho *: 1%:M).
Proof. by rewrite addrC; apply: pdD_psd; [apply: pdZ => //; exact: pd1 | rewrite -{2}[A]trmxK; exact: psd_gram]. Qed.
Lemma pd_small : pd (1%:M + (1 / rho) *: (A *m A^T)).
Proof.
apply: pdD_psd; first exact: pd1.
have [h1 h2] := psd_gram A; split; first by rewrite /sym linearZ /= h1.
by move=> v; rewrite quadZ; apply: mulr_ge0 => //; rewrite div1r invr_ge0 ltW.
Qed.

Lemma ls_x_normal chol lstsq (z u : 'cV[R]_n) : cholesky_ok chol -> lstsq_ok lstsq ->
  (A^T *m A + rho *: 1%:M) *m ls_x chol lstsq A b rho z u = A^T *m b + rho *: (z - u).
Proof.
move=> hc hl; rewrite /ls_x; case: ifP => _.
  by rewrite (chol_solve _ hc hl pd_normal) mulKVmx // pd_unit //; exact: pd_normal.
set q := A^T *m b + _; rewrite (chol_solve _ hc hl pd_small).
set M := _ + (1 / rho) *: _; set w := invmx M *m _.
have hw : M *m w = A *m q by rewrite /w mulKVmx // pd_unit //; exact: pd_small.
have hw2 : A *m (A^T *m w) = rho *: (A *m q - w).
  move: hw; rewrite /M mulmxDl mul1mx -scalemxAl div1r => <-.
  rewrite scalerBr scalerDr scalerA mulfV ?gt_eqF // scale1r mulmxA.
  by rewrite addrAC subrr add0r.
rewrite -scalemxAr mulmxDl -scalemxAl mul1mx -mulmxA mulmxBr -[A *m (_ *: _)]scalemxAr hw2 scalerA mulVf ?gt_eqF // scale1r.
have -> : A *m q - (A *m q - w) = w by lin.
by rewrite scalerBr scalerA mulfV ?gt_eqF // scale1r addrC subrK scalerA mulVf ?gt_eqF // scale1r.
Qed.
End XUpdate.

Lemma small_t (a c : R) : 0 <= c -> (forall t : R, 0 < t -> t <= 1 -> 0 <= t * a + t ^+ 2 * c) -> 0 <= a.
Proof.
move=> c0 h; rewrite leNgt; apply/negP => a0.
have d0 : 0 < c - a + 1 by mclra.
pose t : R := - a / (c - a + 1).
have t0 : 0 < t by rewrite divr_gt0 // oppr_gt0.
have t1 : t <= 1 by rewrite ler_pdivr_mulr // mul1r; mclra.
have := h t t0 t1; rewrite expr2 -mulrA -mulrDr pmulr_rge0 //.
have : t * c < - a.
  rewrite /t mulrAC ltr_pdivr_mulr // ltr_pmul2l ?oppr_gt0 //; mclra.
by move: (t * c) => x h1 h2; mclra.
Qed.

Section Lasso.
Variables (m n : nat) (A : 'M[R]_(m, n)) (b : 'cV[R]_m) (lamda : R).
Hypothesis l0 : 0 <= lamda.
Definition ls_f (x : 'cV[R]_n) : R := 2%:R^-1 * fnorm2 (A *m x - b).
Definition ls_g (x : 'cV[R]_n) : R := lamda * l1 x.
Definition ls_grad (x : 'cV[R]_n) : 'cV[R]_n := A^T *m (A *m x - b).

Lemma ls_f_exp x y : ls_f y = ls_f x + fdot (ls_grad x) (y - x) + 2%:R^-1 * fnorm2 (A *m (y - x)).
Proof.
rewrite /ls_f /ls_grad; have -> : A *m y - b = (A *m x - b) + A *m (y - x) by rewrite mulmxBr; lin.
rewrite fnorm2D fdot_mulr !mulrDr; congr (_ + _ + _).
by move: (fdot _ _) => a; mclra.
Qed.
Local Notation dm := (mat_ip n 1).
Local Notation lstep rho := (admm_step dm dm id id (@everywhere _) ls_f ls_g rho).
Local Notation lkkt rho := (kkt dm dm id id (@everywhere _) ls_f ls_g rho).

Lemma ls_f_subg x : subgf dm (@everywhere _) ls_f x (ls_grad x).
Proof.
split=> // y _; rewrite (ls_f_exp x y) /= ler_addl.
by apply: mulr_ge0; [rewrite invr_ge0 ler0n | exact: fnorm2_ge0].
Qed.
Lemma ls_g_subg a c : 0 < c -> subgg dm ls_g (soft_thresholding a (lamda / c)) (c *: (a - soft_thresholding a (lamda / c))).
Proof.
move=> c0 w; rewrite /ls_g /= fdotZl.
have h := soft_subgrad a w (divr_ge0 l0 (ltW c0)).
have := ler_wpmul2l (ltW c0) h.
have e : c * (lamda / c) = lamda by rewrite mulrC divfK ?gt_eqF.
by rewrite mulrDr !(mulrA c (lamda / c)) e.
Qed.

Definition lasso_optimum (x : 'cV[R]_n) : Prop := minimiser (@everywhere _) (fun x => ls_f x + ls_g x) x.

Lemma l1_convex (x y : 'cV[R]_n) t : 0 <= t -> t <= 1 -> l1 (x + t *: (y - x)) <= (1 - t) * l1 x + t * l1 y.
Proof.
move=> t0 t1; rewrite /l1 !mulr_sumr -big_split /=; apply: ler_sum => i _.
rewrite !mulr_sumr -big_split /=; apply: ler_sum => j _; rewrite !mxE.
have -> : x i j + t * (y i j - x i j) = (1 - t) * x i j + t * y i j by move: (x i j) (y i j) => p q; mcring.
apply: le_trans (ler_norm_add _ _) _; rewrite !normrM (ger0_norm t0) ger0_norm ?subr_ge0 //.
Qed.

Lemma lasso_kkt x rho : 0 < rho -> lasso_optimum x -> lkkt rho x (- rho^-1 *: ls_grad x).
Proof.
move=> r0 [_ hm]; split.
  have -> : - rho *: id (- rho^-1 *: ls_grad x) = ls_grad x.
    by rewrite /= scalerA mulrNN mulfV ?gt_eqF // scale1r.
  exact: ls_f_subg.
have -> : rho *: (- rho^-1 *: ls_grad x) = - ls_grad x by rewrite scalerA mulrN mulfV ?gt_eqF // scaleN1r.
move=> y /=; rewrite fdotNl.
suff : 0 <= fdot (ls_grad x) (y - x) + (ls_g y - ls_g x).
  by move: (fdot _ _) (ls_g y) (ls_g x) => p q r h; mclra.
apply: (@small_t _ (2%:R^-1 * fnorm2 (A *m (y - x)))).
  by apply: mulr_ge0; [rewrite invr_ge0 ler0n | exact: fnorm2_ge0].
move=> t t0 t1; have := hm (x + t *: (y - x)) I.
rewrite (ls_f_exp x (_ + _)).
have -> : x + t *: (y - x) - x = t *: (y - x) by lin.
rewrite fdotZr -scalemxAr fnorm2Z.
have := ler_wpmul2l l0 (l1_convex x y (ltW t0) t1); rewrite -/(ls_g _) => h1.
move: h1; rewrite /ls_g; move: (l1 _) (l1 x) (l1 y) (fdot _ _) (fnorm2 _) (ls_f x) => c1 c2 c3 c4 c5 c6 h1 h2; mcnra.
Qed.
Lemma kkt_lasso x rho u : lkkt rho x u -> lasso_optimum x.
Proof. by move=> k; exact: (kkt_opt (fun x y => erefl) (fun x w => erefl) k). Qed.

Variables (chol : cholesky_t) (lstsq : lstsq_t).
Hypothesis hc : cholesky_ok chol.
Hypothesis hl : lstsq_ok lstsq.

Lemma ls_x_grad rho z u : 0 < rho ->
  ls_grad (ls_x chol lstsq A b rho z u) = - rho *: (ls_x chol lstsq A b rho z u - z + u).
Proof.
move=> r0; have := ls_x_normal A b r0 z u hc hl; move: (ls_x _ _ _ _ _ _ _) => x h.
rewrite /ls_grad mulmxBr mulmxA; move: h; rewrite mulmxDl -scalemxAl mul1mx => h.
have -> : A^T *m A *m x = A^T *m b + rho *: (z - u) - rho *: x by rewrite -h addrK.
lin.
Qed.

(** the x-update minimises the augmented Lagrangian *)
Lemma ls_x_min rho z u : 0 < rho ->
  unique_minimiser (@everywhere _) (fun x => ls_f x + rho / 2%:R * fnorm2 (x - z + u)) (ls_x chol lstsq A b rho z u).
Proof.
move=> r0; set x := ls_x _ _ _ _ _ _ _.
have hg : ls_grad x = - rho *: (x - z + u) by exact: ls_x_grad.
apply: (@strong_unique _ _ _ _ (rho / 2%:R)) => //; first exact: half_pos.
move=> y _; rewrite (ls_f_exp x y) hg fdotZl.
have -> : y - z + u = (x - z + u) + (y - x) by lin.
rewrite (fnorm2D (x - z + u) (y - x)).
have : 0 <= 2%:R^-1 * fnorm2 (A *m (y - x)) by apply: mulr_ge0; [rewrite invr_ge0 ler0n | exact: fnorm2_ge0].
move: (2%:R^-1 * fnorm2 (A *m (y - x)) : R) => c1 h; move: (fdot (x - z + u) (y - x) : R) (fnorm2 (x - z + u) : R) (fnorm2 (y - x) : R) (ls_f x : R) => c2 c3 c4 c5; mclra.
Qed.

Lemma lasso_step rho z u : 0 < rho ->
  let x := ls_x chol lstsq A b rho z u in
  let z' := soft_thresholding (x + u) (lamda / rho) in
  lstep rho z u x z' (u + (x - z')).
Proof.
move=> r0 /=; set x := ls_x _ _ _ _ _ _ _; split.
- have -> : - rho *: id (id x - z + u) = ls_grad x by rewrite ls_x_grad.
  exact: ls_f_subg.
- by apply: ls_g_subg.
- by rewrite addrA.
Qed.
End Lasso.
