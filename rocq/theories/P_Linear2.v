(** Proofs about lasso and group_lasso. *)
From Coq Require Import Reals Lra Psatz.
From mathcomp Require Import all_ssreflect all_algebra.
From Verif Require Import RStruct RTac LinTac S_Mat RMx ADMM NP M_Prox M_Loop P_Prox P_Loop P_GL P_GL2 P_Admm P_LGL P_Rules.
From Verif Require Import S_Linear M_Linear P_Linear.
Import Order.TTheory GRing.Theory Num.Theory.

Set Implicit Arguments.
Unset Strict Implicit.
Unset Printing Implicit Defensive.
Local Open Scope ring_scope.

Lemma lasso_optimumE m n (A : 'M[R]_(m, n)) b lamda x :
  lasso_optimum A b lamda x <-> minimiser (@everywhere _) (lasso_problem A b lamda) x.
Proof.
have e y : ls_f A b y + ls_g lamda y = lasso_problem A b lamda y by rewrite /ls_f /ls_g /lasso_problem [2%:R^-1 * _]mulrC.
by split=> [] [_ h]; split=> // y _; have := h y I; rewrite !e.
Qed.

(** a loop left by [break] does the same with a larger budget *)
Lemma py_for_more S C (body : nat -> S -> outcome S * C) N M it s checks last : (N <= M)%N ->
  ~~ le_else (py_for body N it s checks last) -> py_for body M it s checks last = py_for body N it s checks last.
Proof.
elim: N M it s checks last => [|N IH] [|M] it s checks last //= h.
by case: (body it s) => [[s'|s'] c] //; apply: IH.
Qed.

Section Lasso.
Variables (m n : nat) (chol : cholesky_t) (lstsq : lstsq_t) (A : 'M[R]_(m, n)) (b : 'cV[R]_m) (p : ls_params).
Hypothesis hc : cholesky_ok chol.
Hypothesis hl : lstsq_ok lstsq.
Hypothesis l0 : 0 <= ls_lamda p.
Hypothesis r0 : 0 < ls_rho p.
Local Notation body := (lasso_body chol lstsq A b p).
Local Notation rho := (ls_rho p).
Local Notation lam := (ls_lamda p).

Lemma body_x it s : ls_xv (out_state (body it s).1) = ls_x chol lstsq A b rho (ls_z s) (ls_u s).
Proof. by rewrite /lasso_body; case: ifP. Qed.
Lemma body_z it s : let x_hat := ls_alpha p *: ls_x chol lstsq A b rho (ls_z s) (ls_u s) + (1 - ls_alpha p) *: ls_z s in
  ls_z (out_state (body it s).1) = soft_thresholding (x_hat + ls_u s) (lam / rho).
Proof. by rewrite /lasso_body; case: ifP. Qed.
Lemma body_u it s : let x_hat := ls_alpha p *: ls_x chol lstsq A b rho (ls_z s) (ls_u s) + (1 - ls_alpha p) *: ls_z s in
  ls_u (out_state (body it s).1) = ls_u s + (x_hat - ls_z (out_state (body it s).1)).
Proof. by rewrite /lasso_body; case: ifP. Qed.

(** a (z, u) that one pass over the updates leaves unchanged *)
Definition ls_fixed (z u : 'cV[R]_n) : Prop :=
  let x_hat := ls_alpha p *: ls_x chol lstsq A b rho z u + (1 - ls_alpha p) *: z in
  z = soft_thresholding (x_hat + u) (lam / rho) /\ u = u + (x_hat - z).

Lemma ls_fixed_opt z u : ls_alpha p != 0 -> ls_fixed z u -> lasso_optimum A b lam z.
Proof.
rewrite /ls_fixed; set x := ls_x _ _ _ _ _ _ _ => a0 [hz hu].
have xh : ls_alpha p *: x + (1 - ls_alpha p) *: z = z.
  by apply/eqP; rewrite -subr_eq0; apply/eqP/(addrI u); rewrite addr0 -hu.
have ex : x = z.
  have : ls_alpha p *: (x - z) = 0.
    have -> : ls_alpha p *: (x - z) = (ls_alpha p *: x + (1 - ls_alpha p) *: z) - z by lin.
    by rewrite xh subrr.
  by move/eqP; rewrite scaler_eq0 (negbTE a0) subr_eq0 => /eqP.
have st := lasso_step A b l0 hc hl z u r0; rewrite -/x /= ex in st.
rewrite xh in hz; rewrite -hz subrr addr0 in st.
have [_ k] := step_fixed st; exact: kkt_lasso k.
Qed.

Lemma ls_opt_fixed z : lasso_optimum A b lam z -> exists u, ls_fixed z u.
Proof.
move=> hz; pose u := - rho^-1 *: ls_grad A b z; exists u.
have ex : ls_x chol lstsq A b rho z u = z.
  have [_ hm] := ls_x_min A b hc hl z u r0; apply/eqP; case: eqP => // ne; exfalso.
  have hg := ls_x_grad A b hc hl z u r0; move: hm hg ne; set x := ls_x _ _ _ _ _ _ _ => hm hg ne.
  have hru : rho *: u = - ls_grad A b z by rewrite /u scalerA mulrN mulfV ?gt_eqF // scaleN1r.
  have h1 := hm z I (fun e => ne (esym e)); move: h1.
  rewrite (ls_f_exp A b z x).
  have -> : z - z + u = u by lin.
  rewrite [fnorm2 (x - z + u)]fnorm2D.
  have : fdot (rho *: u) (x - z) = - fdot (ls_grad A b z) (x - z) by rewrite hru fdotNl.
  rewrite fdotZl [fdot u _]fdotC.
  have := fnorm2_ge0 (A *m (x - z)); have := fnorm2_ge0 (x - z).
  move: (fdot _ _) (fdot _ _) (fnorm2 (A *m _)) (fnorm2 (x - z)) (fnorm2 u) (ls_f A b z) => c1 c2 c3 c4 c5 c6 h4 h3 e.
  have h5 := mulr_ge0 (ltW r0) h4.
  by move: h5 e; move: rho => r h5 e h; mcnra.
rewrite /ls_fixed ex.
have -> : ls_alpha p *: z + (1 - ls_alpha p) *: z = z by lin.
split; last by rewrite subrr addr0.
have [_ kg] := lasso_kkt l0 r0 hz; rewrite -/u in kg.
(* z is the proximal point of z + u *)
have [_ hs] := soft_unique (z + u) (divr_ge0 l0 (ltW r0)).
set s := soft_thresholding _ _ in hs *.
case: (eqVneq z s) => // ne; exfalso.
have h1 := hs z I (fun e => negP ne (introT eqP e)).
have := kg s; rewrite /ls_g /= fdotZl.
have -> : rho * fdot u (s - z) = rho * fdot u (s - z) by [].
move: h1.
have -> : z - (z + u) = - u by lin.
have -> : s - (z + u) = (s - z) - u by lin.
rewrite fnorm2N (fnorm2B (s - z) u) (fdotC (s - z) u).
have := fnorm2_ge0 (s - z).
move: (fdot _ _) (fnorm2 (s - z)) (fnorm2 u) (l1 s) (l1 z) => c1 c2 c3 c4 c5 g0 g1 g2.
have e1 : lam / rho * c4 = (lam * c4) / rho by rewrite mulrAC.
have e2 : lam / rho * c5 = (lam * c5) / rho by rewrite mulrAC.
have g3 : lam * c4 - lam * c5 >= rho * c1 by move: (lam * c4) (lam * c5) (rho * c1) g2 => q1 q2 q3 g; mclra.
have g4 : (lam * c4) / rho - (lam * c5) / rho >= c1.
  by rewrite -mulrBl ler_pdivl_mulr // mulrC.
move: g1; rewrite e1 e2; move: (lam * c4 / rho) (lam * c5 / rho) g4 => q1 q2 g4 g1; mclra.
Qed.

Section Run.
Hypothesis a1 : ls_alpha p = 1.
Hypothesis t0 : 0 < ls_tol p.
Hypothesis rt0 : 0 <= ls_rtol p.
Hypothesis n0 : (0 < n)%N.
Local Notation it := (iter_state body 0 (ls_init n)).
Local Notation dm := (mat_ip n 1).

Lemma ls_it_step k : admm_step dm dm id id (@everywhere _) (ls_f A b) (ls_g lam) rho (ls_z (it k)) (ls_u (it k))
  (ls_xv (it k.+1)) (ls_z (it k.+1)) (ls_u (it k.+1)).
Proof.
rewrite /= body_x body_u body_z a1 subrr scale0r addr0 scale1r.
exact: lasso_step.
Qed.
Lemma sqn_gt0 : 0 < sqrt n%:R * ls_tol p.
Proof. by apply: mulr_gt0 => //; apply/RltP/sqrt_lt_R0/RltP; rewrite ltr0n. Qed.
Lemma ls_brk1 j s : let e := 2%:R^-1 * (sqrt n%:R * ls_tol p) in let s' := out_state (body j s).1 in
  fnorm2 (ls_u s' - ls_u s) <= e ^+ 2 -> rho ^+ 2 * fnorm2 (ls_z s' - ls_z s) <= e ^+ 2 -> is_break (body j s).1.
Proof.
move=> e s'; have e0 : 0 < e by apply: mulr_gt0; [rewrite invr_gt0 ltr0n | exact: sqn_gt0].
have ee : e < sqrt n%:R * ls_tol p by have := sqn_gt0; rewrite /e; move: (_ * ls_tol p) => c h; mclra.
rewrite /s' body_u body_z /lasso_body a1.
set x := ls_x _ _ _ _ _ _ _.
have -> : 1 *: x + (1 - 1) *: ls_z s = x by lin.
set z := soft_thresholding _ _ => h1 h2.
set c := Convergence _ _ _ _ _; suff -> : ls_stop c by [].
rewrite /ls_stop /c [c_rnorm _]/= [c_snorm _]/= [c_e_pri _]/= [c_e_dual _]/= !np_normE; apply/andP; split.
- apply: le_lt_trans (_ : e < _); last first.
    apply: lt_le_trans ee _; rewrite ler_addl; apply: mulr_ge0 => //.
    by apply: le_trans (proj1 (np_max_ge _ _)); apply: fnorm_ge0.
  rewrite -(@ler_pexpn2r _ 2) ?nnegrE ?fnorm_ge0 //; last exact: ltW.
  by rewrite fnorm_sqr; move: h1; congr (fnorm2 _ <= _); lin.
- apply: le_lt_trans (_ : e < _); last first.
    by apply: lt_le_trans ee _; rewrite ler_addl; apply: mulr_ge0 => //; apply: fnorm_ge0.
  rewrite -(@ler_pexpn2r _ 2) ?nnegrE ?fnorm_ge0 //; last exact: ltW.
  by rewrite fnorm_sqr fnorm2Z sqrrN.
Qed.
Lemma ls_brk k : let e := 2%:R^-1 * (sqrt n%:R * ls_tol p) in
  dm (ls_u (it k.+1) - ls_u (it k)) (ls_u (it k.+1) - ls_u (it k)) <= e ^+ 2 ->
  rho ^+ 2 * dm (ls_z (it k.+1) - ls_z (it k)) (ls_z (it k.+1) - ls_z (it k)) <= e ^+ 2 ->
  is_break (body k (it k)).1.
Proof. by move=> e; rewrite -![dm _ _]fnorm2E; exact: ls_brk1. Qed.

Lemma lasso_bound xo N max_iter : lasso_optimum A b lam xo -> (0 < N)%N -> (N < max_iter)%N ->
  let e := 2%:R^-1 * (sqrt n%:R * ls_tol p) in
  let d := rho ^- 2 * fnorm2 (ls_grad A b xo) + fnorm2 xo in
  d <= e ^+ 2 * N%:R -> rho ^+ 2 * d <= e ^+ 2 * N%:R ->
  ~~ le_else (py_for body max_iter 0 (ls_init n) [::] None).
Proof.
move=> ho N0 Nm e d h1 h2.
have e0 : 0 < e by apply: mulr_gt0; [rewrite invr_gt0 ltr0n | exact: sqn_gt0].
have k := lasso_kkt l0 r0 ho.
have ed : dm (ls_u (ls_init n) - - rho^-1 *: ls_grad A b xo) (ls_u (ls_init n) - - rho^-1 *: ls_grad A b xo) +
    dm (ls_z (ls_init n) - id xo) (ls_z (ls_init n) - id xo) = d.
  by rewrite /= !sub0r -scaleNr opprK -!fnorm2E fnorm2Z fnorm2N /d exprVn.
apply: (gen_nowarn (zp := @ls_z n) (up := @ls_u n) (kp := @ls_xv n) (fun x y => erefl) (fun x w => erefl) r0 ls_it_step e0 _ k N0 Nm).
- by move=> j; exact: ls_brk.
- by rewrite ed.
- by rewrite ed.
Qed.
End Run.
End Lasso.
