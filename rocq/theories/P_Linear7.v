(** group_lasso after one iteration, on one variable. *)
From Coq Require Import Reals Lra.
From mathcomp Require Import all_ssreflect all_algebra.
From Verif Require Import RStruct RTac LinTac S_Mat RMx S_Linear NP M_Prox P_Prox M_Loop P_Loop M_Linear.
From Verif Require Import P_Linear P_Linear2 P_Linear3 P_Linear4 P_Linear5.
Import Order.TTheory GRing.Theory Num.Theory.

Set Implicit Arguments.
Unset Strict Implicit.
Unset Printing Implicit Defensive.
Local Open Scope ring_scope.

Definition grp1 : seq (seq nat) := [:: [:: 0%N]].
Lemma gp1 lam (b y : 'cV[R]_1) : group_problem 1%:M b lam grp1 y = (y 0 0 - b 0 0) ^+ 2 / 2%:R + lam * `|y 0 0|.
Proof.
rewrite /group_problem mul1mx /fnorm2 !big_ord_recl !big_ord0 !addr0 submxE; congr (_ + _ * _).
rewrite big_cons big_nil addr0 (bigD1 0) //= big1 ?addr0; last by move=> i; rewrite ord1 eqxx andbF.
by rewrite expr2; exact: sqrt_Rsqr_abs.
Qed.
Lemma chk1 : partition_check 1 grp1.
Proof. by rewrite /partition_check /= /np_allclose_nat /= close_natxx. Qed.

Section Bad.
Variables (chol : cholesky_t) (lstsq : lstsq_t) (p : ls_params) (be : R).
Hypothesis hc : cholesky_ok chol.
Hypothesis hl : lstsq_ok lstsq.
Hypothesis a1 : ls_alpha p = 1.
Hypothesis r1 : ls_rho p = 1.
Hypothesis l0 : 0 <= ls_lamda p.
Hypothesis lt : ls_lamda p < ls_tol p.
Hypothesis rt : 0 <= ls_rtol p.
Hypothesis m0 : (0 < ls_max_iter p)%N.
Hypothesis be0 : 0 <= be.
Lemma bad_x : ls_x chol lstsq (1%:M : 'M[R]_1) (const_mx be) 1 0 0 0 0 = be / 2%:R.
Proof.
have := ls_x_normal (1%:M : 'M[R]_1) (const_mx be) ltr01 0 0 hc hl; rewrite trmx1 !mul1mx subrr scaler0 addr0.
move: (ls_x _ _ _ _ _ _ _) => x /matrixP /(_ 0 0).
rewrite mulmxDl scale1r !mul1mx addmxE [X in _ = X]mxE => <-.
by move: (x 0 0) => y; toR; field.
Qed.
Lemma soft1_le (a t : R) : 0 <= a -> 0 <= t -> soft1 a t <= a.
Proof. by move=> a0 t0; case: (soft1_cases a t0) => [[h ->]|[h ->]|[h ->]] //; mclra. Qed.
Lemma bad_run : ls_z (le_state (group_lasso_loop chol lstsq (1%:M : 'M[R]_1) (const_mx be) grp1 p)) 0 0 <= be / 2%:R.
Proof.
have cov (i : 'I_1) : (i : nat) \in flatten grp1 by rewrite ord1.
rewrite /group_lasso_loop; case: (ls_max_iter p) m0 => // k _ /=.
have lt' : ls_lamda p < ls_tol p * ls_rho p by rewrite r1 mulr1.
have r0 : 0 < ls_rho p by rewrite r1 ltr01.
have := group_stop1 chol lstsq 1%:M (const_mx be) (groups := grp1) 0 a1 r0 l0 lt' rt (ltn0Sn 0) cov.
have := gbody_z chol lstsq 1%:M (const_mx be : 'cV[R]_1) grp1 p 0 (ls_init 1); cbv zeta.
case: group_lasso_body => -[s|s] c // ez _; rewrite [ls_z _]ez group_zE cov.
change (ls_z (ls_init 1)) with (0 : 'cV[R]_1); change (ls_u (ls_init 1)) with (0 : 'cV[R]_1).
rewrite r1 a1 scale1r subrr scale0r addr0 bad_x mxE addr0 divr1.
by apply: soft1_le => //; rewrite divr_ge0 ?ler0n.
Qed.
Lemma bad_gap M : 0 <= M -> 8%:R * (ls_lamda p + M + 1) <= be ->
  let z : 'cV[R]_1 := ls_z (le_state (group_lasso_loop chol lstsq (1%:M : 'M[R]_1) (const_mx be) grp1 p)) in
  group_problem (1%:M : 'M[R]_1) (const_mx be) (ls_lamda p) grp1 (const_mx be) + M <= group_problem (1%:M : 'M[R]_1) (const_mx be) (ls_lamda p) grp1 z.
Proof.
move=> M0 hb; cbv zeta; set z := ls_z _; rewrite !gp1 !mxE subrr expr0n mul0r add0r ger0_norm //.
have := bad_run; rewrite -/z; move: (z 0 0) => x hx.
have : 0 <= ls_lamda p * `|x| by rewrite mulr_ge0.
have e2 : be = 2%:R * (be / 2%:R) by rewrite mulrC divfK // pnatr_eq0.
move: (ls_lamda p * `|x|) => y y0.
have h1 : be ^+ 2 / 8%:R <= (x - be) ^+ 2 / 2%:R.
  move: hx e2; move: (be / 2%:R) => h hx e2; have h0 : 0 <= h by move: be0 e2 => b0 e2; mclra.
  have g : 0 <= (h - x) * (3%:R * h - x) by apply: mulr_ge0; rewrite subr_ge0 //; mclra.
  rewrite e2 ler_pdivl_mulr ?ltr0n //.
  have -> : (2%:R * h) ^+ 2 / 8%:R * 2%:R = h ^+ 2 by toR; field.
  mcnra.
move: h1.
have : be * (ls_lamda p + M + 1) <= be ^+ 2 / 8%:R.
  rewrite ler_pdivl_mulr ?ltr0n // expr2 -mulrA; apply: ler_wpmul2l => //; by rewrite mulrC.
move: l0; move: (_ / 8%:R) (_ / 2%:R) (ls_lamda p) hb => q1 q2 l hb l0' h2 h3; mcnra.
Qed.
End Bad.

Lemma iota_last K : iota 0 K.+2 = rcons (iota 0 K.+1) K.+1.
Proof. by rewrite -[in LHS](addn1 K.+1) iotaD -cats1. Qed.
Lemma zip_same (s : seq nat) : all (fun p : nat * nat => close_nat p.1 p.2) (zip s s).
Proof. by elim: s => //= a s ->; rewrite close_natxx. Qed.
Lemma chk_big K : 10%:R ^+ 5 <= (K.+1%:R : R) -> partition_check K.+2 [:: rcons (iota 0 K.+1) K].
Proof.
move=> hK; rewrite /partition_check iota_last.
have -> : flatten [:: rcons (iota 0 K.+1) K] = rcons (iota 0 K.+1) K by rewrite /flatten /foldr cats0.
move: (iota 0 K.+1) => s; rewrite /np_allclose_nat !size_rcons eqxx zip_rcons // [odflt _ _]all_rcons zip_same andbT.
rewrite /close_nat /=; have -> : `|(K%:R : R) - K.+1%:R| = 1 by rewrite -addn1 natrD opprD addrA subrr sub0r normrN1.
rewrite normr_nat.
move: hK; have := ten_gt0 5; have := ten_gt0 8; move: (10%:R ^+ 5) (10%:R ^+ 8) (K.+1%:R : R) => a c k c0 a0 hk.
have : 1 <= a^-1 * k by rewrite mulrC ler_pdivl_mulr // mul1r.
have : 0 <= c^-1 by rewrite invr_ge0 ltW.
by move: (_ * k) (c^-1) => x y h1 h2; mclra.
Qed.
Lemma not_part_big K : ~ partition_of K.+2 [:: rcons (iota 0 K.+1) K].
Proof.
rewrite /partition_of.
have -> : flatten [:: rcons (iota 0 K.+1) K] = rcons (iota 0 K.+1) K by rewrite /flatten /foldr cats0.
by move/perm_uniq; rewrite iota_uniq rcons_uniq mem_iota ltnSn.
Qed.
