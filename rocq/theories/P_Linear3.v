(** Proofs about group_lasso: the partition check, the updates, the stopping test. *)
From Coq Require Import Reals Lra Psatz.
From mathcomp Require Import all_ssreflect all_algebra.
From Verif Require Import RStruct RTac LinTac S_Mat RMx ADMM NP M_Prox M_Loop P_Prox P_Loop P_GL P_GL2 P_LGL P_Rules.
From Verif Require Import S_Linear M_Linear P_Linear P_Linear2.
Import Order.TTheory GRing.Theory Num.Theory.

Set Implicit Arguments.
Unset Strict Implicit.
Unset Printing Implicit Defensive.
Local Open Scope ring_scope.

(** * the partition check *)
Lemma close_natxx a : close_nat a a.
Proof.
rewrite /close_nat subrr normr0; apply: addr_ge0; first by rewrite invr_ge0 exprn_ge0 // ler0n.
by apply: mulr_ge0 => //; rewrite invr_ge0 exprn_ge0 // ler0n.
Qed.
Lemma ten_gt0 k : 0 < (10%:R : R) ^+ k. Proof. by apply: exprn_gt0; rewrite ltr0n. Qed.
Lemma dist_ge1 (a b : nat) : a != b -> (1 : R) <= `|a%:R - b%:R|.
Proof.
wlog ab : a b / (a < b)%N.
  move=> h ne; move: (ne); rewrite neq_ltn => /orP[hab|hba]; first exact: h.
  by rewrite distrC; apply: h; rewrite // eq_sym.
by move=> _; rewrite distrC -natrB ?ger0_norm ?ler0n ?(ltnW ab) // ler1n subn_gt0.
Qed.
Lemma close_natP (a b : nat) : (b%:R : R) <= 10%:R ^+ 5 - 1 -> close_nat a b = (a == b).
Proof.
move=> hb; case: (eqVneq a b) => [->|ne]; first exact: close_natxx.
apply/negbTE; rewrite /close_nat -ltNge; apply: lt_le_trans (dist_ge1 ne).
rewrite ger0_norm ?ler0n //.
have h5 := ten_gt0 5; have e8 : (10%:R : R) ^+ 8 = 10%:R ^+ 5 * 10%:R ^+ 3 by rewrite -exprD.
apply: le_lt_trans (_ : (10%:R ^+ 8)^-1 + (10%:R ^+ 5)^-1 * (10%:R ^+ 5 - 1) < _).
  by rewrite ler_add2l ler_pmul2l // invr_gt0.
rewrite mulrBr mulVf ?gt_eqF // mulr1 e8 invfM addrCA gtr_addl subr_lt0 gtr_pmulr ?invr_gt0 //.
by rewrite invf_lt1 ?ten_gt0 // exprn_egt1 // ltr1n.
Qed.
Lemma zip_all (s t : seq nat) : (forall b, b \in t -> (b%:R : R) <= 10%:R ^+ 5 - 1) -> size s = size t ->
  all (fun p : nat * nat => close_nat p.1 p.2) (zip s t) = (s == t).
Proof.
elim: t s => [|b t IH] [|a s] //= hb [hs].
rewrite IH //; last by move=> c hc; apply: hb; rewrite inE hc orbT.
by rewrite close_natP ?eqseq_cons //; apply: hb; rewrite mem_head.
Qed.
Lemma partition_checkP n groups : (2 <= n)%N -> (n%:R : R) <= 10%:R ^+ 5 ->
  partition_check n groups = (flatten groups == iota 0 n).
Proof.
move=> n2 hn; rewrite /partition_check /np_allclose_nat.
have hb b : b \in iota 0 n -> (b%:R : R) <= 10%:R ^+ 5 - 1.
  rewrite mem_iota add0n /= => h; rewrite ler_subr_addr; apply: le_trans hn.
  by rewrite -[X in _ + X]/(1%:R) -natrD ler_nat addn1.
case: eqP => [hs|hs].
  by rewrite zip_all.
have -> : (flatten groups == iota 0 n) = false by apply/eqP => e; apply: hs; rewrite e.
case: (flatten groups) hs => [|x [|y s]] hs /=; case: n n2 hn hb hs => // [[|n]] //= _ hn hb hs.
apply/negbTE; rewrite !negb_and !close_natP; last first.
- by apply: hb; rewrite mem_head.
- by apply: hb; rewrite !inE eqxx orbT.
by case: x {hs} => [|[|x]].
Qed.

(** * the z-update is the elementwise soft threshold *)
Lemma group_zE n groups (x_hat u : 'cV[R]_n) t z i :
  group_z groups x_hat u t z i 0 = if (i : nat) \in flatten groups then soft1 (x_hat i 0 + u i 0) t else z i 0.
Proof.
rewrite /group_z; elim: groups z => [|g gs IH] z //=.
rewrite IH mem_cat orbC; case: ifP => // _; by rewrite mxE; case: ifP.
Qed.
Lemma group_z_soft n groups (x_hat u : 'cV[R]_n) t z : (forall i : 'I_n, (i : nat) \in flatten groups) ->
  group_z groups x_hat u t z = soft_thresholding (x_hat + u) t.
Proof. by move=> h; apply/matrixP => i j; rewrite !ord1 group_zE h !mxE. Qed.
Lemma check_covers n groups : (2 <= n)%N -> (n%:R : R) <= 10%:R ^+ 5 -> partition_check n groups ->
  forall i : 'I_n, (i : nat) \in flatten groups.
Proof. by move=> n2 hn; rewrite partition_checkP // => /eqP -> i; rewrite mem_iota /=. Qed.

Section Group.
Variables (m n : nat) (chol : cholesky_t) (lstsq : lstsq_t) (A : 'M[R]_(m, n)) (b : 'cV[R]_m) (groups : seq (seq nat))
  (p : ls_params).
Local Notation body := (group_lasso_body chol lstsq A b groups p).
Local Notation rho := (ls_rho p).
Local Notation lam := (ls_lamda p).
Lemma gbody_z it s : let x_hat := ls_alpha p *: ls_x chol lstsq A b rho (ls_z s) (ls_u s) + (1 - ls_alpha p) *: ls_z s in
  ls_z (out_state (body it s).1) = group_z groups x_hat (ls_u s) (lam / rho) (ls_z s).
Proof. by rewrite /group_lasso_body; case: ifP. Qed.
Lemma gbody_u it s : let x_hat := ls_alpha p *: ls_x chol lstsq A b rho (ls_z s) (ls_u s) + (1 - ls_alpha p) *: ls_z s in
  ls_u (out_state (body it s).1) = ls_u s + (x_hat - ls_z (out_state (body it s).1)).
Proof. by rewrite /group_lasso_body; case: ifP. Qed.
Lemma gbody_x it s : ls_xv (out_state (body it s).1) = ls_x chol lstsq A b rho (ls_z s) (ls_u s).
Proof. by rewrite /group_lasso_body; case: ifP. Qed.
(** the recorded dual residual is 0 *)
Lemma gbody_snorm it s : c_snorm (body it s).2 = 0.
Proof.
by rewrite /group_lasso_body; case: ifP => _ /=; rewrite subrr scaler0 np_normE /fnorm fnorm2_0 sqrt_0.
Qed.

Lemma soft1_close a t : 0 <= t -> `|a - soft1 a t| <= t.
Proof.
move=> t0; case: (soft1_cases a t0) => [[_ ->]|[_ ->]|[h ->]].
- have -> : a - (a - t) = t by mcring.
  by rewrite ger0_norm.
- have -> : a - (a + t) = - t by mcring.
  by rewrite normrN ger0_norm.
- by rewrite subr0 ler_norml.
Qed.
Lemma fnorm_soft (x : 'cV[R]_n) t : 0 <= t -> fnorm (x - soft_thresholding x t) <= sqrt n%:R * t.
Proof.
move=> t0; have s0 : 0 <= sqrt n%:R * t by apply: mulr_ge0 => //; apply/RleP/sqrt_pos.
rewrite -(@ler_pexpn2r _ 2) ?nnegrE ?fnorm_ge0 // fnorm_sqr exprMn.
have -> : sqrt n%:R ^+ 2 = n%:R :> R by rewrite RsqrE sqrt_sqrt //; apply/RleP; rewrite ler0n.
apply: le_trans (_ : \sum_(i < n) t ^+ 2 <= _); last by rewrite sumr_const card_ord -[t ^+ 2 *+ n]mulr_natl.
apply: ler_sum => i _; rewrite big_ord_recl big_ord0 addr0 !mxE.
by rewrite -real_normK ?num_real // ler_pexpn2r ?nnegrE // soft1_close.
Qed.

Lemma group_stop1 it : ls_alpha p = 1 -> 0 < rho -> 0 <= lam -> lam < ls_tol p * rho -> 0 <= ls_rtol p -> (0 < n)%N ->
  (forall i : 'I_n, (i : nat) \in flatten groups) -> is_break (body it (ls_init n)).1.
Proof.
move=> a1 r0 l0 lt rt0 n0 cov; have hs := gbody_snorm it (ls_init n).
move: hs; rewrite /group_lasso_body a1.
set x := ls_x _ _ _ _ _ _ _; have -> : 1 *: x + (1 - 1) *: ls_z (ls_init n) = x by lin.
rewrite group_z_soft //; have -> : x + ls_u (ls_init n) = x by rewrite /= addr0.
set z := soft_thresholding _ _; set c := Convergence _ _ _ _ _ => hs; suff -> : ls_stop c by [].
have {}hs : c_snorm c = 0 by move: hs; case: ifP.
have t0 : 0 < ls_tol p by rewrite -(pmulr_lgt0 _ r0); apply: le_lt_trans lt.
have sn : 0 < sqrt n%:R :> R by apply/RltP/sqrt_lt_R0/RltP; rewrite ltr0n.
rewrite /ls_stop hs; apply/andP; split.
  rewrite [c_rnorm _]/= [c_e_pri _]/= !np_normE.
  apply: le_lt_trans (fnorm_soft x (divr_ge0 l0 (ltW r0))) _.
  apply: lt_le_trans (_ : sqrt n%:R * ls_tol p <= _).
    by rewrite ltr_pmul2l // ltr_pdivr_mulr.
  by rewrite ler_addl; apply: mulr_ge0 => //; apply: le_trans (proj1 (np_max_ge _ _)); apply: fnorm_ge0.
rewrite [c_e_dual _]/= np_normE; apply: lt_le_trans (_ : sqrt n%:R * ls_tol p <= _); first exact: mulr_gt0.
by rewrite ler_addl; apply: mulr_ge0 => //; apply: fnorm_ge0.
Qed.

Hypothesis hc : cholesky_ok chol.
Hypothesis hl : lstsq_ok lstsq.
Lemma group_fixed_opt it s : 0 <= lam -> 0 < rho -> ls_alpha p != 0 -> (forall i : 'I_n, (i : nat) \in flatten groups) ->
  ls_z (out_state (body it s).1) = ls_z s -> ls_u (out_state (body it s).1) = ls_u s -> lasso_optimum A b lam (ls_z s).
Proof.
move=> l0 r0 a0 cov ez eu; apply: (ls_fixed_opt hc hl l0 r0 (u := ls_u s) a0).
rewrite /ls_fixed; split.
  by rewrite -[LHS]ez gbody_z group_z_soft.
by rewrite -[LHS]eu gbody_u ez.
Qed.
End Group.

(** * an instance whose documented problem is never solved *)
Section Witness.
Variables (chol : cholesky_t) (lstsq : lstsq_t).
Hypothesis hc : cholesky_ok chol.
Hypothesis hl : lstsq_ok lstsq.
Definition ones2 : 'cV[R]_2 := const_mx 1.
Definition grp2 : seq (seq nat) := [:: [:: 0; 1]]%N.
Lemma cov2 (i : 'I_2) : (i : nat) \in flatten grp2.
Proof. by case: i => [[|[|k]] h]. Qed.

Lemma soft1_small (a : R) : 0 <= a -> a <= 1 -> soft1 a 1 = 0.
Proof.
move=> h0 h1; case: (soft1_cases a (ler01 : 0 <= (1 : R))) => [[h _]|[h _]|[_ ->]] //.
- by move: h1; rewrite leNgt h.
- by exfalso; mclra.
Qed.
Variable p : ls_params.
Hypothesis pl : ls_lamda p = 1.
Hypothesis pr : ls_rho p = 1.
Hypothesis pa : ls_alpha p = 1.
Local Notation body := (group_lasso_body chol lstsq 1%:M ones2 grp2 p).
Definition winv (s : ls_state 2) : Prop := ls_z s = 0 /\ forall i, 0 <= ls_u s i 0 <= 1.
Lemma winv_step it s : winv s -> winv (out_state (body it s).1).
Proof.
move=> [ez hu]; have hz := gbody_z chol lstsq 1%:M ones2 grp2 p it s; have eu := gbody_u chol lstsq 1%:M ones2 grp2 p it s.
move: hz eu; cbv zeta; rewrite pl pr pa ez divr1 group_z_soft //; last exact: cov2.
set x := ls_x _ _ _ _ _ _ _; have -> : 1 *: x + (1 - 1) *: 0 = x by lin.
have hx i : x i 0 = (1 - ls_u s i 0) / 2%:R.
  have := ls_x_normal (1%:M : 'M[R]_2) ones2 (ltr01 : 0 < (1 : R)) 0 (ls_u s) hc hl; rewrite -/x trmx1 mul1mx scale1r mulmxDl !mul1mx.
  move=> /matrixP /(_ i 0); rewrite !mxE; move: (x i 0) (ls_u s i 0) => c d h; mclra.
have z0 : soft_thresholding (x + ls_u s) 1 = 0.
  apply/matrixP => i j; rewrite !ord1 !mxE soft1_small //; have /andP[h1 h2] := hu i; rewrite hx;
    move: (ls_u s i 0) h1 h2 => c h1 h2; mclra.
rewrite z0 => hz eu; split; first by rewrite hz.
move=> i; rewrite eu hz !mxE hx oppr0 addr0; have /andP[h1 h2] := hu i.
by move: (ls_u s i 0) h1 h2 => c h1 h2; apply/andP; split; mclra.
Qed.
Lemma group_run_zero : ls_z (le_state (group_lasso_loop chol lstsq 1%:M ones2 grp2 p)) = 0.
Proof.
have h0 : winv (ls_init 2) by split=> // i; rewrite mxE lexx ler01.
by have [] := py_for_inv (ls_max_iter p) 0 [::] None h0 winv_step.
Qed.
End Witness.

Lemma group_value t : 0 <= t -> group_problem 1%:M ones2 1 grp2 (const_mx t) = (1 - t) ^+ 2 + sqrt 2%:R * t.
Proof.
move=> t0; rewrite /group_problem mul1mx mul1r big_cons big_nil addr0 -/ones2.
have -> : fnorm2 (const_mx t - ones2) / 2%:R = (1 - t) ^+ 2.
  rewrite /fnorm2 !big_ord_recl !big_ord0 !mxE; move: t t0 => t t0; mcfield.
have -> : \sum_(i < 2 | (i : nat) \in [:: 0; 1]%N) (const_mx t : 'cV[R]_2) i 0 ^+ 2 = 2%:R * (t * t).
  by rewrite big_mkcond /= !big_ord_recl big_ord0 !mxE /= addr0 -mulr2n -mulr_natl expr2.
by congr (_ + _); rewrite -[X in _ = X](_ : sqrt 2%:R * sqrt (t * t) = _); [apply: sqrt_mult; apply/RleP; rewrite ?ler0n ?mulr_ge0 | rewrite sqrt_square //; apply/RleP].
Qed.
Lemma sqrt2_bound : sqrt 2%:R < 3%:R / 2%:R :> R.
Proof.
apply/RltP; have -> : (3%:R / 2%:R : R) = sqrt (9%:R / 4%:R).
  have -> : (9%:R / 4%:R : R) = (3%:R / 2%:R) * (3%:R / 2%:R) by mcfield.
  by rewrite sqrt_square //; apply/RleP; rewrite divr_ge0 ?ler0n.
by apply: sqrt_lt_1; apply/RleP || apply/RltP; rewrite ?ler0n ?divr_ge0 ?ler0n //; mclra.
Qed.
