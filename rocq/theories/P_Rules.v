(** Proofs: norm/prox pairs, step size rules. *)
From Coq Require Import Reals Lra Psatz String ZArith.
From mathcomp Require Import all_ssreflect all_algebra.
From Verif Require Import RStruct RTac LinTac Spectral S_Mat RMx ADMM NP Str M_Prox S_Prox P_Prox P_Prox2.
Import Order.TTheory GRing.Theory Num.Theory.

Set Implicit Arguments.
Unset Strict Implicit.
Unset Printing Implicit Defensive.
Local Open Scope ring_scope.

Lemma squared_normE m n (x : 'M[R]_(m, n)) : squared_norm x = fnorm2 x.
Proof. by apply: eq_bigr => i _; apply: eq_bigr => j _; rewrite expr2. Qed.
Lemma np_normE m n (x : 'M[R]_(m, n)) : np_norm x = fnorm x.
Proof. by rewrite /np_norm /fnorm squared_normE. Qed.

(** * check_norm_prox *)
Section Check.
Variables (n : nat) (linf_1d : 'cV[R]_n -> R -> 'cV[R]_n)
  (node : 'M[R]_n -> R) (prox_node : 'M[R]_n -> R -> 'I_n -> 'I_n -> xR).
Local Notation check := (check_norm_prox linf_1d node prox_node).

Lemma check_ok name : name = "laplacian"%string \/ name = "l1"%string ->
  exists norm prox, check name = Some (norm, prox, false) /\ exact_prox norm prox.
Proof.
case=> ->; do 2 eexists; (split; first reflexivity) => a lam l0; eexists;
  (split; first by move=> i j; reflexivity).
- exact: lap_unique.
- exact: soft_unique.
Qed.
Lemma check_none name :
  check name = None <->
  name \notin [:: "laplacian"%string; "l1"%string; "l2"%string; "linf"%string; "node"%string].
Proof.
rewrite /check_norm_prox !inE.
by do 5 (case: eqP => [_|_]; first by split).
Qed.
Lemma check_flag name norm prox b : check name = Some (norm, prox, b) -> b = (name == "node"%string).
Proof.
rewrite /check_norm_prox.
by do 5 (case: ifP => [_ [_ _ <-] //|_]).
Qed.
End Check.

(** 'l2': the norm is Frobenius, the prox is column-wise *)
Definition l2_wit : 'M[R]_2 := \matrix_(i, j) if i == j then (if i == 0 then 3%:R else 4%:R) else 0.

Lemma sum2 (F : 'I_2 -> R) : \sum_i F i = F 0 + F 1.
Proof. by rewrite !big_ord_recl big_ord0 addr0; congr (_ + F _); apply: val_inj. Qed.
Lemma sum2' (F : 'I_2 -> R) : \sum_i F i = F ord0 + F (lift ord0 ord0).
Proof. by rewrite !big_ord_recl big_ord0 addr0. Qed.

Lemma l2_wit_col j : col_norm l2_wit j = if j == 0 then 3%:R else 4%:R.
Proof.
rewrite /col_norm sum2 !mxE; case: (boolP (j == 0)) => j0.
  have -> : j = 0 by apply/eqP.
  by rewrite /= expr0n addr0 RsqrE sqrt_square //; toR; lra.
have -> : j = 1 by apply/val_inj; case: j j0 => -[|[|]].
by rewrite /= expr0n add0r RsqrE sqrt_square //; toR; lra.
Qed.

Lemma l2_block0 i j : blockwise_soft_thresholding l2_wit 4%:R i j = Fin ((0 : 'M[R]_2) i j).
Proof.
rewrite /blockwise_soft_thresholding stvP; last by left; mclra.
rewrite /stv row_norm_tr l2_wit_col; case: ltrP => h; last by rewrite !mxE.
by exfalso; move: h; case: (j == 0) => h; mclra.
Qed.

Lemma l2_mismatch : exists (a X : 'M[R]_2) lam, 0 < lam /\ exists Y : 'M[R]_2,
  (forall i j, blockwise_soft_thresholding a lam i j = Fin (Y i j)) /\
  lam * np_norm X + fnorm2 (X - a) / 2%:R < lam * np_norm Y + fnorm2 (Y - a) / 2%:R.
Proof.
exists l2_wit, (5%:R^-1 *: l2_wit), 4%:R; split; first by mclra.
exists 0; split; first exact: l2_block0.
have e : fnorm2 l2_wit = 25%:R.
  by rewrite /fnorm2 !sum2 !mxE /= !expr0n /= addr0 add0r; mcring.
have eX : 5%:R^-1 *: l2_wit - l2_wit = (- (4%:R / 5%:R)) *: l2_wit by lin.
rewrite sub0r fnorm2N eX !np_normE /fnorm !fnorm2Z fnorm2_0 e sqrt_0.
have -> : 5%:R^-1 ^+ 2 * 25%:R = 1 :> R by mcfield.
by rewrite sqrt_1; mclra.
Qed.

(** 'linf': the norm is the largest row sum, the prox is column-wise *)
Lemma np_max_ge (x y : R) : x <= np_max x y /\ y <= np_max x y.
Proof. by rewrite /np_max; case: ltrP => h; rewrite ?lexx; split=> //; apply: ltW. Qed.
Lemma vec_inf2 (x : 'cV[R]_2) : vec_inf x = np_max `|x ord0 0| (np_max `|x (lift ord0 ord0) 0| 0).
Proof. by rewrite /vec_inf !big_ord_recl big_ord0. Qed.
Lemma np_norm_inf2 (x : 'M[R]_2) : np_norm_inf x =
  np_max (`|x ord0 ord0| + `|x ord0 (lift ord0 ord0)|)
    (np_max (`|x (lift ord0 ord0) ord0| + `|x (lift ord0 ord0) (lift ord0 ord0)|) 0).
Proof. by rewrite /np_norm_inf !big_ord_recl !big_ord0 !addr0. Qed.

Lemma col_eq (x y : 'cV[R]_2) :
  x ord0 0 = y ord0 0 -> x (lift ord0 ord0) 0 = y (lift ord0 ord0) 0 -> x = y.
Proof.
move=> h0 h1; apply/colP => -[[|[|//]] hi]; have hi' := hi.
  by rewrite (_ : Ordinal hi = ord0) //; apply: val_inj.
by rewrite (_ : Ordinal hi = lift ord0 ord0) //; apply: val_inj.
Qed.

Lemma sq0 (x : R) : x ^+ 2 <= 0 -> x = 0.
Proof.
by move=> h; apply/eqP; rewrite -sqrf_eq0; apply/eqP/le_anti; rewrite h sqr_ge0.
Qed.

Section Linf.
Variable linf_1d : 'cV[R]_2 -> R -> 'cV[R]_2.
Hypothesis Hl : forall a lam, 0 < lam ->
  minimiser (@everywhere _) (fun x => lam * vec_inf x + fnorm2 (x - a) / 2%:R) (linf_1d a lam).

Lemma fnorm2c (x : 'cV[R]_2) : fnorm2 x = x ord0 0 ^+ 2 + x (lift ord0 ord0) 0 ^+ 2.
Proof. by rewrite /fnorm2 sum2' !big_ord1. Qed.

Lemma linf_col (j : 'I_2) : linf_1d (col j 1%:M) 1 = 0.
Proof.
have [_ h] := Hl (col j 1%:M) ltr01; have {h} := h 0 I.
set y := linf_1d _ _; rewrite !fnorm2c vec_inf2 vec_inf2 !mxE normr0.
have -> : np_max 0 (np_max 0 0) = 0 by rewrite /np_max !ltxx.
rewrite mul1r mulr0 add0r.
have [h1 h2] := np_max_ge `|y ord0 0| (np_max `|y (lift ord0 ord0) 0| 0).
have [h3 _] := np_max_ge `|y (lift ord0 ord0) 0| 0.
have h4 := ler_norm (y ord0 0); have h5 := ler_norm (y (lift ord0 ord0) 0).
move: (np_max _ _) h1 h2 h3 => v h1 h2; move: (np_max _ _) h2 => w h2 h3.
have k1 : y ord0 0 <= v by apply: le_trans h1.
have k2 : y (lift ord0 ord0) 0 <= v by apply: le_trans h2; apply: le_trans h3.
have p0 := sqr_ge0 (y ord0 0); have p1 := sqr_ge0 (y (lift ord0 ord0) 0).
have e : j = ord0 \/ j = lift ord0 ord0.
  by case: j {y h1 h2 h3 h4 h5 k1 k2 p0 p1} => -[|[|//]] hi; [left|right]; apply: val_inj.
case: e => -> /=; rewrite ?mulr1n ?mulr0n => h; apply: col_eq; rewrite [RHS]mxE; apply: sq0.
- by clear -h k1 k2 p0 p1; mcnra.
- by clear -h k1 k2 p0 p1; mcnra.
- by clear -h k1 k2 p0 p1; mcnra.
- by clear -h k1 k2 p0 p1; mcnra.
Qed.

Lemma linf_mismatch : exists (a X : 'M[R]_2) lam, 0 < lam /\
  lam * np_norm_inf X + fnorm2 (X - a) / 2%:R <
  lam * np_norm_inf (prox_linf linf_1d a lam) + fnorm2 (prox_linf linf_1d a lam - a) / 2%:R.
Proof.
exists 1%:M, (2%:R^-1 *: 1%:M), 1; split; first exact: ltr01.
have -> : prox_linf linf_1d 1%:M 1 = 0 by apply/matrixP => i j; rewrite mxE linf_col !mxE.
have lin2 (M : 'M[R]_2) : 2%:R^-1 *: M - M = (- 2%:R^-1) *: M by lin.
rewrite lin2.
rewrite sub0r fnorm2N fnorm2Z !np_norm_inf2 !mxE /=.
have -> : fnorm2 (1%:M : 'M[R]_2) = 2%:R.
  by rewrite /fnorm2 !sum2' !mxE /= expr1n expr0n /= addr0 add0r; mcring.
rewrite ?mulr1n ?mulr0n ?mulr1 ?mulr0 normr0 !add0r !addr0.
have -> : `|2%:R^-1| = 2%:R^-1 :> R by rewrite ger0_norm //; mclra.
have -> : np_max (2%:R^-1) (np_max 2%:R^-1 0) = 2%:R^-1.
  rewrite /np_max; have -> : (2%:R^-1 < 0 :> R) = false by apply/negP => h; mclra.
  by rewrite ltxx.
have -> : np_max 0 (np_max 0 0) = 0 by rewrite /np_max !ltxx.
by mclra.
Qed.
End Linf.

Lemma l2_not_exact linf_1d node prox_node norm prox :
  @check_norm_prox 2 linf_1d node prox_node "l2" = Some (norm, prox, false) ->
  ~ exact_prox norm prox.
Proof.
case=> <- <- H; have [a [X [lam [l0 [Y [hY hlt]]]]]] := l2_mismatch.
have [Y' [e [_ h]]] := H a lam (ltW l0).
have eY : Y' = Y by apply/matrixP => i j; have := e i j; rewrite hY => -[].
rewrite eY in h; have [eX|nX] := eqVneq X Y; first by rewrite eX ltxx in hlt.
by have := h X I (elimN eqP nX); rewrite ltNge ltW.
Qed.
Lemma linf_not_exact linf_1d node prox_node norm prox :
  (forall a lam, 0 < lam ->
     minimiser (@everywhere _) (fun x => lam * vec_inf x + fnorm2 (x - a) / 2%:R) (linf_1d a lam)) ->
  @check_norm_prox 2 linf_1d node prox_node "linf" = Some (norm, prox, false) ->
  ~ exact_prox norm prox.
Proof.
move=> Hl [<- <-] H; have [a [X [lam [l0 hlt]]]] := linf_mismatch Hl.
have [Y' [e [_ h]]] := H a lam (ltW l0).
have eY : Y' = prox_linf linf_1d a lam by apply/matrixP => i j; have := e i j => -[].
rewrite eY in h; have [eX|nX] := eqVneq X (prox_linf linf_1d a lam).
  by rewrite eX ltxx in hlt.
by have := h X I (elimN eqP nX); rewrite ltNge ltW.
Qed.

(** * update_rho *)
Section Rho.
Variable o : rho_options.
Hypotheses (ti : 0 < tau_inc o) (td : 0 < tau_dec o).

Lemma rho_cases rho r s :
  (mu o * s < r /\ update_rho o rho r s = tau_inc o * rho) \/
  (~ (mu o * s < r) /\ mu o * r < s /\ update_rho o rho r s = rho / tau_dec o) \/
  (~ (mu o * s < r) /\ ~ (mu o * r < s) /\ update_rho o rho r s = rho).
Proof.
rewrite /update_rho; case: ifP => h1; first by left.
by case: ifP => h2; right; [left|right].
Qed.
Lemma rho_pos rho r s : 0 < rho -> 0 < update_rho o rho r s.
Proof.
move=> r0; rewrite /update_rho; case: ifP => _; first exact: mulr_gt0.
by case: ifP => _ //; apply: divr_gt0.
Qed.
Lemma rho_run_pos rho res : 0 < rho -> 0 < rho_run o rho res.
Proof. by elim: res rho => //= p res IH rho r0; apply: IH; apply: rho_pos. Qed.

Lemma rho_run_env rho res : 1 <= tau_inc o -> 1 <= tau_dec o -> 0 < rho ->
  rho / tau_dec o ^+ size res <= rho_run o rho res <= rho * tau_inc o ^+ size res.
Proof.
move=> ti1 td1; elim/last_ind: res => [|res p IH] r0.
  by rewrite /= !expr0 divr1 mulr1 lexx.
have {IH} /andP[h1 h2] := IH r0.
have e : rho_run o rho (rcons res p) = update_rho o (rho_run o rho res) p.1 p.2.
  by rewrite /rho_run -cats1 foldl_cat.
rewrite e size_rcons !exprSr.
have rr := rho_run_pos res r0.
have tdn : 0 < tau_dec o ^+ size res by apply: exprn_gt0.
have a1 : rho / (tau_dec o ^+ size res * tau_dec o) <= rho_run o rho res / tau_dec o.
  by rewrite invfM mulrA ler_pmul2r ?invr_gt0.
have a2 : rho_run o rho res / tau_dec o <= rho_run o rho res.
  by rewrite ler_pdivr_mulr // ler_pmulr.
have b1 : tau_inc o * rho_run o rho res <= rho * (tau_inc o ^+ size res * tau_inc o).
  by rewrite mulrA [tau_inc o * _]mulrC ler_pmul2r.
have b2 : rho_run o rho res <= tau_inc o * rho_run o rho res.
  by rewrite ler_pmull.
case: (rho_cases (rho_run o rho res) p.1 p.2) => [[_ ->]|[[_ [_ ->]]|[_ [_ ->]]]]; apply/andP; split=> //.
- exact: le_trans (le_trans a1 a2) b2.
- exact: le_trans a2 (le_trans b2 b1).
- exact: le_trans a1 a2.
- exact: le_trans b2 b1.
Qed.
End Rho.
Lemma rho_run_env' o rho res : 1 <= tau_inc o -> 1 <= tau_dec o -> 0 < rho ->
  rho / tau_dec o ^+ size res <= rho_run o rho res <= rho * tau_inc o ^+ size res.
Proof.
by move=> h1 h2 r0; apply: rho_run_env => //; [apply: lt_le_trans h1|apply: lt_le_trans h2]; exact: ltr01.
Qed.

(** * update_gamma *)
Section Gamma.
Variable eps : R.
Hypothesis e0 : 0 < eps.

Lemma gamma_ge g k : eps <= update_gamma g k eps.
Proof. by rewrite /update_gamma /np_max; case: ltrP. Qed.
Lemma gamma_noninc g k : eps <= g -> update_gamma g k eps <= g.
Proof.
move=> h; have g0 : 0 < g by apply: lt_le_trans h.
rewrite /update_gamma /np_max; case: (k %% 20 == 0)%N; case: ifP => // _.
by clear -g0; mclra.
Qed.
Lemma gamma_fix k : update_gamma eps k eps = eps.
Proof. by apply/le_anti; rewrite gamma_ge gamma_noninc. Qed.
Lemma gamma_halves g k : eps <= g -> (20 %| k)%N ->
  update_gamma g k eps = eps \/ update_gamma g k eps = g / 2%:R.
Proof.
move=> h k20; rewrite /update_gamma -/(dvdn 20 k) k20 /np_max.
by case: ltrP; [left|right].
Qed.

Lemma gamma_run_ge g k0 k : eps <= g -> eps <= gamma_run g k0 k eps.
Proof. by move=> h; case: k => //= k; apply: gamma_ge. Qed.
Lemma gamma_run_mono g k0 k l : eps <= g -> (k <= l)%N ->
  gamma_run g k0 l eps <= gamma_run g k0 k eps.
Proof.
move=> h kl; rewrite -(subnK kl); elim: (l - k)%N => //= m IH.
by apply: le_trans IH; apply: gamma_noninc; apply: gamma_run_ge.
Qed.

(** after 20*m steps the step is at most max(eps, g/2^m) *)
Lemma gamma_run_bound g k0 m : eps <= g ->
  gamma_run g k0 (20 * m) eps = eps \/ gamma_run g k0 (20 * m) eps <= g / 2%:R ^+ m.
Proof.
move=> h; elim: m => [|m IH]; first by right; rewrite muln0 /= expr0 divr1.
pose r := (k0 + 20 * m)%N.
have [j [j20 hj]] : exists j, (j < 20)%N /\ (20 %| r + j)%N.
  exists ((20 - r %% 20) %% 20)%N; split; first by rewrite ltn_mod.
  rewrite /dvdn modnDmr -modnDml; have := ltn_pmod r (isT : (0 < 20)%N).
  by move: (r %% 20)%N => q hq; rewrite subnKC ?modnn // ltnW.
have le1 : (20 * m + j.+1 <= 20 * m.+1)%N by rewrite mulnS addnC leq_add2r.
have h1 := gamma_run_mono k0 h le1.
have hg := gamma_run_ge k0 (20 * m + j)%N h.
have := gamma_halves hg hj.
have -> : update_gamma (gamma_run g k0 (20 * m + j) eps) (r + j) eps = gamma_run g k0 (20 * m + j.+1) eps.
  by rewrite addnS /= /r addnA.
have hge := gamma_run_ge k0 (20 * m.+1) h.
case=> e2; rewrite e2 in h1; first by left; apply/le_anti; rewrite h1 hge.
have h2 := gamma_run_mono k0 h (leq_addr j (20 * m)).
have two : (2%:R : R) \is a GRing.unit by rewrite unitfE; mclra.
case: IH => [eI|hI]; last first.
  right; apply: le_trans h1 _; rewrite exprSr invfM mulrA ler_pmul2r; last by mclra.
  exact: le_trans h2 hI.
left; apply/le_anti; rewrite hge andbT; rewrite eI in h2.
by apply: le_trans h1 _; have e1 := e0; clear -h2 e1; mclra.
Qed.

Lemma pow2_large (x : R) : exists m, x <= 2%:R ^+ m.
Proof.
have [m hm] : exists m : nat, x <= m%:R.
  have [h _] := archimed x; exists (Z.to_nat (Z.max 0 (up x))).
  rewrite RnatE INR_IZR_INZ Z2Nat.id; last by apply: Z.le_max_l.
  apply/RleP; left; apply: Rlt_le_trans h _; apply: IZR_le; apply: Z.le_max_r.
exists m; apply: le_trans hm _; rewrite -natrX ler_nat; apply/ltnW/ltn_expl => //.
Qed.

Lemma gamma_eventually g k0 : eps <= g -> exists K, forall k, (K <= k)%N -> gamma_run g k0 k eps = eps.
Proof.
move=> h; have [m hm] := pow2_large (g / eps).
exists (20 * m)%N => k hk; apply/le_anti; rewrite gamma_run_ge // andbT.
apply: le_trans (gamma_run_mono k0 h hk) _.
case: (gamma_run_bound k0 m h) => [->//|h1]; apply: le_trans h1 _.
have t0 : 0 < 2%:R ^+ m :> R by apply: exprn_gt0; mclra.
by rewrite ler_pdivr_mulr // mulrC -ler_pdivr_mulr.
Qed.
End Gamma.

Lemma gamma_all eps g k0 : 0 < eps -> eps <= g ->
  (forall k, eps <= gamma_run g k0 k eps) /\
  (forall k l, (k <= l)%N -> gamma_run g k0 l eps <= gamma_run g k0 k eps) /\
  exists K, forall k, (K <= k)%N -> gamma_run g k0 k eps = eps.
Proof.
move=> e0 h; split; first by move=> k; apply: gamma_run_ge.
by split; [move=> k l; apply: gamma_run_mono | apply: gamma_eventually].
Qed.
