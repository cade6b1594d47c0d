(** glo_prox: optimality from the multipliers; glopridu_algorithm: the accelerated rate. *)
From Coq Require Import Reals.
From mathcomp Require Import all_ssreflect all_algebra.
From Verif Require Import RStruct RTac LinTac NP S_Mat RMx ADMM M_Utils P_Prox P_Prox2 M_Glopridu P_Glopridu.
Import Order.TTheory GRing.Theory Num.Theory.

Set Implicit Arguments.
Unset Strict Implicit.
Unset Printing Implicit Defensive.
Local Open Scope ring_scope.

Section KKT.
Variables (d B : nat) (blocks : 'I_B -> {set 'I_d}) (radius : 'I_B -> R) (w0 : 'I_d -> R) (lamda : 'I_B -> R).
Notation bsum := (block_sum blocks).
Hypothesis l0 : forall g, 0 <= lamda g.
Definition cylinders (u : 'I_d -> R) : Prop := forall g, \sum_(j in blocks g) u j ^+ 2 <= radius g ^+ 2.
Let v j := w0 j - primal blocks w0 lamda j.

Lemma vE j : v j = w0 j / (1 + bsum lamda j).
Proof. by rewrite /v /primal mulrBr mulr1 opprB addrC subrK div1r. Qed.
Lemma primalE j : primal blocks w0 lamda j = bsum lamda j * v j.
Proof.
rewrite vE /primal; have h := lt0r_neq0 (bsum1_gt0 blocks j l0); move: h; set b := bsum lamda j => h; by mcfield.
Qed.
Lemma v_le j : v j ^+ 2 <= w0 j ^+ 2.
Proof.
rewrite vE expr_div_n ler_pdivr_mulr; last by rewrite exprn_gt0 // bsum1_gt0.
rewrite ler_pemulr ?sqr_ge0 // expr_ge1 ?ler_addl ?bsum_ge0 // ltW // bsum1_gt0 //.
Qed.
Hypothesis feas : cylinders v.
Hypothesis tight : forall g, 0 < lamda g -> \sum_(j in blocks g) v j ^+ 2 = radius g ^+ 2.

Lemma kkt_projection u : cylinders u -> \sum_j primal blocks w0 lamda j * u j <= \sum_j primal blocks w0 lamda j * v j.
Proof.
move=> fu; rewrite -subr_ge0 -sumrB.
have -> : \sum_j (primal blocks w0 lamda j * v j - primal blocks w0 lamda j * u j) = \sum_g lamda g * \sum_(j in blocks g) (v j * (v j - u j)).
  transitivity (\sum_j \sum_(g | j \in blocks g) lamda g * (v j * (v j - u j))).
    by apply: eq_bigr => j _; rewrite primalE -mulrBr -mulrA /block_sum mulr_suml.
  rewrite (exchange_big_dep predT) //=; by apply: eq_bigr => g _; rewrite mulr_sumr.
apply: sumr_ge0 => g _; case: (ltrP 0 (lamda g)) => lg; last by rewrite (le_anti (introT andP (conj lg (l0 g)))) mul0r.
rewrite pmulr_rge0 //.
have : \sum_(j in blocks g) v j ^+ 2 - \sum_(j in blocks g) u j ^+ 2 <= 2%:R * \sum_(j in blocks g) (v j * (v j - u j)).
  rewrite -sumrB mulr_sumr; apply: ler_sum => j _.
  rewrite -subr_ge0; have -> : 2%:R * (v j * (v j - u j)) - (v j ^+ 2 - u j ^+ 2) = (v j - u j) ^+ 2 by mcring.
  exact: sqr_ge0.
rewrite tight // => h; have h2 : 0 <= radius g ^+ 2 - \sum_(j in blocks g) u j ^+ 2 by rewrite subr_ge0; exact: fu.
by rewrite -(pmulr_rge0 _ (_ : 0 < 2%:R)) ?ltr0n //; apply: le_trans h.
Qed.
End KKT.

(** * the accelerated proximal gradient method *)
Section Fista.
Variables n d : nat.
Variables (X : 'M[R]_(n, d)) (Y : 'cV[R]_n) (D : 'cV[R]_d -> Prop) (P : 'cV[R]_d -> R) (sg tau : R).
Hypotheses (n0 : (0 < n)%N) (sg0 : 0 < sg) (tau0 : 0 <= tau).
Hypothesis lip : forall v : 'cV[R]_d, fnorm2 (X *m v) <= n%:R * sg * fnorm2 v.
Hypothesis cv : forall x y t, D x -> D y -> 0 < t -> t <= 1 -> D (x + t *: (y - x)) /\ P (x + t *: (y - x)) <= (1 - t) * P x + t * P y.
Definition lasso_obj (b : 'cV[R]_d) : R := fnorm2 (Y - X *m b) / (2%:R * n%:R) + tau * P b.
(** the exact proximity step *)
Definition prox_point (w0 p : 'cV[R]_d) : Prop := minimiser D (fun u => tau / sg * P u + fnorm2 (u - w0) / 2%:R) p.

Lemma prox_gradient h p x : prox_point (h + (n%:R * sg)^-1 *: (X^T *m (Y - X *m h))) p -> D x ->
  lasso_obj p + sg / 2%:R * fnorm2 (p - h) + sg * fdot (p - h) (h - x) <= lasso_obj x.
Proof.
move=> hp Dx; pose g := (n%:R)^-1 *: (X^T *m (Y - X *m h)).
have nz : n%:R != 0 :> R by rewrite pnatr_eq0 -lt0n.
have np : 0 < n%:R :> R by rewrite ltr0n.
have [Dp _] := hp.
have vi : sg * (tau / sg * P p + fdot (h + (n%:R * sg)^-1 *: (X^T *m (Y - X *m h)) - p) (x - p)) <= tau * P x.
  have -> : tau * P x = sg * (tau / sg * P x) by rewrite mulrA mulrCA divff ?mulr1 // gt_eqF.
  rewrite ler_pmul2l //.
  apply: (@prox_variational _ (mat_ip d 1) D (fun u => tau / sg * P u) _ _ _ _ x Dx); last first.
    by case: hp => h1 h2; split=> // z Dz; have := h2 z Dz; rewrite !fnorm2E.
  move=> x' y' t Dx' Dy' t0 t1.
  have [h1 h2] := cv Dx' Dy' t0 t1; split=> //.
  have c0 : 0 <= tau / sg by rewrite divr_ge0 // ltW.
  by apply: le_trans (ler_wpmul2l c0 h2) _; rewrite mulrDr ![tau / sg * (_ * _)]mulrCA.
have e : h + (n%:R * sg)^-1 *: (X^T *m (Y - X *m h)) - p = (h - p) + sg^-1 *: g by rewrite /g scalerA -invfM [n%:R * sg]mulrC addrAC.
rewrite e fdotDl fdotZl mulrDr mulrDr in vi.
have s1 : sg * (tau / sg * P p) = tau * P p by rewrite mulrA mulrCA divff ?mulr1 // gt_eqF.
have s2 : sg * (sg^-1 * fdot g (x - p)) = fdot g (x - p) by rewrite mulrA divff ?mul1r // gt_eqF.
rewrite s1 s2 in vi.
have quad_at u : fnorm2 (Y - X *m u) / (2%:R * n%:R) = fnorm2 (Y - X *m h) / (2%:R * n%:R) - fdot g (u - h) + fnorm2 (X *m (u - h)) / (2%:R * n%:R).
  have -> : Y - X *m u = (Y - X *m h) - X *m (u - h) by rewrite mulmxBr opprB addrA subrK.
  have -> : fdot g (u - h) = n%:R^-1 * fdot (Y - X *m h) (X *m (u - h)).
    by rewrite /g fdotZl; congr (_ * _); rewrite !fdotE !trmx_mul trmxK mulmxA.
  rewrite fnorm2B; move: (fnorm2 _) (fdot _ _) (fnorm2 _) => a b c; by mcfield.
rewrite /lasso_obj !(quad_at p) (quad_at x).
have hx : 0 <= fnorm2 (X *m (x - h)) / (2%:R * n%:R) by rewrite divr_ge0 ?fnorm2_ge0 // mulr_ge0 // ler0n.
have hpp : fnorm2 (X *m (p - h)) / (2%:R * n%:R) <= sg / 2%:R * fnorm2 (p - h).
  rewrite ler_pdivr_mulr ?mulr_gt0 ?ltr0n //; apply: le_trans (lip _) _.
  have -> : sg / 2%:R * fnorm2 (p - h) * (2%:R * n%:R) = n%:R * sg * fnorm2 (p - h) by move: (fnorm2 _) (n%:R : R) => a b; mcfield.
  exact: lexx.
have d1 : fdot (h - p) (x - p) = fdot (p - h) (h - x) + fnorm2 (p - h).
  have -> : x - p = (x - h) + (h - p) by rewrite addrA subrK.
  rewrite fdotDr -[h - p]opprB !fdotNl fdotNr -fnorm2E -[x - h]opprB fdotNr !opprK //.
have d2 : fdot g (x - p) = fdot g (x - h) - fdot g (p - h) by rewrite -fdotBr opprB addrA subrK.
rewrite d1 d2 mulrDr in vi.
move: vi hx hpp; move: (fnorm2 (Y - _) / _) (fnorm2 (X *m (x - h)) / _) (fnorm2 (X *m (p - h)) / _) (fdot g (x - h)) (fdot g (p - h)) (tau * P p) (tau * P x) => a b c e1 e2 e3 e4.
move: (sg * fdot (p - h) (h - x)) (fnorm2 (p - h)) => f1 f2.
have -> : sg * f2 = sg / 2%:R * f2 + sg / 2%:R * f2 by mcfield.
move: (sg / 2%:R * f2) => f3 h1 h2 h3.
have num (k1 k2 k3 m1 m2 m3 m4 g1 g3 : R) : m3 + (g1 + (g3 + g3) + (m1 - m2)) <= m4 -> 0 <= k2 -> k3 <= g3 ->
  k1 - m2 + k3 + m3 + g3 + g1 <= k1 - m1 + k2 + m4 by move=> {h1 h2 h3} h1 h2 h3; mclra.
exact: num h1 h2 h3.
Qed.

Variable bs : 'cV[R]_d.
Hypothesis Dbs : D bs.
Hypothesis opt : forall b, D b -> lasso_obj bs <= lasso_obj b.
Definition next_t (t : R) : R := 2%:R^-1 * (1 + sqrt (1 + 4%:R * t * t)).
Lemma next_tE t : next_t t ^+ 2 - next_t t = t ^+ 2.
Proof.
rewrite /next_t; have s : sqrt (1 + 4%:R * t * t) ^+ 2 = 1 + 4%:R * t * t.
  rewrite expr2; apply: sqrt_sqrt; apply/RleP; apply: addr_ge0; first exact: ler01.
  by rewrite -mulrA mulr_ge0 ?ler0n // -expr2 sqr_ge0.
move: s; move: (sqrt _) => r s.
have -> : (2%:R^-1 * (1 + r)) ^+ 2 - 2%:R^-1 * (1 + r) = (r ^+ 2 - 1) / 4%:R :> R by mcfield.
by rewrite s; mcfield.
Qed.
Lemma next_t_ge t : 0 <= t -> t + 1 / 2%:R <= next_t t.
Proof.
move=> t0; rewrite /next_t.
have : 2%:R * t <= sqrt (1 + 4%:R * t * t).
  have -> : 2%:R * t = sqrt ((2%:R * t) * (2%:R * t)) by rewrite sqrt_square //; apply/RleP; rewrite mulr_ge0 ?ler0n.
  apply/RleP; apply: sqrt_le_1_alt; apply/RleP.
  have -> : 2%:R * t * (2%:R * t) = 4%:R * t * t by mcring.
  by rewrite ler_addr ler01.
have num (x r : R) : 2%:R * x <= r -> x + 1 / 2%:R <= 2%:R^-1 * (1 + r) by move=> h; mclra.
exact: num.
Qed.

(** the quantity that decreases *)
Definition energy (t : R) (b h : 'cV[R]_d) : R :=
  2%:R / sg * (t ^+ 2 - t) * (lasso_obj b - lasso_obj bs) + fnorm2 (t *: h - (t - 1) *: b - bs).

Lemma energy_step t b h p : 1 <= t -> D b -> prox_point (h + (n%:R * sg)^-1 *: (X^T *m (Y - X *m h))) p ->
  2%:R / sg * t ^+ 2 * (lasso_obj p - lasso_obj bs) + fnorm2 (t *: p - (t - 1) *: b - bs) <= energy t b h.
Proof.
move=> t1 Db hp; have i1 := prox_gradient hp Db; have i2 := prox_gradient hp Dbs.
rewrite /energy; set z := t *: h - (t - 1) *: b - bs.
have -> : t *: p - (t - 1) *: b - bs = t *: (p - h) + z by rewrite /z scalerBr !addrA subrK.
rewrite fnorm2D fnorm2Z fdotZl.
have zz : fdot (p - h) z = (t - 1) * fdot (p - h) (h - b) + fdot (p - h) (h - bs).
  rewrite -fdotZr -fdotDr; congr (fdot _ _); rewrite /z scalerBr scalerBl scale1r.
  by rewrite scalerBl scale1r; lin.
have t0 : 0 <= t by apply: le_trans t1.
have t10 : 0 <= t - 1 by rewrite subr_ge0.
have j1 : t * ((t - 1) * (lasso_obj p + sg / 2%:R * fnorm2 (p - h) + sg * fdot (p - h) (h - b))) <= t * ((t - 1) * lasso_obj b).
  by apply: ler_wpmul2l => //; apply: ler_wpmul2l.
have j2 : t * (lasso_obj p + sg / 2%:R * fnorm2 (p - h) + sg * fdot (p - h) (h - bs)) <= t * lasso_obj bs by apply: ler_wpmul2l.
have := ler_add j1 j2; rewrite zz.
move: (lasso_obj p) (lasso_obj b) (lasso_obj bs) (fnorm2 (p - h)) (fdot (p - h) (h - b)) (fdot (p - h) (h - bs)) (fnorm2 z) => Fp Fb Fs q u v w j.
have sp : 0 < 2%:R / sg by rewrite divr_gt0 ?ltr0n.
have := ler_wpmul2l (ltW sp) j; rewrite -subr_ge0 => k; rewrite -subr_ge0; apply: le_trans k _.
have sn := lt0r_neq0 sg0.
by rewrite le_eqVlt; apply/orP; left; apply/eqP; mcfield.
Qed.

Variable prox : nat -> 'cV[R]_d -> seq R -> res ('cV[R]_d * seq R).
Hypothesis prox_ok : forall it w0 l p l', prox it w0 l = Val (p, l') -> prox_point w0 p.

Lemma fista_loop tol todo it b h t lam r l k : D b -> 1 <= t -> it.+2%:R / 2%:R <= t -> ((0 < it)%N -> (it.+1%:R / 2%:R) ^+ 2 <= t ^+ 2 - t) ->
  glopridu_loop prox X Y sg 0 tol todo it b h t (X *m b) (X *m h) lam = Val (r, l, k) -> (0 < it + todo)%N ->
  [/\ D r, (0 < k)%N & 2%:R / sg * (k.+1%:R / 2%:R) ^+ 2 * (lasso_obj r - lasso_obj bs) <= energy t b h].
Proof.
elim: todo it b h t lam => [|todo IH] it b h t lam Db t1 ti tq /=.
  rewrite addn0 => -[<- _ <-] i0; split=> //; rewrite /energy.
  apply: ler_paddr; first exact: fnorm2_ge0.
  rewrite ler_wpmul2r ?subr_ge0 ?opt // ler_wpmul2l ?tq //; by rewrite divr_ge0 ?ler0n // ltW.
rewrite subr0 scale1r; case e : (prox _ _ _) => [[p l']|] //.
have hp := prox_ok e; have [Dp _] := hp; have st := energy_step t1 Db hp.
case: ifP => _.
  move=> [<- _ <-] _; split=> //; apply: le_trans st; apply: ler_paddr; first exact: fnorm2_ge0.
  rewrite ler_wpmul2r ?subr_ge0 ?opt // ler_wpmul2l //; first by rewrite divr_ge0 ?ler0n // ltW.
  by rewrite ler_expn2r // ?nnegrE ?divr_ge0 ?ler0n // (le_trans _ t1).
set t' := _ * (1 + sqrt _); rewrite -/(next_t t) in t' *.
have t0 : 0 <= t by apply: le_trans t1.
have tg : t + 1 / 2%:R <= t' := next_t_ge t0.
have t'1 : 1 <= t' by apply: le_trans tg; apply: ler_paddr t1; rewrite divr_ge0 ?ler01 ?ler0n.
have t'0 : t' != 0 by rewrite gt_eqF // (lt_le_trans ltr01).
set h' := p + _ => run pos.
have eXh : (1 + (t - 1) / t') *: (X *m p) + ((1 - t) / t') *: (X *m b) = X *m h'.
  rewrite /h' mulmxDr -scalemxAr mulmxBr; have -> : (1 - t) / t' = - ((t - 1) / t') by rewrite -mulNr opprB.
  move: ((t - 1) / t') => c; by rewrite scalerDl scale1r scaleNr scalerBr addrA.
rewrite eXh in run; have en : energy t' p h' <= energy t b h.
  rewrite /energy next_tE; apply: le_trans st; rewrite ler_add2l.
  have -> : t' *: h' - (t' - 1) *: p - bs = t *: p - (t - 1) *: b - bs; last exact: lexx.
  congr (_ - _); rewrite /h' scalerDr scalerA mulrCA divff // mulr1 scalerBr !scalerBl !scale1r; by lin.
have [|||Dr k0 h1] := IH _ _ _ _ _ Dp t'1 _ _ run.
- apply: le_trans tg; have -> : it.+3%:R / 2%:R = it.+2%:R / 2%:R + 1 / 2%:R :> R by rewrite -mulrDl -[it.+3]addn1 natrD.
  by rewrite ler_add2r.
- move=> _; rewrite next_tE ler_expn2r // ?nnegrE ?divr_ge0 ?ler0n //.
- by rewrite addSnnS.
by split=> //; apply: le_trans en.
Qed.
End Fista.
