(** C194, C195: what the penalty of the graphical lasso does to the estimate - components, thresholds, path. *)
From Coq Require Import Reals Lra.
From mathcomp Require Import all_ssreflect all_algebra.
From Verif Require Import RStruct RTac LinTac S_Mat RMx NP M_Prox S_Prox P_Prox M_Loop M_GL S_GL P_Eigh P_GL P_KTGL4 P_Screen P_Exist T_GL T_Exist.
Import Order.TTheory GRing.Theory Num.Theory.

Set Implicit Arguments.
Unset Strict Implicit.
Unset Printing Implicit Defensive.
Local Open Scope ring_scope.

(** C194: for every set B of variables, the estimate has no edge between B and the other variables exactly when no empirical covariance between them exceeds
    alpha: the connected components of the estimated graph are those of the graph of the covariances larger than alpha *)
Theorem C194_components n (eigh : eigh_t n) : eigh_ok eigh -> forall S : 'M[R]_n, sym S -> forall alpha rho Z U K, 0 <= alpha -> 0 < rho ->
  gl_updates eigh S alpha 1 rho Z U = (K, Z, U) ->
  forall B : pred 'I_n, (forall i j, B i != B j -> Z i j = 0) <-> (forall i j, B i != B j -> `|S i j| <= alpha).
Proof.
move=> He S sS alpha rho Z U K a0 r0 E B; have [_ mZ] := gl_fixed_opt He sS a0 r0 E; split=> h i j ij.
  have kZ : keep B Z = Z by apply/matrixP => a b; rewrite mxE; case: ifP => // /negbT e; rewrite h.
  have /matrixP/(_ i j) := keep_inv (proj1 mZ) kZ; rewrite mxE (negbTE ij) => e.
  have ne : i != j by apply: contraNneq ij => ->.
  by have [] := gl_opt_entry sS a0 mZ ne; rewrite -e sub0r normrN.
by have /matrixP/(_ i j) := gl_opt_keep sS a0 mZ h; rewrite mxE (negbTE ij).
Qed.
Print Assumptions C194_components.
(** in particular the estimate is diagonal, with the inverse variances, exactly when alpha is at least every covariance *)
Theorem C194_diagonal n (eigh : eigh_t n) : eigh_ok eigh -> forall S : 'M[R]_n, sym S -> forall alpha rho Z U K, 0 <= alpha -> 0 < rho ->
  gl_updates eigh S alpha 1 rho Z U = (K, Z, U) ->
  ((forall i j, i != j -> `|S i j| <= alpha) <-> (forall i j, i != j -> Z i j = 0)) /\
  ((forall i j, i != j -> Z i j = 0) -> forall i, Z i i = (S i i)^-1).
Proof.
move=> He S sS alpha rho Z U K a0 r0 E; have [_ mZ] := gl_fixed_opt He sS a0 r0 E; have cp := C194_components He sS a0 r0 E.
split; first split=> h i j ij.
- have [_ c] := cp (pred1 i); apply: c; last by rewrite /= eqxx [j == i]eq_sym (negbTE ij).
  by move=> a b ab; apply: h; apply: contraNneq ab => ->.
- have [c _] := cp (pred1 i); apply: c; last by rewrite /= eqxx [j == i]eq_sym (negbTE ij).
  by move=> a b ab; apply: h; apply: contraNneq ab => ->.
move=> h i; have := gl_opt_diag sS i a0 mZ.
have e : Z = diag_mx (\row_k Z k k).
  by apply/matrixP => a b; rewrite !mxE; case: eqP => [->|/eqP ab]; rewrite ?mulr1n // mulr0n h.
have := mulmxV (pd_unit (proj1 mZ)) => /matrixP /(_ i i); rewrite {1}e mul_diag_mx !mxE eqxx mulr1n => zi <-.
have z0 : Z i i != 0 by apply: lt0r_neq0; apply: pd_diag_gt0; exact: (proj1 mZ).
have y0 : invmx Z i i != 0 by apply: contra_eq_neq zi => ->; rewrite mulr0 eq_sym oner_eq0.
by rewrite -[RHS]mul1r -zi mulfK.
Qed.
Print Assumptions C194_diagonal.
(** the estimated covariance has the empirical variances, differs from the empirical covariances by at most alpha, and by exactly alpha, towards the sign of the
    edge, at the edges *)
Theorem C194_covariance n (eigh : eigh_t n) : eigh_ok eigh -> forall S : 'M[R]_n, sym S -> forall alpha rho Z U K, 0 <= alpha -> 0 < rho ->
  gl_updates eigh S alpha 1 rho Z U = (K, Z, U) ->
  (forall i, invmx Z i i = S i i) /\
  forall i j, i != j -> [/\ `|invmx Z i j - S i j| <= alpha, 0 < Z i j -> invmx Z i j = S i j + alpha & Z i j < 0 -> invmx Z i j = S i j - alpha].
Proof.
move=> He S sS alpha rho Z U K a0 r0 E; have [_ mZ] := gl_fixed_opt He sS a0 r0 E; split=> [i|i j ij]; first exact: (gl_opt_diag sS i a0 mZ).
exact: (gl_opt_entry sS a0 mZ ij).
Qed.
Print Assumptions C194_covariance.
(** two groups of variables whose covariances do not exceed alpha can be estimated separately *)
Theorem C194_blocks p q (eigh : eigh_t (p + q)) (eigh1 : eigh_t p) (eigh2 : eigh_t q) : eigh_ok eigh -> eigh_ok eigh1 -> eigh_ok eigh2 ->
  forall S : 'M[R]_(p + q), sym S -> forall alpha rho Z U K rho1 Z1 U1 K1 rho2 Z2 U2 K2, 0 <= alpha -> 0 < rho -> 0 < rho1 -> 0 < rho2 ->
  (forall i j, `|S (lshift q i) (rshift p j)| <= alpha) ->
  gl_updates eigh S alpha 1 rho Z U = (K, Z, U) -> gl_updates eigh1 (ulsubmx S) alpha 1 rho1 Z1 U1 = (K1, Z1, U1) ->
  gl_updates eigh2 (drsubmx S) alpha 1 rho2 Z2 U2 = (K2, Z2, U2) -> Z = block_mx Z1 0 0 Z2.
Proof.
move=> He He1 He2 S sS alpha rho Z U K rho1 Z1 U1 K1 rho2 Z2 U2 K2 a0 r0 r1 r2 h E E1 E2.
have [_ mZ] := gl_fixed_opt He sS a0 r0 E.
have [|_ m1] := gl_fixed_opt He1 _ a0 r1 E1; first by rewrite /sym trmx_ulsub sS.
have [|_ m2] := gl_fixed_opt He2 _ a0 r2 E2; first by rewrite /sym trmx_drsub sS.
rewrite -/(diag2 Z1 Z2); apply: (gl_opt_uniq a0 mZ); exact: (gl_opt_blocks sS a0 h m1 m2).
Qed.
Print Assumptions C194_blocks.

(** C195: along the path of the penalties the estimate gets sparser in the l1 norm and fits less well; and trace(S K) + alpha ||K||_od,1 is the number of variables *)
Theorem C195_path n (eigh eigh' : eigh_t n) : eigh_ok eigh -> eigh_ok eigh' -> forall S : 'M[R]_n, sym S ->
  forall alpha alpha' rho rho' Z U K Z' U' K', 0 <= alpha -> alpha < alpha' -> 0 < rho -> 0 < rho' ->
  gl_updates eigh S alpha 1 rho Z U = (K, Z, U) -> gl_updates eigh' S alpha' 1 rho' Z' U' = (K', Z', U') ->
  [/\ l1od Z' <= l1od Z, \tr (S *m Z) - ln (\det Z) <= \tr (S *m Z') - ln (\det Z') &
      l1od Z' = l1od Z -> Z' = Z].
Proof.
move=> He He' S sS alpha alpha' rho rho' Z U K Z' U' K' a0 aa r0 r0' E E'; have a0' := le_trans a0 (ltW aa).
have [_ mZ] := gl_fixed_opt He sS a0 r0 E; have [_ mZ'] := gl_fixed_opt He' sS a0' r0' E'.
have [pZ hZ] := mZ; have [pZ' hZ'] := mZ'; have := hZ _ pZ'; have := hZ' _ pZ; rewrite /gl_obj /gl_obj2.
have [l0 l0'] : 0 <= l1od Z /\ 0 <= l1od Z' by split; apply: sumr_ge0 => i _; apply: sumr_ge0.
move=> h1 h2; have le : l1od Z' <= l1od Z.
  rewrite leNgt; apply/negP => lt.
  have num (a a' x y f g : R) : a < a' -> x < y -> g + a' * y <= f + a' * x -> f + a * x <= g + a * y -> False.
    move=> e1 e2 e3 e4; have e5 : 0 < (a' - a) * (y - x) by rewrite mulr_gt0 ?subr_gt0.
    by move: e3 e4 e5; toR; nra.
  exact: (num _ _ _ _ _ _ aa lt h1 h2).
split=> //.
  have := ler_wpmul2l a0 le; move: h2; move: (\tr _) (\tr _) (ln _) (ln _) (alpha * _) (alpha * _); clear; move=> a b c d e f h1 h2; mclra.
move=> e; apply: (gl_opt_uniq a0' mZ'); split=> // Y pY; rewrite /gl_obj /gl_obj2 -e.
apply: le_trans (hZ' Y pY); rewrite /gl_obj /gl_obj2; move: h2; rewrite e.
by move: (\tr _) (\tr _) (ln _) (ln _) (alpha * _) (alpha' * _); clear; move=> a b c d x f h1; mclra.
Qed.
Print Assumptions C195_path.

Lemma gl_opt_total n (S Z : 'M[R]_n) alpha : sym S -> 0 <= alpha -> gl_optimum S alpha Z -> \tr (S *m Z) + alpha * l1od Z = n%:R.
Proof.
move=> sS a0 mZ; have [pZ _] := mZ; have sZ := proj1 pZ.
have -> : n%:R = fdot (invmx Z) Z by rewrite -tr_fdot ?mulVmx ?mxtrace1 ?pd_unit //; apply: sym_inv.
rewrite tr_fdot // /l1od mulr_sumr /fdot -big_split; apply: eq_bigr => i _ /=.
rewrite (bigD1 i) //= [RHS](bigD1 i) //= (gl_opt_diag sS i a0 mZ) -addrA; congr (_ + _).
rewrite mulr_sumr -big_split; apply: eq_bigr => j ji /=; have ij : i != j by rewrite eq_sym.
have [_ hp hn] := gl_opt_entry sS a0 mZ ij.
case: (ltrgt0P (Z i j)) => z0; [rewrite hp // | rewrite hn // | by rewrite z0 !mulr0 addr0].
  by rewrite mulrDl.
by rewrite mulrN mulrBl.
Qed.
Theorem C195_total n (eigh : eigh_t n) : eigh_ok eigh -> forall S : 'M[R]_n, sym S -> forall alpha rho Z U K, 0 <= alpha -> 0 < rho ->
  gl_updates eigh S alpha 1 rho Z U = (K, Z, U) ->
  \tr (S *m Z) + alpha * l1od Z = n%:R /\ (psd S -> alpha * l1od Z <= n%:R).
Proof.
move=> He S sS alpha rho Z U K a0 r0 E; have [_ mZ] := gl_fixed_opt He sS a0 r0 E.
have e := gl_opt_total sS a0 mZ; split=> // pS; rewrite -e ler_addr.
by rewrite tr_fdot //; apply: psd_fdot_ge0 => //; apply: pd_psd; exact: (proj1 mZ).
Qed.
Print Assumptions C195_total.
(** changing the units of all variables by the same factor *)
Theorem C195_units n (eigh eigh' : eigh_t n) : eigh_ok eigh -> eigh_ok eigh' -> forall S : 'M[R]_n, sym S ->
  forall c alpha rho rho' Z U K Z' U' K', 0 < c -> 0 <= alpha -> 0 < rho -> 0 < rho' ->
  gl_updates eigh S alpha 1 rho Z U = (K, Z, U) -> gl_updates eigh' (c *: S) (c * alpha) 1 rho' Z' U' = (K', Z', U') -> Z' = c^-1 *: Z.
Proof.
move=> He He' S sS c alpha rho rho' Z U K Z' U' K' c0 a0 r0 r0' E E'.
have a0' : 0 <= c * alpha by apply: mulr_ge0 => //; exact: ltW.
have [_ mZ] := gl_fixed_opt He sS a0 r0 E; have [_ mZ'] := gl_fixed_opt He' (symZ _ sS) a0' r0' E'.
apply: (gl_opt_uniq a0' mZ'); have [pZ hZ] := mZ; have ci : 0 < c^-1 by rewrite invr_gt0.
split; first exact: pdZ.
move=> Y pY; have := hZ _ (pdZ c0 pY); rewrite /gl_obj /gl_obj2 !detZ !l1odZ ?(ltW c0) ?(ltW ci) //.
rewrite -!scalemxAl -!scalemxAr !linearZ /= !(mulrA c) -!(mulrA c alpha) mulfV ?gt_eqF // mul1r (mulrCA alpha) (mulrA c) .
have cn : 0 < c ^+ n by apply: exprn_gt0.
have cn' : 0 < c^-1 ^+ n by apply: exprn_gt0.
have := pd_det_gt0 pZ; have := pd_det_gt0 pY => dY dZ.
rewrite -!RmultE !ln_mult; try exact/RltP.
have -> : ln (c^-1 ^+ n) = - ln (c ^+ n) by rewrite exprVn RinvE' ln_Rinv //; exact/RltP.
rewrite !RmultE !RplusE.
move: (\tr _) (\tr _) (ln _) (ln _) (ln _) (l1od _) (l1od _) => a b d e f x y h.
have ey : c * alpha * (c^-1 * y) = alpha * y by rewrite (mulrC c alpha) -mulrA mulVKf ?gt_eqF.
by move: h; rewrite ey -?RoppE; move: (alpha * y) (c * _) (c * _); clear; move=> u v w h; mclra.
Qed.
Print Assumptions C195_units.

(** every problem with a positive semidefinite covariance of positive variances has a resting state; here S = [[2, 1], [1, 2]], with the penalties 1 and 1/2 *)
Example C194_case : exists eigh : eigh_t 2, [/\ eigh_ok eigh, sym exS, (exists Z U, gl_updates eigh exS 1 1 1 Z U = (Z, Z, U)),
  (exists Z U, gl_updates eigh exS (2%:R^-1) 1 1 Z U = (Z, Z, U)) & exists Z U, gl_updates eigh (2%:R *: exS) 2%:R 1 1 Z U = (Z, Z, U)].
Proof.
have [eigh He] := eigh_exists 2; exists eigh.
have gen (S : 'M[R]_2) alpha : psd S -> (forall i, 0 < S i i) -> 0 < alpha -> exists Z U, gl_updates eigh S alpha 1 1 Z U = (Z, Z, U).
  move=> pS dS a0; have [K mK] := gl_exists pS dS a0; exists K; eexists.
  exact: (gl_opt_fixed He (proj1 pS) (ltW a0) ltr01 mK).
have pS := exS_psd.
have d i : 0 < exS i i by rewrite mxE eqxx ltr0n.
have h : 0 < 2%:R^-1 :> R by rewrite invr_gt0 ltr0n.
split=> //; [exact: exS_sym | by apply: gen; rewrite ?ltr01 | by apply: gen |].
apply: gen; rewrite ?ltr0n //; first by apply: psdZ => //; rewrite ler0n.
by move=> i; rewrite mxE mulr_gt0 ?ltr0n.
Qed.
