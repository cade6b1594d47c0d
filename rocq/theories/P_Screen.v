(** Setting to zero the entries between two sets of variables: effect on the graphical lasso objectives. *)
From Coq Require Import Reals Lra.
From mathcomp Require Import all_ssreflect all_algebra.
From Verif Require Import RStruct RTac LinTac S_Mat RMx M_Prox S_Prox P_Prox M_GL S_GL P_GL P_KTGL2 P_KTGL4 P_Gauss6.
Import Order.TTheory GRing.Theory Num.Theory.

Set Implicit Arguments.
Unset Strict Implicit.
Unset Printing Implicit Defensive.
Local Open Scope ring_scope.

Section Flip.
Variables (n : nat) (B : pred 'I_n).
Implicit Types X Y S K : 'M[R]_n.

(** change the sign of, or remove, the entries between B and its complement *)
Definition flip X : 'M[R]_n := \matrix_(i, j) if B i == B j then X i j else - X i j.
Definition keep X : 'M[R]_n := \matrix_(i, j) if B i == B j then X i j else 0.
Definition signs : 'M[R]_n := diag_mx (\row_i if B i then 1 else - 1).

Lemma flipE X : flip X = signs *m X *m signs^T.
Proof.
rewrite tr_diag_mx mul_mx_diag mul_diag_mx; apply/matrixP => i j; rewrite !mxE.
by case: (B i); case: (B j); rewrite /= ?mul1r ?mulr1 ?mulN1r ?mulrN1 ?opprK ?mulr1.
Qed.
Lemma signs_sq : signs *m signs = 1%:M.
Proof.
rewrite /signs mul_mx_diag; apply/matrixP => i j; rewrite !mxE.
by case: eqP => [->|_]; rewrite ?mulr1n ?mulr0n ?mul0r //; case: (B j); rewrite ?mulr1 // mulrNN mulr1.
Qed.
Lemma signs_unit : signs \in unitmx. Proof. by have /mulmx1_unit[] := signs_sq. Qed.
Lemma signs_tr : signs^T = signs. Proof. exact: tr_diag_mx. Qed.
Lemma flip_pd X : pd X -> pd (flip X).
Proof. by move=> pX; rewrite flipE; apply: pd_conj => //; exact: signs_unit. Qed.
Lemma det_flip X : \det (flip X) = \det X.
Proof.
by rewrite flipE signs_tr !det_mulmx mulrAC -det_mulmx signs_sq det1 mul1r.
Qed.
Lemma keepE X : keep X = 2%:R^-1 *: (X + flip X).
Proof. by apply/matrixP => i j; rewrite !mxE; case: ifP => _; [move: (X i j : R) => x; mclra | rewrite subrr mulr0]. Qed.
Lemma keep_pd X : pd X -> pd (keep X).
Proof. by move=> pX; rewrite keepE; apply: mid_pd => //; exact: flip_pd. Qed.
Lemma logdet_keep X : pd X -> logdet X <= logdet (keep X).
Proof.
move=> pX; have /= := @gl_f_mid _ 0 _ _ pX (flip_pd pX) false (fun h => False_ind _ (notF h)).
rewrite /gl_f -keepE !mul0mx mxtrace0 !sub0r /logdet det_flip.
by move: (ln _) (ln _) => a b h; mclra.
Qed.
Lemma flip_inv X : pd X -> flip (invmx X) = invmx (flip X).
Proof.
move=> pX; have e : flip (invmx X) *m flip X = 1%:M.
  rewrite !flipE signs_tr -!mulmxA (mulmxA signs signs) signs_sq mul1mx !mulmxA -(mulmxA signs (invmx X)) mulVmx ?pd_unit // mulmx1.
  exact: signs_sq.
by rewrite -[LHS]mulmx1 -(mulmxV (pd_unit (flip_pd pX))) mulmxA e mul1mx.
Qed.
Lemma keep_inv X : pd X -> keep X = X -> keep (invmx X) = invmx X.
Proof.
move=> pX kX; have fX : flip X = X.
  by apply/matrixP => i j; move/matrixP/(_ i j): kX; rewrite !mxE; case: ifP => // _ <-; rewrite oppr0.
by rewrite keepE flip_inv // fX; move: (invmx X) => Y; lin.
Qed.

(** the sum of the removed entries *)
Definition cross X : R := \sum_i \sum_j (if B i == B j then 0 else `|X i j|).
Lemma cross_ge0 X : 0 <= cross X.
Proof. by apply: sumr_ge0 => i _; apply: sumr_ge0 => j _; case: ifP. Qed.
Lemma l1_keep X : l1 X = l1 (keep X) + cross X.
Proof.
rewrite /l1 /cross -big_split; apply: eq_bigr => i _; rewrite -big_split; apply: eq_bigr => j _ /=.
by rewrite mxE; case: ifP => _; rewrite ?addr0 // normr0 add0r.
Qed.
Lemma l1od_keep X : l1od X = l1od (keep X) + cross X.
Proof.
rewrite !l1odE /cross -big_split; apply: eq_bigr => i _; rewrite -big_split; apply: eq_bigr => j _ /=.
rewrite mxE; case: eqP => [->|_]; first by rewrite eqxx addr0.
by case: ifP => _; rewrite ?addr0 // normr0 add0r.
Qed.
Lemma fdot_keep S X c : (forall i j, B i != B j -> `|S i j| <= c) -> fdot S (keep X) <= fdot S X + c * cross X.
Proof.
move=> h; rewrite /fdot /cross mulr_sumr -big_split; apply: ler_sum => i _; rewrite mulr_sumr -big_split; apply: ler_sum => j _ /=.
rewrite mxE; case: ifP => e; first by rewrite mulr0 addr0.
have hij : `|S i j| <= c by apply: h; rewrite e.
rewrite mulr0 -ler_subl_addl sub0r; apply: le_trans (ler_norm _) _; rewrite normrN normrM.
by apply: ler_wpmul2r.
Qed.
Lemma gl_f_keep S X c : sym S -> pd X -> (forall i j, B i != B j -> `|S i j| <= c) -> gl_f S (keep X) <= gl_f S X + c * cross X.
Proof.
move=> sS pX h; have h1 := fdot_keep X h; have h2 := logdet_keep pX; rewrite /gl_f !tr_fdot //.
by move: (fdot _ _) (fdot _ _) (logdet _) (logdet _) (c * _) h1 h2; clear; move=> a b x y z h1 h2; mclra.
Qed.
End Flip.

Section Opt.
Variables (n : nat) (S : 'M[R]_n) (alpha : R).
Hypotheses (sS : sym S) (a0 : 0 <= alpha).

Lemma gl_opt_uniq K Y : gl_optimum S alpha K -> gl_optimum S alpha Y -> K = Y.
Proof.
move=> mK mY; apply: (gl_opt_unique (pen := @l1od n) _ a0 mK mY) => A C.
rewrite l1odZ; last by mclra.
by have := l1odD A C; move: (l1od _) (l1od _) (l1od _) => x y z h3; mclra.
Qed.
Lemma gl_obj_keep B X : pd X -> (forall i j, B i != B j -> `|S i j| <= alpha) -> gl_obj S alpha (keep B X) <= gl_obj S alpha X.
Proof.
move=> pX h; have := gl_f_keep sS pX h; rewrite /gl_obj /gl_obj2 /gl_f /logdet [l1od X](l1od_keep B) mulrDr.
by move: (\tr _) (\tr _) (ln _) (ln _) (alpha * _) (alpha * _); clear; move=> a b c d e f h; mclra.
Qed.
Lemma gl_opt_keep B K : gl_optimum S alpha K -> (forall i j, B i != B j -> `|S i j| <= alpha) -> keep B K = K.
Proof.
move=> mK h; apply: gl_opt_uniq (mK); have [pK hK] := mK; split; first exact: keep_pd.
by move=> Y pY; apply: le_trans (gl_obj_keep pK h) (hK Y pY).
Qed.
Lemma l1od_add (K : 'M[R]_n) i j t : i != j -> l1od (K + t *: delta_mx i j) = l1od K + (`|K i j + t| - `|K i j|).
Proof.
move=> ij; rewrite !l1odE (bigD1 i) //= [X in _ = X + _](bigD1 i) //= (bigD1 j) //= [X in _ = X + _ + _](bigD1 j) //= (negbTE ij).
have -> : `|(K + t *: delta_mx i j) i j| = `|K i j + t| by rewrite !mxE !eqxx mulr1.
set a := \sum_(k | k != j) _; set b := \sum_(k | k != i) _; set a' := \sum_(k | k != j) _; set b' := \sum_(k | k != i) _.
have -> : a = a' by apply: eq_bigr => k /negbTE kj; rewrite !mxE kj andbF mulr0 addr0.
have -> : b = b' by apply: eq_bigr => k /negbTE kj; apply: eq_bigr => l _; rewrite !mxE kj /= mulr0 addr0.
by move: a' b' `|_| `|_| => u v w z; mclra.
Qed.
(** the entries of the covariance *)
Lemma gl_opt_entry K i j : gl_optimum S alpha K -> i != j ->
  [/\ `|invmx K i j - S i j| <= alpha, 0 < K i j -> invmx K i j = S i j + alpha & K i j < 0 -> invmx K i j = S i j - alpha].
Proof.
move=> mK ij; have [_ kg] := gl_kkt sS a0 (ltr01 : 0 < (1 : R)) mK.
have h t : t * (invmx K i j - S i j) <= alpha * (`|K i j + t| - `|K i j|).
  have := kg (K + t *: delta_mx i j) => /=.
  rewrite l1od_add // [alpha * (_ + _)]mulrDr invr1 !scale1r (_ : K + _ - K = t *: delta_mx i j); last by lin.
  have -> : fdot (invmx K - S) (t *: delta_mx i j) = t * (invmx K i j - S i j).
    rewrite fdotZr /fdot (bigD1 i) //= (bigD1 j) //= !big1 ?addr0; first by rewrite !mxE !eqxx mulr1.
      by move=> k /negbTE ki; rewrite big1 // => l _; rewrite !mxE ki mulr0.
    by move=> k /negbTE kj; rewrite !mxE kj andbF mulr0.
  by rewrite ler_add2l.
move: h; move: (invmx K i j : R) (S i j : R) (K i j : R) => g s k h; split.
- rewrite ler_norml; apply/andP; split.
    have h1 := h (- 1); have h2 := ler_norm_add k (- 1); rewrite normrN1 in h2.
    have := ler_wpmul2l a0 (_ : `|k - 1| - `|k| <= 1); rewrite ler_subl_addl => /(_ h2) h3.
    by move: h1 h3; move: (alpha * _) => x; rewrite mulN1r mulr1 => h1 h3; mclra.
  have h1 := h 1; have h2 := ler_norm_add k 1; rewrite normr1 in h2.
  have := ler_wpmul2l a0 (_ : `|k + 1| - `|k| <= 1); rewrite ler_subl_addl => /(_ h2) h3.
  by move: h1 h3; move: (alpha * _) => x; rewrite mul1r mulr1 => h1 h3; mclra.
- move=> k0; have h1 := h (- k); have h2 := h k; rewrite subrr normr0 (gtr0_norm k0) sub0r in h1.
  rewrite gtr0_norm ?addr_gt0 // (gtr0_norm k0) addrK in h2.
  have num (x y : R) : 0 < x -> - x * y <= alpha * - x -> x * y <= alpha * x -> y = alpha.
    move=> x0; rewrite mulNr mulrN ler_opp2 [alpha * _]mulrC ler_pmul2l // => e1; rewrite ler_pmul2l // => e2.
    by apply/eqP; rewrite eq_le e1 e2.
  by have := num k _ k0 h1 h2; clear; move=> e; mclra.
move=> k0; have h1 := h (- k); have h2 := h k; rewrite subrr normr0 (ltr0_norm k0) sub0r opprK in h1.
rewrite ltr0_norm in h2; last by rewrite -[X in _ < X]addr0 ltr_add.
rewrite (ltr0_norm k0) in h2.
have num (x y : R) : x < 0 -> - x * y <= alpha * x -> x * y <= alpha * (- (x + x) - - x) -> y = - alpha.
  move=> x0 e1 e2; have {}e1 : x * (- y) <= x * alpha by move: e1; rewrite mulNr mulrN mulrC (mulrC x).
  have {}e2 : x * y <= x * (- alpha) by move: e2; rewrite (_ : alpha * _ = x * - alpha) //; mcring.
  rewrite ler_nmul2l // in e1; rewrite ler_nmul2l // in e2; clear -e1 e2; mclra.
by have := num k _ k0 h1 h2; clear; move=> e; mclra.
Qed.
End Opt.

(** * two independent blocks *)
Section Blocks.
Variables (p q : nat).
Implicit Types (A : 'M[R]_p) (D : 'M[R]_q).
Definition diag2 A D : 'M[R]_(p + q) := block_mx A 0 0 D.
Definition first_block : pred 'I_(p + q) := fun i => (i < p)%N.
Lemma diag2_pd A D : pd A -> pd D -> pd (diag2 A D).
Proof.
move=> [sA hA] [sD hD]; split; first by rewrite /sym tr_block_mx !trmx0 sA sD.
move=> v; rewrite -(vsubmxK v) col_mx_eq0 negb_and => v0.
have -> : quad (diag2 A D) (col_mx (usubmx v) (dsubmx v)) = quad A (usubmx v) + quad D (dsubmx v).
  by rewrite /quad /diag2 tr_col_mx mul_row_block !mulmx0 addr0 add0r mul_row_col mxE.
have qA := (pd_psd (conj sA hA)).2 (usubmx v); have qD := (pd_psd (conj sD hD)).2 (dsubmx v).
by case/orP: v0 => v0; [have := hA _ v0 | have := hD _ v0] => h; [apply: ltr_paddr | apply: ltr_paddl].
Qed.
Lemma keep_diag2 (Y : 'M[R]_(p + q)) : keep first_block Y = diag2 (ulsubmx Y) (drsubmx Y).
Proof.
rewrite -[LHS]submxK /diag2; congr (block_mx _ _ _ _); apply/matrixP => i j; rewrite !mxE /first_block /= ?ltn_ord //.
- by rewrite ltnNge leq_addr.
- by rewrite ltnNge leq_addr.
- by rewrite !ltnNge !leq_addr.
Qed.
Lemma l1od_diag2 A D : l1od (diag2 A D) = l1od A + l1od D.
Proof.
rewrite !l1odE big_split_ord /=; congr (_ + _); apply: eq_bigr => i _; rewrite big_split_ord /=.
  rewrite [X in _ + X]big1 ?addr0; last by move=> j _; rewrite /diag2 block_mxEur mxE normr0 if_same.
  by apply: eq_bigr => j _; rewrite /diag2 block_mxEul (inj_eq (@lshift_inj _ _)).
rewrite [X in X + _]big1 ?add0r; last by move=> j _; rewrite /diag2 block_mxEdl mxE normr0 if_same.
by apply: eq_bigr => j _; rewrite /diag2 block_mxEdr (inj_eq (@rshift_inj _ _)).
Qed.
Lemma gl_obj_diag2 (S : 'M[R]_(p + q)) alpha A D : pd A -> pd D ->
  gl_obj S alpha (diag2 A D) = gl_obj (ulsubmx S) alpha A + gl_obj (drsubmx S) alpha D.
Proof.
move=> pA pD; rewrite /gl_obj /gl_obj2 l1od_diag2.
have -> : \tr (S *m diag2 A D) = \tr (ulsubmx S *m A) + \tr (drsubmx S *m D).
  by rewrite -{1}(submxK S) /diag2 mulmx_block !mulmx0 !addr0 !add0r mxtrace_block.
have -> : ln (\det (diag2 A D)) = ln (\det A) + ln (\det D).
  by rewrite /diag2 det_ublock -RmultE ln_mult //; apply/RltP; apply: pd_det_gt0.
move: (\tr _) (\tr _) (ln _) (ln _) (l1od _) (l1od _); clear; move=> a b c d e f; mcring.
Qed.
Lemma gl_opt_blocks (S : 'M[R]_(p + q)) alpha A D : sym S -> 0 <= alpha ->
  (forall i j, `|S (lshift q i) (rshift p j)| <= alpha) ->
  gl_optimum (ulsubmx S) alpha A -> gl_optimum (drsubmx S) alpha D -> gl_optimum S alpha (diag2 A D).
Proof.
move=> sS a0 h [pA hA] [pD hD]; split; first exact: diag2_pd.
have hc i j : first_block i != first_block j -> `|S i j| <= alpha.
  rewrite /first_block; case: (split_ordP i) => i' ->; case: (split_ordP j) => j' -> /=; rewrite ?ltn_ord ?[(p + _ < p)%N]ltnNge ?leq_addr //= => _.
  by rewrite -sS mxE.
move=> Y pY; apply: le_trans (gl_obj_keep sS pY hc); rewrite keep_diag2 !gl_obj_diag2 //; try exact: ul_pd; try exact: dr_pd.
by apply: ler_add; [apply: hA; exact: ul_pd | apply: hD; exact: dr_pd].
Qed.
End Blocks.
