(** Proofs about the node penalty and its proximal operator. *)
From Coq Require Import Reals Lra Psatz.
From mathcomp Require Import all_ssreflect all_algebra.
From Verif Require Import RStruct RTac LinTac Spectral S_Mat RMx ADMM NP M_Prox S_Prox P_Eigh.
From Verif Require Import P_Prox P_Prox2 P_Rules M_Loop M_TGL P_LGL P_GLM P_Utils2 M_Node.
Import Order.TTheory GRing.Theory Num.Theory.

Set Implicit Arguments.
Unset Strict Implicit.
Unset Printing Implicit Defensive.
Local Open Scope ring_scope.

(** * the value of the scalar-constrained problem *)
Definition total n (X : 'M[R]_n) : R := \sum_i \sum_j X i j.

Lemma total_tr n (X : 'M[R]_n) : total X^T = total X.
Proof. by rewrite /total exchange_big; apply: eq_bigr => i _; apply: eq_bigr => j _; rewrite mxE. Qed.
Lemma node_constraintE n (X x : 'M[R]_n) : node_constraint X x = 2%:R * total x - total X.
Proof.
rewrite mulr_natl mulr2n -{2}(total_tr x) /node_constraint /total -big_split -sumrB; apply: eq_bigr => i _.
by rewrite -big_split -sumrB /=; apply: eq_bigr => j _; rewrite !mxE.
Qed.

Lemma sqrt_ge0 (x : R) : 0 <= sqrt x.
Proof. by apply/RleP; apply: sqrt_pos. Qed.
Lemma col_norm_sqr m n (a : 'M[R]_(m, n)) j : col_norm a j ^+ 2 = \sum_i a i j ^+ 2.
Proof. by rewrite expr2 /col_norm sqrt_sqr // sumr_ge0 // => i _; exact: sqr_ge0. Qed.

Lemma col_sum_le n (x : 'M[R]_n) j : `|\sum_i x i j| <= sqrt n%:R * col_norm x j.
Proof.
rewrite -(@ler_pexpn2r _ 2) ?nnegrE ?normr_ge0 ?mulr_ge0 ?sqrt_ge0 ?col_norm_ge0 //.
rewrite real_normK ?num_real // exprMn col_norm_sqr [sqrt _ ^+ 2]expr2 sqrt_sqr ?ler0n //.
have := sum_cauchy predT (fun=> 1) (fun i => x i j).
have -> : \sum_(i | predT i) 1 * x i j = \sum_i x i j by apply: eq_bigr => i _; rewrite mul1r.
by have -> : \sum_(i < n) (1 : R) ^+ 2 = n%:R by rewrite expr1n sumr_const card_ord.
Qed.

Lemma node_lower n (x : 'M[R]_n) : `|total x| <= sqrt n%:R * node_function x.
Proof.
rewrite /total exchange_big /=; apply: le_trans (ler_norm_sum _ _ _) _.
by rewrite /node_function mulr_sumr; apply: ler_sum => j _; exact: col_sum_le.
Qed.

Lemma col_norm_const n (c : R) j : col_norm (const_mx c : 'M[R]_n) j = sqrt n%:R * `|c|.
Proof.
apply/eqP; rewrite -(@eqr_expn2 _ 2) ?col_norm_ge0 ?mulr_ge0 ?sqrt_ge0 ?normr_ge0 //.
rewrite col_norm_sqr exprMn real_normK ?num_real // [sqrt _ ^+ 2]expr2 sqrt_sqr ?ler0n //.
by rewrite (eq_bigr (fun=> c ^+ 2)) => [|i _]; rewrite ?mxE // sumr_const card_ord mulr_natl.
Qed.

Lemma node_value n (X : 'M[R]_n.+1) :
  exists2 x0, minimiser (fun x => node_constraint X x = 0) (@node_function n.+1) x0
    & node_function x0 = `|total X| / (2%:R * sqrt n.+1%:R).
Proof.
have s0 : 0 < sqrt n.+1%:R by apply: sqrt_gt0; rewrite ltr0n.
have sn := lt0r_neq0 s0; have n0 : (n.+1%:R : R) != 0 by rewrite pnatr_eq0.
have ss : sqrt n.+1%:R * sqrt n.+1%:R = n.+1%:R by rewrite sqrt_sqr ?ler0n.
pose c : R := total X / (2%:R * (n.+1%:R * n.+1%:R)).
have t0 : total (const_mx c : 'M[R]_n.+1) = total X / 2%:R.
  rewrite {1}/total (eq_bigr (fun=> n.+1%:R * c)); last first.
    by move=> i _; rewrite (eq_bigr (fun=> c)) => [|j _]; rewrite ?mxE // sumr_const card_ord mulr_natl.
  have num (N x : R) : N != 0 -> N * (N * (x / (2%:R * (N * N)))) = x / 2%:R by move/eqP => N0; mcfield.
  by rewrite sumr_const card_ord -[LHS](mulr_natl _ n.+1) /c num.
have v0 : node_function (const_mx c : 'M[R]_n.+1) = `|total X| / (2%:R * sqrt n.+1%:R).
  rewrite /node_function (eq_bigr (fun=> sqrt n.+1%:R * `|c|)); last by move=> j _; exact: col_norm_const.
  rewrite sumr_const card_ord -[LHS](mulr_natl _ n.+1) /c normrM normfV (ger0_norm (x := 2%:R * _)) ?mulr_ge0 ?ler0n //.
  have num (N x s : R) : s != 0 -> s * s = N -> N * (s * (x / (2%:R * (N * N)))) = x / (2%:R * s) by move/eqP => N0 <-; mcfield.
  exact: num.
exists (const_mx c) => //; split; first by rewrite node_constraintE t0; mclra.
move=> y; rewrite node_constraintE v0 => e; have := node_lower y.
have -> : total y = total X / 2%:R by mclra.
rewrite normrM normfV (ger0_norm (x := 2%:R)) ?ler0n // => h.
by rewrite invfM mulrA ler_pdivr_mulr // [X in _ <= X]mulrC.
Qed.

(** * stationary points of the iteration *)
Lemma node_CZ n (W Y1 Y2 : 'M[R]_n) : node_C n *m col_mx (col_mx W Y1) Y2 = W - Y1 + Y2.
Proof. by rewrite /node_C !mul_row_col mulNmx !mul1mx. Qed.
Lemma node_CtE n (E : 'M[R]_n) : (node_C n)^T *m E = col_mx (col_mx E (- E)) E.
Proof. by rewrite /node_C !tr_row_mx !linearN /= trmx1 !mul_col_mx mulNmx !mul1mx. Qed.

Lemma node_unit n : (node_C n)^T *m node_C n + (2%:R)%:M \in unitmx.
Proof.
apply: pd_unit; rewrite addrC; apply: pdD_psd.
  have -> : (2%:R)%:M = 2%:R *: 1%:M :> 'M[R]_(n + n + n) by rewrite scalemx1.
  by apply: pdZ; [rewrite ltr0n | exact: pd1].
by rewrite -{2}[node_C n]trmxK; exact: psd_gram.
Qed.

Lemma node_solve n (V U1 A1 A2 B W Y1 Y2 : 'M[R]_n) :
  node_inverse n *m (2%:R *: col_mx (col_mx B A1) A2 - (node_C n)^T *m (V + U1)) = col_mx (col_mx W Y1) Y2 <->
  let E := V + W - (Y1 - Y2) + U1 in
  [/\ E + 2%:R *: W = 2%:R *: B, - E + 2%:R *: Y1 = 2%:R *: A1 & E + 2%:R *: Y2 = 2%:R *: A2].
Proof.
cbv zeta; have -> : V + W - (Y1 - Y2) + U1 = W - Y1 + Y2 + (V + U1) by lin.
have -> : (node_inverse n *m (2%:R *: col_mx (col_mx B A1) A2 - (node_C n)^T *m (V + U1)) = col_mx (col_mx W Y1) Y2) <->
  (2%:R *: col_mx (col_mx B A1) A2 - (node_C n)^T *m (V + U1) = ((node_C n)^T *m node_C n + (2%:R)%:M) *m col_mx (col_mx W Y1) Y2).
  rewrite /node_inverse; split=> [<-|->]; first by rewrite mulKVmx ?node_unit.
  by rewrite mulKmx ?node_unit.
rewrite mulmxDl mul_scalar_mx -mulmxA node_CZ !node_CtE !scale_col_mx !add_col_mx !opp_col_mx !add_col_mx.
split.
  move/eq_col_mx => [/eq_col_mx [e1 e2] e3]; split.
  - by rewrite -[RHS](subrK (V + U1)) e1; lin.
  - by rewrite -[RHS](subrK (- (V + U1))) e2; lin.
  - by rewrite -[RHS](subrK (V + U1)) e3; lin.
case=> h1 h2 h3; congr col_mx; first congr col_mx.
- by rewrite -h1; lin.
- by rewrite -h2; lin.
- by rewrite -h3; lin.
Qed.

Lemma node_stationary n (A1 A2 : 'M[R]_n) lam (V W Y1 Y2 U1 U2 : 'M[R]_n) :
  node_step A1 A2 lam (NodeSlice V W Y1 Y2 U1 U2) = Some (NodeSlice V W Y1 Y2 U1 U2) <->
  [/\ bsts (2%:R^-1 *: (V + V^T) - (3%:R / 4%:R) *: U1) lam = Some V, W = V^T, Y1 - Y2 = V + V^T,
      U1 = 2%:R *: U2^T & Y1 = A1 + 2%:R^-1 *: U1 /\ Y2 = A2 - 2%:R^-1 *: U1].
Proof.
rewrite /node_step /=.
have eA : 2%:R^-1 *: (Y1 - Y2 - W - U1 + (W^T - U2)^T) = 2%:R^-1 *: (Y1 - Y2 - U1 - U2^T).
  by congr (_ *: _); rewrite [(W^T - U2)^T]linearB /= trmxK; lin.
rewrite {}eA; split.
  case Eb: (bsts _ _) => [V'|] //; case=> eV; rewrite {V'}eV in Eb *.
  set Z := node_inverse n *m _ => eW eY1 eY2.
  have eZ : Z = col_mx (col_mx W Y1) Y2 by rewrite -eW -eY1 -eY2 !vsubmxK.
  rewrite eW eY1 eY2 => e1 e2.
  have d1 : V + W - (Y1 - Y2) = 0 by rewrite -[LHS](addKr U1) e1 addNr.
  have d2 : W = V^T.
    have : V - W^T = 0 by rewrite -[LHS](addKr U2) e2 addNr.
    by move/eqP; rewrite subr_eq0 => /eqP ->; rewrite trmxK.
  have d3 : Y1 - Y2 = V + V^T by rewrite -d2; apply/eqP; rewrite eq_sym -subr_eq0 d1.
  move/node_solve: eZ => [h1 h2 h3]; rewrite d1 !add0r in h1 h2 h3.
  have u : U1 = 2%:R *: U2^T.
    rewrite -[LHS](addrK (2%:R *: W)) h1 d2 [(V + U2)^T]linearD /=; lin.
  split=> //.
    by rewrite -Eb d3 u; congr (bsts _ _); lin.
  split; [have -> : Y1 = 2%:R^-1 *: (- U1 + 2%:R *: Y1) + 2%:R^-1 *: U1 by lin | have -> : Y2 = 2%:R^-1 *: (U1 + 2%:R *: Y2) - 2%:R^-1 *: U1 by lin].
    by rewrite h2; lin.
  by rewrite h3; lin.
case=> b eW d3 u [y1 y2].
have -> : 2%:R^-1 *: (Y1 - Y2 - U1 - U2^T) = 2%:R^-1 *: (V + V^T) - (3%:R / 4%:R) *: U1.
  by rewrite d3 u; lin.
rewrite b; have d1 : V + W - (Y1 - Y2) = 0 by rewrite d3 eW subrr.
have eZ : node_inverse n *m (2%:R *: col_mx (col_mx ((V + U2)^T) A1) A2 - (node_C n)^T *m (V + U1)) = col_mx (col_mx W Y1) Y2.
  apply/node_solve; rewrite d1 !add0r; split.
  - by rewrite eW u [(V + U2)^T]linearD /=; lin.
  - by rewrite y1; lin.
  - by rewrite y2; lin.
by rewrite eZ !col_mxKu !col_mxKd d1 eW trmxK subrr !addr0.
Qed.

(** the shrinkage used by the model is prox.py's, when no column is zero *)
Lemma bsts_code n (a : 'M[R]_n) lam V : 0 <= lam -> bsts a lam = Some V ->
  forall i j, blockwise_soft_thresholding_symmetric a lam i j = Fin (V i j).
Proof.
move=> l0; rewrite /bsts; case: existsP => // nz [<-] i j.
have c0 : col_norm a j != 0 by apply/eqP => e; apply: nz; exists j; rewrite e.
rewrite /blockwise_soft_thresholding_symmetric (xsum_one (i := j)) ?eqxx.
- by rewrite /bsts_factor /xdiv (negbTE c0) mxE.
- by move=> k kj; rewrite (negbTE kj) /= mulr0.
- by rewrite /bsts_factor /xdiv (negbTE c0) /=; eexists.
Qed.

(** * a stationary point that solves neither problem *)
Section Wit.
Variable lam : R.
Hypothesis l0 : 0 < lam.
Lemma col_scalar n (c : R) (j : 'I_n) : col_norm (c%:M : 'M[R]_n) j = `|c|.
Proof.
apply/eqP; rewrite -(@eqr_expn2 _ 2) ?col_norm_ge0 ?normr_ge0 // col_norm_sqr real_normK ?num_real //.
rewrite (bigD1 j) //= mxE eqxx mulr1n big1 ?addr0 // => i ij.
by rewrite mxE (negbTE ij) mulr0n expr0n.
Qed.

Lemma bsts_scalar n (c : R) : lam < c -> bsts (c%:M : 'M[R]_n) lam = Some (c - lam)%:M.
Proof.
move=> lc; have c0 : 0 < c by apply: lt_trans lc.
rewrite /bsts; case: existsP => [[j]|_]; first by rewrite col_scalar normr_eq0 (negbTE (lt0r_neq0 c0)).
congr Some; apply/matrixP => i j; rewrite !mxE col_scalar gtr0_norm // lc mulr1.
have [_|ij] := eqVneq i j; last by rewrite !mulr0n mul0r.
by rewrite !mulr1n mulrBr mulr1 mulrCA divff ?mulr1 // lt0r_neq0.
Qed.

(** V = lam I, A_1 = - A_2 = (5/3) lam I, Y_1 = - Y_2 = lam I *)
Definition nodeA n : 'M[R]_n := (5%:R / 3%:R * lam)%:M.
Definition nodeU n : 'M[R]_n := (- (4%:R / 3%:R) * lam)%:M.
Definition node_fix n : node_slice n :=
  NodeSlice lam%:M lam%:M lam%:M (- lam%:M) (nodeU n) (2%:R^-1 *: nodeU n).
Lemma node_fix_step n : node_step (nodeA n) (- nodeA n) lam (node_fix n) = Some (node_fix n).
Proof.
have ent (A B : 'M[R]_n) : (forall i j, A i j = B i j) -> A = B by move=> h; apply/matrixP.
apply/node_stationary; rewrite tr_scalar_mx; split=> //.
- rewrite (_ : 2%:R^-1 *: _ - _ = (2%:R * lam)%:M); last first.
    apply: ent => i j; rewrite !mxE; case: (i == j); rewrite ?mulr1n ?mulr0n; mclra.
  have n1 (x : R) : 2%:R * x - x = x by mclra.
  have n2 (x : R) : 0 < x -> x < 2%:R * x by move=> x0; mclra.
  by rewrite bsts_scalar ?n1 // n2.
- by rewrite opprK.
- by rewrite linearZ /= tr_scalar_mx scalerA mulfV ?scale1r // pnatr_eq0.
- split; apply: ent => i j; rewrite !mxE; case: (i == j); rewrite ?mulr1n ?mulr0n; mclra.
Qed.
End Wit.
