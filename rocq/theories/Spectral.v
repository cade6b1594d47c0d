(** Spectral theorem for real symmetric matrices. Mathematics only: it is what
    makes the specification of [np.linalg.eigh] satisfiable. *)
From Coq Require Import Reals Lra.
From mathcomp Require Import all_ssreflect all_algebra.
From mathcomp Require Import complex.
From Verif Require Import RStruct RTac.
Import Order.TTheory GRing.Theory Num.Theory.

Set Implicit Arguments.
Unset Strict Implicit.
Unset Printing Implicit Defensive.
Local Open Scope ring_scope.

Definition orthogonal n (Q : 'M[R]_n) : Prop := Q *m Q^T = 1%:M.

Lemma orthogonalT n (Q : 'M[R]_n) : orthogonal Q -> Q^T *m Q = 1%:M.
Proof. exact: mulmx1C. Qed.

Lemma orthogonal1 n : orthogonal (1%:M : 'M[R]_n).
Proof. by rewrite /orthogonal trmx1 mulmx1. Qed.

Lemma orthogonal_tr n (Q : 'M[R]_n) : orthogonal Q -> orthogonal Q^T.
Proof. by move=> h; rewrite /orthogonal trmxK; apply: orthogonalT. Qed.

Lemma orthogonal_mul n (P Q : 'M[R]_n) :
  orthogonal P -> orthogonal Q -> orthogonal (P *m Q).
Proof.
move=> hP hQ; rewrite /orthogonal trmx_mul mulmxA -(mulmxA P) hQ mulmx1.
exact: hP.
Qed.

Lemma tr11 (M : 'M[R]_1) : M^T = M.
Proof. by apply/matrixP => i j; rewrite !ord1 mxE. Qed.

Lemma rownorm_ge0 n (v : 'rV[R]_n) : 0 <= (v *m v^T) 0 0.
Proof.
rewrite mxE; apply: sumr_ge0 => i _; rewrite !mxE.
by rewrite -expr2 sqr_ge0.
Qed.

Lemma rownorm_gt0 n (v : 'rV[R]_n) : v != 0 -> 0 < (v *m v^T) 0 0.
Proof.
move=> hv; rewrite lt_def rownorm_ge0 andbT; apply/eqP => h.
case/eqP: hv; apply/rowP => i; rewrite mxE.
move: h; rewrite mxE => h.
have hh : forall j, true -> v 0 j * v^T j 0 = 0.
  apply/psumr_eq0P => // j _; rewrite mxE -expr2; exact: sqr_ge0.
have := hh i isT; rewrite mxE -expr2 => /eqP; rewrite sqrf_eq0 => /eqP //.
Qed.

Lemma sym_eigen n (A : 'M[R]_n.+1) : A^T = A ->
  exists (l : R) (v : 'rV[R]_n.+1), v != 0 /\ v *m A = l *: v.
Proof.
move=> sA.
have [a /eigenvalueP [v hv v0]] :=
  @Theorem7' R_rcfType n.+1 (map_mx (real_complex R_rcfType) A) isT.
pose x := map_mx (@complex.Re R) v : 'rV[R]_n.+1.
pose y := map_mx (@complex.Im R) v : 'rV[R]_n.+1.
have hx : x *m A = complex.Re a *: x - complex.Im a *: y.
  apply/rowP => j; move/rowP/(_ j): hv; rewrite !mxE => h.
  move/(congr1 (@complex.Re R)): h; rewrite raddf_sum /= => h.
  transitivity (\sum_i complex.Re (v 0 i * map_mx (real_complex R_rcfType) A i j)).
    by apply: eq_bigr => i _; rewrite !mxE; case: (v 0 i) => p q /=; rewrite mulr0 subr0.
  by rewrite h; case: (a) => p q; case: (v 0 j).
have hy : y *m A = complex.Im a *: x + complex.Re a *: y.
  apply/rowP => j; move/rowP/(_ j): hv; rewrite !mxE => h.
  move/(congr1 (@complex.Im R)): h; rewrite raddf_sum /= => h.
  transitivity (\sum_i complex.Im (v 0 i * map_mx (real_complex R_rcfType) A i j)).
    apply: eq_bigr => i _; rewrite !mxE; case: (v 0 i) => p q /=.
    by rewrite mulr0 add0r.
  rewrite h; case: (a) => p q; case: (v 0 j) => r s /=.
  by rewrite addrC.
have e1 : (x *m A *m y^T) = (y *m A *m x^T).
  by rewrite -[LHS]tr11 !trmx_mul trmxK sA mulmxA.
have xy : x *m y^T = y *m x^T.
  by rewrite -[LHS]tr11 trmx_mul trmxK.
have e2 : complex.Im a * ((x *m x^T) 0 0 + (y *m y^T) 0 0) = 0.
  move: e1; rewrite hx hy mulmxBl mulmxDl -!scalemxAl xy.
  move/matrixP/(_ 0 0); rewrite !(mxE _ _ 0 0) => h.
  move: h; move: (\sum_j y _ _ * _) (\sum_j _ * y^T _ _) (\sum_j x _ _ * _) => p q r h.
  mclra.
have vn0 : (x != 0) || (y != 0).
  rewrite -negb_and; apply/negP => /andP[/eqP x0 /eqP y0].
  case/eqP: v0; apply/rowP => j; move/rowP/(_ j): x0; move/rowP/(_ j): y0.
  by rewrite !mxE; case: (v 0 j) => p q /= -> ->.
have hpos : 0 < (x *m x^T) 0 0 + (y *m y^T) 0 0.
  case/orP: vn0 => h.
    by apply: ltr_paddr; rewrite ?rownorm_ge0 ?rownorm_gt0.
  by apply: ltr_paddl; rewrite ?rownorm_ge0 ?rownorm_gt0.
have im0 : complex.Im a = 0.
  by move/eqP: e2; rewrite mulf_eq0 (gt_eqF hpos) orbF => /eqP.
rewrite im0 !scale0r ?subr0 ?add0r in hx hy.
exists (complex.Re a); case/orP: vn0 => h; first by exists x.
by exists y.
Qed.

Lemma householder n (v : 'rV[R]_n.+1) : v *m v^T = 1%:M ->
  exists H : 'M[R]_n.+1, orthogonal H /\ delta_mx 0 0 *m H = v.
Proof.
move=> vv; pose e : 'rV[R]_n.+1 := delta_mx 0 0.
have ee : e *m e^T = 1%:M.
  by rewrite trmx_delta mul_delta_mx [RHS]mx11_scalar; apply/matrixP => i j; rewrite !ord1 !mxE.
pose w := v - e.
have [w0|wn0] := eqVneq w 0.
  exists 1%:M; split; first exact: orthogonal1.
  by rewrite mulmx1; apply/esym/eqP; rewrite -subr_eq0 -/w w0.
pose c := (w *m w^T) 0 0.
have cpos : 0 < c by apply: rownorm_gt0.
have cE : w *m w^T = c%:M by rewrite [LHS]mx11_scalar.
pose H := 1%:M - (2%:R / c) *: (w^T *m w).
have HT : H^T = H by rewrite /H linearB linearZ /= trmx1 trmx_mul trmxK.
have key : (w^T *m w) *m (w^T *m w) = c *: (w^T *m w).
  by rewrite mulmxA -(mulmxA w^T) cE -mulmxA mul_scalar_mx scalemxAr.
exists H; split.
  rewrite /orthogonal HT /H.
  set W := w^T *m w; set k := 2%:R / c.
  have E : (k *: W) *m (k *: W) = (k * 2%:R) *: W.
    rewrite -scalemxAl -scalemxAr key !scalerA; congr (_ *: _).
    have := lt0r_neq0 cpos => c0; rewrite /k; by mcfield.
  rewrite mulmxBl mul1mx mulmxBr mulmx1 E.
  by rewrite mulr_natr mulr2n scalerDl opprB addrK subrK.
rewrite /H mulmxBr mulmx1 -scalemxAr mulmxA.
have ewE : (e *m w^T) = (- (c / 2%:R))%:M.
  rewrite [LHS]mx11_scalar; congr (_%:M).
  have -> : w^T = v^T - e^T by rewrite /w linearB.
  rewrite mulmxBr ee.
  have -> : c = 2%:R - 2%:R * (e *m v^T) 0 0.
    rewrite /c /w linearB /= mulmxBl !mulmxBr vv ee.
    have -> : v *m e^T = e *m v^T.
      by rewrite -[LHS]tr11 trmx_mul trmxK.
    rewrite !mxE. 
    move: (\sum_j _) => s /=. mcring.
  rewrite !mxE; move: (\sum_j _) => s /=. by mcfield.
rewrite -/e ewE mul_scalar_mx scalerA.
have -> : 2%:R / c * - (c / 2%:R) = -1.
  have := lt0r_neq0 cpos => c0; by mcfield.
by rewrite scaleN1r opprK /w addrC subrK.
Qed.

Theorem spectral n (A : 'M[R]_n) : A^T = A ->
  exists (Q : 'M[R]_n) (d : 'rV[R]_n),
    orthogonal Q /\ A = Q *m diag_mx d *m Q^T.
Proof.
elim: n A => [|n IH] A sA.
  exists 1%:M, 0; split; first exact: orthogonal1.
  by apply/matrixP => i; case: i.
have [l [v0 [v0n h0]]] := sym_eigen sA.
pose c := Num.sqrt ((v0 *m v0^T) 0 0).
have cp : 0 < c by rewrite sqrtr_gt0 rownorm_gt0.
pose v := c^-1 *: v0.
have vv : v *m v^T = 1%:M.
  rewrite /v linearZ /= -scalemxAl -scalemxAr scalerA.
  rewrite [v0 *m _]mx11_scalar -[X in X%:M](sqr_sqrtr (rownorm_ge0 _)) -/c.
  rewrite scale_scalar_mx; congr (_%:M).
  have := lt0r_neq0 cp => c0; by mcfield.
have hv : v *m A = l *: v by rewrite /v -scalemxAl h0 !scalerA mulrC.
have [H [oH eH]] := householder vv.
have [B defB] : {B : 'M[R]_n.+1 | B = H *m A *m H^T} by eexists.
have BT : B^T = B by rewrite defB !trmx_mul trmxK sA mulmxA.
have eB : delta_mx 0 0 *m B = l *: (delta_mx 0 0 : 'rV_n.+1).
  by rewrite defB !mulmxA eH hv -scalemxAl -eH -mulmxA oH mulmx1.
have {eB} rB j : B 0 j = l * (j == 0)%:R.
  move/rowP/(_ j): eB; rewrite -rowE !mxE => ->.
  by rewrite eqxx andTb eq_sym.
pose B' : 'M[R]_(1 + n) := B.
have bB : B' = block_mx (l%:M : 'M_1) 0 0 (drsubmx B').
  rewrite -[LHS]submxK; congr block_mx.
  - by apply/matrixP => i j; rewrite (ord1 i) (ord1 j) !mxE !lshift0 /B' rB eqxx mulr1.
  - apply/matrixP => i j; rewrite (ord1 i) !mxE !lshift0 /B' rB.
    by rewrite (_ : rshift 1 j == 0 = false) ?mulr0.
  - apply/matrixP => i j; rewrite (ord1 j) !mxE !lshift0.
    have -> : B' (rshift 1 i) 0 = B^T 0 (rshift 1 i) by rewrite mxE.
    by rewrite BT rB (_ : rshift 1 i == 0 = false) ?mulr0.
have sB : (drsubmx B')^T = drsubmx B'.
  by apply/matrixP => i j; rewrite !mxE /B' -{1}BT mxE.
have [Q' [d' [oQ' eQ']]] := IH _ sB.
pose P : 'M[R]_(1 + n) := block_mx (1%:M : 'M_1) 0 0 Q'.
have oP : P *m P^T = 1%:M.
  rewrite /P tr_block_mx !trmx0 trmx1 mulmx_block.
  rewrite !mulmx0 !mul0mx !addr0 !add0r mul1mx oQ'.
  by rewrite -scalar_mx_block.
pose d : 'rV[R]_(1 + n) := row_mx (l%:M : 'rV_1) d'.
have eP : B' = P *m diag_mx d *m P^T.
  rewrite bB eQ' /P /d diag_mx_row tr_block_mx !trmx0 trmx1 !mulmx_block.
  rewrite !(mulmx0, mul0mx, addr0, add0r, mul1mx, mulmx1).
  congr block_mx.
  by rewrite [RHS]mx11_scalar; congr _%:M; rewrite !mxE eqxx.
exists (H^T *m P), d; split.
  by apply: orthogonal_mul => //; apply: orthogonal_tr.
rewrite trmx_mul trmxK !mulmxA -(mulmxA H^T) -(mulmxA H^T) -eP /B' defB.
by rewrite !mulmxA orthogonalT // mul1mx -mulmxA orthogonalT // mulmx1.
Qed.
