(** Generators of precision matrices: lemmas about the Meinshausen-Yuan graphs. *)
From Coq Require Import Reals String.
From mathcomp Require Import all_ssreflect all_algebra.
From Verif Require Import RStruct RTac NP Str S_Mat RMx S_Utils M_Utils P_Utils2 M_Ising M_Gauss.
Import Order.TTheory GRing.Theory Num.Theory.

Set Implicit Arguments.
Unset Strict Implicit.
Unset Printing Implicit Defensive.
Local Open Scope ring_scope.

Section Cross.
Variable p : nat.
Implicit Types A B : 'M[R]_p.
Lemma symP A : sym A <-> forall i j, A i j = A j i.
Proof. by split=> [s i j|h]; [rewrite -{1}s mxE | apply/matrixP => i j; rewrite mxE h]. Qed.
Lemma cross_sym A i l x : sym A -> sym (set_cross A i l x).
Proof.
by move=> /symP s; apply/symP => a b; rewrite !mxE orbC; case: ifP => // _; exact: s.
Qed.
Lemma nnz_mono A B i : (forall j, A i j = 0 -> B i j = 0) -> (nnz B i <= nnz A i)%N.
Proof.
move=> h; apply: subset_leq_card; apply/subsetP => j; rewrite !inE; apply: contraNN => /eqP e.
by rewrite h.
Qed.
Lemma cross0_nz A i l a b : A a b = 0 -> set_cross A i l 0 a b = 0.
Proof. by rewrite mxE; case: ifP. Qed.
End Cross.

Section MY.
Variables (p : nat) (ix : 'I_p -> seq 'I_p) (shuffle : 'I_p -> seq 'I_p -> seq 'I_p).
Hypothesis shuf : forall t l, perm_eq (shuffle t l) l.
Variable value : R.
Definition two_valued (A : 'M[R]_p) : Prop := forall i j, A i j = 0 \/ A i j = value.

Lemma cross_two A i l x : x = 0 \/ x = value -> two_valued A -> two_valued (set_cross A i l x).
Proof. by move=> hx h a b; rewrite mxE; case: ifP. Qed.
Lemma fill_ok : sym (my_fill ix value) /\ two_valued (my_fill ix value).
Proof.
rewrite /my_fill; set f := fun _ _ => _.
have : sym (0 : 'M[R]_p) /\ two_valued 0 by split; [exact: sym0 | move=> i j; left; rewrite mxE].
elim: (enum 'I_p) (0 : 'M[R]_p) => [|i l IH] A [s t] //=; apply: IH; split; first exact: cross_sym.
by apply: cross_two => //; right.
Qed.
Lemma prune_step (A : 'M[R]_p) t edges : edges = shuffle t [seq j <- enum 'I_p | A t j != 0] ->
  (nnz (set_cross A t (take (size edges - 4) edges) 0) t <= 4)%N.
Proof.
move=> ee.
have sz : (size (drop (size edges - 4) edges) <= 4)%N.
  by rewrite size_drop; case: (leqP 4 (size edges)) => h; [rewrite subKn | rewrite (eqP (ltnW h)) subn0 ltnW].
apply: leq_trans sz.
apply: (@leq_trans #|[set j in drop (size edges - 4) edges]|); last by rewrite cardsE card_size.
apply: subset_leq_card; apply/subsetP => j; rewrite !inE mxE eqxx /=.
case: ifP; rewrite ?eqxx // => /negbT; rewrite negb_or => /andP [jn _] nz.
have : j \in edges by rewrite ee (perm_mem (shuf _ _)) mem_filter nz mem_enum.
by rewrite -{1}(cat_take_drop (size edges - 4) edges) mem_cat (negbTE jn).
Qed.
Lemma prune_ok A : sym A -> two_valued A ->
  let B := my_prune shuffle A in [/\ sym B, two_valued B & forall i, (nnz B i <= 4)%N].
Proof.
move=> s t; rewrite /my_prune; set f := fun _ _ => _.
have : forall i, i \notin [seq i <- enum 'I_p | (4 < nnz A i)%N] -> (nnz A i <= 4)%N.
  by move=> i; rewrite mem_filter mem_enum andbT -leqNgt.
move: [seq i <- enum 'I_p | (4 < nnz A i)%N] => rem; elim: rem A s t => [|i l IH] A s t small /=; first by split=> // i; exact: small.
apply: IH; first exact: cross_sym.
- by apply: cross_two => //; left.
- move=> k kl; case: (eqVneq k i) => [->|ki]; first exact: prune_step (erefl _).
  apply: leq_trans (small k _); last by rewrite inE negb_or ki.
  by apply: nnz_mono => j; exact: cross0_nz.
Qed.
End MY.

(** a symmetric matrix with unit diagonal, at most four other entries in each row, equal to 0.245 *)
Definition my_shape p (theta : 'M[R]_p) : Prop :=
  [/\ sym theta, forall i, theta i i = 1, forall i j, i != j -> theta i j = 0 \/ theta i j = my_value
    & forall i, (#|[set j | (j != i) && (theta i j != 0%R)]| <= 4)%N].
Lemma my_theta_shape p ix shuffle : (forall t l, perm_eq (shuffle t l) l) ->
  my_shape (fill_diag (my_prune shuffle (my_fill ix my_value)) (fun=> 1) : 'M[R]_p).
Proof.
move=> sh; have [s t] := fill_ok ix my_value.
have [s1 t1 n1] := prune_ok sh s t; set B := my_prune _ _ in s1 t1 n1 *.
have off i j : i != j -> fill_diag B (fun=> 1) i j = B i j by rewrite mxE => /negbTE ->.
split.
- apply/symP => i j; rewrite !mxE eq_sym; case: ifP => // _; exact: (proj1 (symP _) s1).
- by move=> i; rewrite mxE eqxx.
- by move=> i j ij; rewrite off.
- move=> i; apply: leq_trans (n1 i); apply: subset_leq_card; apply/subsetP => j; rewrite !inE => /andP [ji].
  by rewrite off // eq_sym.
Qed.
Lemma my_row p (theta : 'M[R]_p) i : my_shape theta -> \sum_(j | j != i) `|theta i j| <= 98%:R / 100%:R.
Proof.
case=> s d t n; have v0 : 0 <= my_value by apply: divr_ge0; rewrite ler0n.
rewrite (eq_bigr (fun j => (theta i j != 0)%:R * my_value)); last first.
  move=> j ji; have ij : i != j by rewrite eq_sym.
  case: (t i j ij) => ->; rewrite ?eqxx ?normr0 ?mul0r // ger0_norm //.
  have -> : my_value != 0 by rewrite mulf_eq0 invr_eq0 !pnatr_eq0.
  by rewrite mul1r.
rewrite -mulr_suml -natr_sum (eq_bigl (fun j => j != i)) // -big_mkcondr /= sum1_card.
apply: (@le_trans _ _ (4%:R * my_value)); first by rewrite ler_wpmul2r // ler_nat -cardsE; exact: n.
by rewrite /my_value; mclra.
Qed.
Lemma my_shape_pd p (theta : 'M[R]_p) : my_shape theta -> pd theta.
Proof.
move=> h; have [s d _ _] := h; apply: diag_dom_pd => // i; rewrite d; apply: le_lt_trans (my_row i h) _.
by mclra.
Qed.

(** * the margin left for the latent variables *)
Section Margin.
Variables (p : nat) (theta : 'M[R]_p).
Hypothesis sh : my_shape theta.
Variable v : 'cV[R]_p.
Let x (i : 'I_p) : R := Num.max (v i 0) 0.
Let y (i : 'I_p) : R := Num.max (- v i 0) 0.
Let A (i j : 'I_p) : R := if j == i then 0 else theta i j.
Lemma x_ge0 i : 0 <= x i. Proof. by rewrite le_maxr lexx orbT. Qed.
Lemma y_ge0 i : 0 <= y i. Proof. by rewrite le_maxr lexx orbT. Qed.
Lemma xyE i : v i 0 = x i - y i /\ x i * y i = 0.
Proof.
rewrite /x /y; move: (v i 0) => a; rewrite !maxElt oppr_lt0; case: ltrgtP => h.
- by rewrite sub0r opprK mul0r.
- by rewrite subr0 mulr0.
- by rewrite h !oppr0 addr0 mulr0.
Qed.
Lemma A_ge0 i j : 0 <= A i j.
Proof.
rewrite /A; case: eqP => // /eqP ji; have [_ _ t _] := sh; case: (t i j) => [|->|->] //; first by rewrite eq_sym.
by apply: divr_ge0; rewrite ler0n.
Qed.
Lemma A_sym i j : A i j = A j i.
Proof. by rewrite /A eq_sym; case: eqP => // _; have [s _ _ _] := sh; exact: (proj1 (symP _) s). Qed.
Lemma A_row i : \sum_j A i j <= 98%:R / 100%:R.
Proof.
rewrite (bigD1 i) //= {1}/A eqxx add0r; apply: le_trans (my_row i sh).
by apply: ler_sum => j ji; rewrite /A (negbTE ji) ler_norm.
Qed.
(** for every pair of non-negative vectors and c > 0 *)
Lemma A_young (a b : 'I_p -> R) (c : R) : 0 < c ->
  2%:R * (\sum_i \sum_j A i j * (a i * b j)) <= 98%:R / 100%:R * (c * (\sum_i a i ^+ 2) + c^-1 * (\sum_i b i ^+ 2)).
Proof.
move=> c0.
have e1 : \sum_i \sum_j A i j * (a i ^+ 2) <= 98%:R / 100%:R * (\sum_i a i ^+ 2).
  rewrite mulr_sumr; apply: ler_sum => i _; rewrite -mulr_suml; apply: ler_wpmul2r; [exact: sqr_ge0 | exact: A_row].
have e2 : \sum_i \sum_j A i j * (b j ^+ 2) <= 98%:R / 100%:R * (\sum_i b i ^+ 2).
  rewrite exchange_big mulr_sumr; apply: ler_sum => i _ /=; rewrite -mulr_suml; apply: ler_wpmul2r; first exact: sqr_ge0.
  by rewrite (eq_bigr (A i)) ?A_row // => j _; exact: A_sym.
have e3 : 2%:R * (\sum_i \sum_j A i j * (a i * b j)) <=
    c * (\sum_i \sum_j A i j * (a i ^+ 2)) + c^-1 * (\sum_i \sum_j A i j * (b j ^+ 2)).
  rewrite !mulr_sumr -big_split; apply: ler_sum => i _ /=; rewrite !mulr_sumr -big_split; apply: ler_sum => j _ /=.
  have := A_ge0 i j; move: (A i j) (a i) (b j) => al s t al0.
  rewrite !(mulrCA _ al) -mulrDr; apply: ler_wpmul2l => //.
  have c1 : 0 < c^-1 by rewrite invr_gt0.
  have : 0 <= c^-1 * (c * s - t) ^+ 2 by apply: mulr_ge0; rewrite ?sqr_ge0 // ltW.
  have -> : c^-1 * (c * s - t) ^+ 2 = (c * s ^+ 2 + c^-1 * t ^+ 2) - 2%:R * (s * t).
    by have cn : c != 0 by [rewrite gt_eqF]; move: cn; clear; move: c => d cn; mcfield.
  by rewrite subr_ge0.
apply: le_trans e3 _.
have c1 : 0 < c^-1 by rewrite invr_gt0.
rewrite mulrDr !(mulrCA (98%:R / 100%:R)); apply: ler_add; (apply: ler_wpmul2l; first by rewrite ltW).
  exact: e1.
exact: e2.
Qed.
Lemma quad_xy : \sum_i x i ^+ 2 + \sum_i y i ^+ 2 - 2%:R * (\sum_i \sum_j A i j * (x i * y j)) <= quad theta v.
Proof.
rewrite quadE.
have -> : \sum_i \sum_j theta i j * v i 0 * v j 0 = \sum_i v i 0 ^+ 2 + \sum_i \sum_j A i j * (v i 0 * v j 0).
  rewrite -big_split; apply: eq_bigr => i _ /=; have [_ d _ _] := sh.
  rewrite (bigD1 i) //= [in RHS](bigD1 i) //= d mul1r expr2 {1}/A eqxx mul0r add0r; congr (_ + _).
  by apply: eq_bigr => j ji; rewrite /A (negbTE ji) mulrA.
have -> : \sum_i v i 0 ^+ 2 = \sum_i x i ^+ 2 + \sum_i y i ^+ 2.
  rewrite -big_split; apply: eq_bigr => i _ /=; have [-> e] := xyE i.
  by rewrite sqrrB e mul0rn subr0.
rewrite ler_add2l.
have -> : 2%:R * (\sum_i \sum_j A i j * (x i * y j)) = \sum_i \sum_j A i j * (x i * y j + y i * x j).
  have -> : \sum_i \sum_j A i j * (x i * y j + y i * x j) =
     \sum_i \sum_j A i j * (x i * y j) + \sum_i \sum_j A i j * (y i * x j).
    by rewrite -big_split; apply: eq_bigr => i _; rewrite -big_split; apply: eq_bigr => j _ /=; rewrite mulrDr.
  rewrite [X in _ + X]exchange_big /= mulr_natl mulr2n; congr (_ + _).
  by apply: eq_bigr => i _; apply: eq_bigr => j _; rewrite A_sym (mulrC (y j)).
rewrite -sumrN; apply: ler_sum => i _; rewrite -sumrN; apply: ler_sum => j _; rewrite -mulrN; apply: ler_wpmul2l; first exact: A_ge0.
have [-> _] := xyE i; have [-> _] := xyE j.
have : 0 <= x i * x j by apply: mulr_ge0; exact: x_ge0.
have : 0 <= y i * y j by apply: mulr_ge0; exact: y_ge0.
move: (x i) (x j) (y i) (y j) => a b c d h1 h2; mcnra.
Qed.
Definition c0396 : R := 99%:R / (50%:R * 50%:R).
Lemma quad_x : c0396 * (\sum_i x i ^+ 2) <= quad theta v.
Proof.
apply: le_trans quad_xy.
have c0 : 0 < 98%:R / 100%:R :> R by mclra.
have := A_young x y c0.
move: (\sum_i \sum_j _) (\sum_i x i ^+ 2) (\sum_i y i ^+ 2) => s a b; rewrite invf_div /c0396 => h; mclra.
Qed.
Lemma quad_y : c0396 * (\sum_i y i ^+ 2) <= quad theta v.
Proof.
apply: le_trans quad_xy.
have c0 : 0 < 100%:R / 98%:R :> R by mclra.
have := A_young x y c0.
move: (\sum_i \sum_j _) (\sum_i x i ^+ 2) (\sum_i y i ^+ 2) => s a b; rewrite invf_div /c0396 => h; mclra.
Qed.

(** Cauchy-Schwarz against the constant vector *)
Lemma sum_sqr (a : 'I_p -> R) : (\sum_i a i) ^+ 2 <= p%:R * (\sum_i a i ^+ 2).
Proof.
have : 0 <= \sum_i \sum_j (a i - a j) ^+ 2 by apply: sumr_ge0 => i _; apply: sumr_ge0 => j _; exact: sqr_ge0.
have -> : \sum_i \sum_j (a i - a j) ^+ 2 = 2%:R * (p%:R * (\sum_i a i ^+ 2) - (\sum_i a i) ^+ 2).
  transitivity (\sum_i (p%:R * a i ^+ 2 - 2%:R * (a i * \sum_j a j) + \sum_j a j ^+ 2)).
    apply: eq_bigr => i _.
    transitivity (\sum_(j < p) (a i ^+ 2 - 2%:R * (a i * a j) + a j ^+ 2)).
      by apply: eq_bigr => j _; move: (a i) (a j) => s t; mcring.
    by rewrite big_split big_split /= sumr_const card_ord sumrN -mulr_sumr -mulr_sumr (mulr_natl _ p).
  rewrite big_split big_split /= sumr_const card_ord sumrN -mulr_sumr -mulr_sumr -mulr_suml -expr2 -[X in _ + X = _](mulr_natl _ p).
  by move: (\sum_i a i) (\sum_i a i ^+ 2) (p%:R : R) => s t q; mcring.
by rewrite pmulr_rge0 ?subr_ge0 // ltr0n.
Qed.
Definition c10000 : R := (100%:R * 100%:R)^-1.
Lemma c10000_gt0 : 0 < c10000.
Proof. by rewrite invr_gt0 mulr_gt0 ?ltr0n. Qed.
(** one latent variable, with loadings in [0, 0.01) *)
Lemma latent_bound (k : 'I_p -> R) : (forall i, 0 <= k i < c001) -> v != 0 ->
  (\sum_i k i * v i 0) ^+ 2 < p%:R * c10000 * Num.max (\sum_i x i ^+ 2) (\sum_i y i ^+ 2).
Proof.
move=> hk vn0; set M := Num.max _ _.
have [i0 hi0] : exists i, v i 0 != 0.
  apply/existsP; apply/contraT; rewrite negb_exists => /forallP h.
  by case/eqP: vn0; apply/matrixP => i j; rewrite ord1 mxE; apply/eqP; move: (h i); rewrite negbK.
have p0 : 0 < (p%:R : R) by rewrite ltr0n (leq_ltn_trans _ (ltn_ord i0)).
have sx : \sum_i x i ^+ 2 <= M by rewrite le_maxr lexx.
have sy : \sum_i y i ^+ 2 <= M by rewrite le_maxr lexx orbT.
have M0 : 0 < M.
  have vs : v i0 0 = x i0 - y i0 by have [] := xyE i0.
  have : 0 < \sum_i x i ^+ 2 + \sum_i y i ^+ 2.
    rewrite -big_split; apply: (@sumr_gt0_ex _ _ i0) => [i|]; first by apply: addr_ge0; exact: sqr_ge0.
    rewrite lt_neqAle addr_ge0 ?sqr_ge0 // andbT eq_sym paddr_eq0 ?sqr_ge0 // !sqrf_eq0.
    by apply: contraNN hi0 => /andP [/eqP xe /eqP ye]; rewrite vs xe ye subrr.
  move: sx sy; move: (\sum_i x i ^+ 2) (\sum_i y i ^+ 2) => a b h1 h2 h3.
  by clearbody M; mclra.
have kv : \sum_i k i * v i 0 = \sum_i k i * x i - \sum_i k i * y i.
  by rewrite -sumrB; apply: eq_bigr => i _; have [-> _] := xyE i; rewrite mulrBr.
have one (a : 'I_p -> R) : (forall i, 0 <= a i) -> \sum_i a i ^+ 2 <= M ->
    0 <= \sum_i k i * a i /\ (\sum_i k i * a i) ^+ 2 < p%:R * c10000 * M.
  move=> a0 aM; have s0 : 0 <= \sum_i k i * a i.
    by apply: sumr_ge0 => i _; apply: mulr_ge0 => //; case/andP: (hk i).
  split=> //.
  have [an|az] := boolP [exists i, a i != 0]; last first.
    have -> : \sum_i k i * a i = 0.
      apply: big1 => i _; move: az; rewrite negb_exists => /forallP /(_ i).
      by rewrite negbK => /eqP ->; rewrite mulr0.
    by rewrite expr0n /=; apply: mulr_gt0 => //; apply: mulr_gt0 => //; exact: c10000_gt0.
  have lt : \sum_i k i * a i < c001 * \sum_i a i.
    rewrite mulr_sumr -subr_gt0 -sumrB; case/existsP: an => i ai; apply: (@sumr_gt0_ex _ _ i) => [j|].
      by rewrite -mulrBl; apply: mulr_ge0 => //; case/andP: (hk j) => _ /ltW; rewrite subr_ge0.
    rewrite -mulrBl; apply: mulr_gt0; first by case/andP: (hk i) => _; rewrite subr_gt0.
    by rewrite lt_neqAle eq_sym ai a0.
  have sq : (\sum_i k i * a i) ^+ 2 < (c001 * \sum_i a i) ^+ 2 by rewrite ltr_pexpn2r // nnegrE ?(le_trans s0 (ltW lt)).
  apply: (lt_le_trans sq); rewrite exprMn.
  have -> : c001 ^+ 2 = c10000 by rewrite /c001 /c10000; mcfield.
  rewrite (mulrC p%:R) -mulrA; apply: ler_wpmul2l; first exact: (ltW c10000_gt0).
  by apply: le_trans (sum_sqr a) _; apply: ler_wpmul2l; rewrite ?ler0n.
have [xa xb] := one x x_ge0 sx; have [ya yb] := one y y_ge0 sy.
rewrite kv; move: xa xb ya yb; move: (\sum_i k i * x i) (\sum_i k i * y i) (p%:R * c10000 * M) => a b m a0 am b0 bm.
case: (lerP b a) => ab.
  apply: le_lt_trans am; rewrite ler_expn2r // ?nnegrE ?subr_ge0 //; mclra.
by apply: le_lt_trans bm; rewrite -sqrrN opprB ler_expn2r // ?nnegrE ?subr_ge0 ?(ltW ab) //; mclra.
Qed.
End Margin.

Lemma my_latent_pd p h (theta : 'M[R]_p) (K : 'M[R]_(h, p)) : my_shape theta -> (forall i j, 0 <= K i j < c001) ->
  (p * h <= 396)%N -> pd (theta - K^T *m K).
Proof.
move=> sh hK ph; split.
  by apply: symB; [have [] := sh | rewrite /sym trmx_mul trmxK].
move=> v vn0.
have -> : quad (theta - K^T *m K) v = quad theta v - \sum_(k < h) (\sum_i K k i * v i 0) ^+ 2.
  rewrite /quad mulmxBr mulmxBl [LHS]mxE; congr (_ + _); rewrite mxE; congr (- _).
  rewrite mulmxA -mulmxA -trmx_mul mxE; apply: eq_bigr => k _; rewrite mxE -expr2; congr (_ ^+ 2).
  by rewrite mxE.
rewrite subr_gt0; case: h K hK ph => [|h] K hK ph.
  rewrite big_ord0; have [_] := my_shape_pd sh; exact.
set M := Num.max (\sum_i Num.max (v i 0) 0 ^+ 2) (\sum_i Num.max (- v i 0) 0 ^+ 2).
apply: (@lt_le_trans _ _ (\sum_(k < h.+1) (p%:R * c10000 * M))).
  rewrite -subr_gt0 -sumrB; apply: (@sumr_gt0_ex _ _ ord0) => [k|]; rewrite ?subr_ge0 ?subr_gt0; last exact: latent_bound.
  by apply: ltW; exact: latent_bound.
rewrite sumr_const card_ord -mulr_natl.
have qM : c0396 * M <= quad theta v.
  by rewrite /M; case: (leP (\sum_i Num.max (v i 0) 0 ^+ 2)) => _; [exact: quad_y | exact: quad_x].
have M0 : 0 <= M by rewrite le_maxr; apply/orP; left; apply: sumr_ge0 => i _; exact: sqr_ge0.
apply: le_trans qM; rewrite mulrA; apply: ler_wpmul2r => //.
have : (p * h.+1)%:R <= (396%:R : R) by rewrite ler_nat.
by rewrite natrM /c0396 /c10000; move: (p%:R : R) (h.+1%:R : R) => a b hh; mclra.
Qed.
