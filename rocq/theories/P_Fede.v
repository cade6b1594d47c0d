(** Proofs about make_fede and make_sparse_low_rank. *)
From Coq Require Import Reals String Epsilon.
From mathcomp Require Import all_ssreflect all_algebra.
From Verif Require Import RStruct NP Str S_Mat Spectral RMx RTac P_Eigh P_Utils2 M_Utils M_Ising M_Dataset.
Import Order.TTheory GRing.Theory Num.Theory.

Set Implicit Arguments.
Unset Strict Implicit.
Unset Printing Implicit Defensive.
Local Open Scope ring_scope.

Definition thr p (epsilon : R) (K : 'M[R]_p) : 'M[R]_p := \matrix_(i, j) if `|K i j| < epsilon then 0 else K i j.

Section Fede.
Variables (p : nat) (Q Rm : 'M[R]_p) (epsilon : R) (idx : seq 'I_p) (us : nat -> 'I_p -> R) (ul : nat -> nat -> R).
Hypothesis us0 : forall t i, 0 <= us t i.
Hypothesis ul1 : forall t k, ul t k < 1.

Lemma fede_nth turns : forall (sigma lamda : 'I_p -> R) t (c : R) k,
  0 <= c -> (forall i, c <= sigma i) -> (forall i, 0 <= lamda i < c) -> (forall i, i \notin idx -> lamda i = 0) -> (k < turns)%N ->
  exists s l : 'rV[R]_p, [/\ nth (0, 0, 0) (fede_loop Q Rm epsilon idx us ul sigma lamda turns t) k =
      (thr epsilon (sconj Q s), thr epsilon (sconj Q s) - sconj Rm l, sconj Rm l),
    forall i, c + k%:R <= s 0 i, forall i, 0 <= l 0 i < c + k%:R & forall i, i \notin idx -> l 0 i = 0].
Proof.
elim: turns => [|n IH] sigma lamda t c k // c0 hs hl hz.
case: k => [_|k kn] /=.
  exists (\row_i sigma i), (\row_i lamda i); split=> // i; rewrite ?mxE ?addr0 //; exact: hz.
have num (x u : R) : 0 <= x < c -> u < 1 -> 0 <= Num.max (x + (u * 2%:R - 1)) 0 < c + 1.
  move=> /andP [x0 xc] u1; rewrite le_maxr lexx orbT /= lt_maxl; apply/andP; split; mclra.
have [] := IH (fun i => sigma i + (1 + us t i))
  (fun i => Num.max (set_at lamda idx (fun k x => x + (ul t k * 2%:R - 1)) i) 0) t.+1 (c + 1) k.
- by rewrite addr_ge0 // ler01.
- by move=> i; rewrite ler_add // ler_paddr.
- move=> i; rewrite /set_at; case: ifP => h; first by apply: num; [exact: hl | exact: ul1].
  by have /andP [x0 xc] := hl i; rewrite le_maxr lexx orbT lt_maxl (lt_trans xc) ?ltr_addl ?ltr01 // ltr_spaddr ?ltr01.
- by move=> i h; rewrite /set_at (negbTE h) hz // maxxx.
- by [].
move=> s [l [e h1 h2 h3]]; exists s, l; rewrite e; have ck : c + 1 + k%:R = c + k.+1%:R by rewrite -addrA -mulrS.
by rewrite ck in h1 h2; split.
Qed.
End Fede.

(** * bounds *)

Lemma quad_le_diag n (A : 'M[R]_n) (e : R) v : (forall i j, `|A i j| <= e) -> `|quad A v| <= e * n%:R * quad 1%:M v.
Proof.
move=> h; rewrite !quadE; apply: le_trans (ler_norm_sum _ _ _) _.
have e2 i j : `|A i j * v i 0 * v j 0| <= e * (2%:R^-1 * (v i 0 ^+ 2 + v j 0 ^+ 2)).
  rewrite -mulrA !normrM ler_pmul ?mulr_ge0 ?normr_ge0 //.
  have num (a b : R) : a * b <= 2%:R^-1 * (a ^+ 2 + b ^+ 2).
    rewrite -subr_ge0 (_ : _ - _ = 2%:R^-1 * (a - b) ^+ 2); last by mcfield.
    by rewrite mulr_ge0 ?sqr_ge0 // invr_ge0 ler0n.
  by rewrite -(real_normK (num_real (v i 0))) -(real_normK (num_real (v j 0))); exact: num.
apply: (@le_trans _ _ (\sum_i \sum_j e * (2%:R^-1 * (v i 0 ^+ 2 + v j 0 ^+ 2)))).
  by apply: ler_sum => i _; apply: le_trans (ler_norm_sum _ _ _) _; apply: ler_sum.
have -> : \sum_i \sum_j (1%:M : 'M[R]_n) i j * v i 0 * v j 0 = \sum_i v i 0 ^+ 2.
  apply: eq_bigr => i _; rewrite (bigD1 i) //= big1 ?addr0 => [|j ji]; first by rewrite !mxE eqxx mul1r expr2.
  by rewrite !mxE eq_sym (negbTE ji) !mul0r.
set N := \sum_i v i 0 ^+ 2.
have -> : \sum_i \sum_j e * (2%:R^-1 * (v i 0 ^+ 2 + v j 0 ^+ 2)) = e * n%:R * N; last by [].
rewrite (eq_bigr (fun i => e * (2%:R^-1 * (n%:R * v i 0 ^+ 2 + N)))) => [|i _]; last first.
  by rewrite -!mulr_sumr big_split /= sumr_const card_ord mulr_natl.
rewrite -!mulr_sumr big_split /= -mulr_sumr -/N sumr_const card_ord -[N *+ n]mulr_natl.
by move: N (n%:R : R) => N m; mcfield.
Qed.

Lemma thr_diff p (e : R) (K : 'M[R]_p) i j : `|(K - thr e K) i j| <= Num.max e 0.
Proof.
rewrite !mxE; case: ifP => [h|_]; last by rewrite subrr normr0 le_maxr lexx orbT.
by rewrite subr0 le_maxr (ltW h).
Qed.

Lemma thr_sym p (e : R) (K : 'M[R]_p) : sym K -> sym (thr e K).
Proof. by move=> s; apply/matrixP=> i j; rewrite !mxE; have -> : K j i = K i j by rewrite -{1}s mxE. Qed.

Lemma quad_orth n (Q : 'M[R]_n) (d : 'rV[R]_n) v : orthogonal Q -> exists2 w : 'cV[R]_n,
  quad (sconj Q d) v = \sum_i d 0 i * w i 0 ^+ 2 & quad 1%:M v = \sum_i w i 0 ^+ 2.
Proof.
move=> o; exists (Q^T *m v).
  by rewrite -quad_diag -quad_cong trmxK.
have -> : \sum_i (Q^T *m v) i 0 ^+ 2 = quad (diag_mx (const_mx 1)) (Q^T *m v).
  by rewrite quad_diag; apply: eq_bigr => i _; rewrite [const_mx 1 0 i]mxE mul1r.
by rewrite -quad_cong trmxK -/(sconj Q _) sconj1.
Qed.

Lemma sconj_lower n (Q : 'M[R]_n) (d : 'rV[R]_n) v (c : R) : orthogonal Q -> (forall i, c <= d 0 i) -> c * quad 1%:M v <= quad (sconj Q d) v.
Proof.
move=> o h; have [w -> ->] := quad_orth d v o; rewrite mulr_sumr; apply: ler_sum => i _.
by rewrite ler_wpmul2r ?sqr_ge0.
Qed.
Lemma sconj_upper n (Q : 'M[R]_n) (d : 'rV[R]_n) v (c : R) : orthogonal Q -> (forall i, d 0 i < c) -> v != 0 -> quad (sconj Q d) v < c * quad 1%:M v.
Proof.
move=> o h v0; have := @pd_sconj n Q (c *: const_mx 1 - d) o; case.
  by move=> i; rewrite !mxE mulr1 subr_gt0.
move=> _ /(_ v v0); rewrite /sconj linearB /= linearZ /= mulmxBr mulmxBl -!scalemxAr -!scalemxAl.
by rewrite -/(sconj Q (const_mx 1)) -/(sconj Q d) sconj1 // -scaleN1r quadD !quadZ mulN1r subr_gt0.
Qed.

Lemma rank_sconj n (Q : 'M[R]_n) (d : 'rV[R]_n) (idx : seq 'I_n) : (forall i, i \notin idx -> d 0 i = 0) ->
  (\rank (sconj Q d) <= size idx)%N.
Proof.
move=> z; apply: leq_trans (mxrankM_maxl _ _) _; apply: leq_trans (mxrankM_maxr _ _) _.
have -> : diag_mx d = \sum_(i <- undup idx) d 0 i *: delta_mx i i.
  apply/matrixP => a b; rewrite summxE mxE; case: (boolP (a \in idx)) => ai.
    rewrite (bigD1_seq a) ?mem_undup ?undup_uniq //= big1 ?addr0 => [|i ia]; rewrite !mxE.
      by rewrite eqxx eq_sym /=; case: eqP; rewrite ?mulr1n ?mulr1 ?mulr0n ?mulr0.
    by rewrite eq_sym (negbTE ia) /= mulr0.
  rewrite z // mul0rn big1_seq // => i /andP [_]; rewrite mem_undup !mxE => ii.
  by case: eqP => [e|_]; rewrite /= ?mulr0 //; move: ii; rewrite -e (negbTE ai).
apply: leq_trans (size_undup idx); elim: (undup idx) => [|i l IH]; first by rewrite big_nil mxrank0.
rewrite big_cons; apply: leq_trans (mxrank_add _ _) _; apply: (@leq_add _ _ 1%N (size l)) => //.
by apply: leq_trans (mxrank_scale _ _) _; rewrite mxrank_delta.
Qed.

(** * a case where the thresholded matrix minus the latent part is not positive definite *)

Definition mx3 (l : seq (seq R)) : 'M[R]_3 := \matrix_(i, j) nth 0 (nth [::] l i) j.
Definition fQ : 'M[R]_3 := 55%:R^-1 *: mx3 [:: [:: 19%:R; - 42%:R; 30%:R]; [:: - 42%:R; 6%:R; 35%:R]; [:: 30%:R; 35%:R; 30%:R]].
Definition fR : 'M[R]_3 := 55%:R^-1 *: mx3 [:: [:: 30%:R; 42%:R; 19%:R]; [:: - 35%:R; 6%:R; 42%:R]; [:: 30%:R; - 35%:R; 30%:R]].
Definition rw3 (a b c : R) : 'rV[R]_3 := \row_j nth 0 [:: a; b; c] j.
Definition fb : 'rV[R]_3 := 55%:R^-1 *: rw3 30%:R 35%:R 30%:R.
Definition fb' : 'rV[R]_3 := 55%:R^-1 *: rw3 19%:R 42%:R 30%:R.

Lemma orth_fQ : fQ^T *m fQ = 1%:M.
Proof.
apply/matrixP => i j; rewrite mxE !big_ord_recl big_ord0 !mxE.
case: i => [[|[|[|]]] ?] //; case: j => [[|[|[|]]] ?] //=; mcfield.
Qed.
Lemma orth_fR : fR^T *m fR = 1%:M.
Proof.
apply/matrixP => i j; rewrite mxE !big_ord_recl big_ord0 !mxE.
case: i => [[|[|[|]]] ?] //; case: j => [[|[|[|]]] ?] //=; mcfield.
Qed.
Lemma eig_fb : fb^T *m fb = fQ *m diag_mx (rw3 0 0 1) *m fQ^T.
Proof.
apply/matrixP => i j; rewrite [LHS]mxE [RHS]mxE !big_ord_recl !big_ord0 !mul_mx_diag !mxE.
case: i => [[|[|[|]]] ?] //; case: j => [[|[|[|]]] ?] //=; mcfield.
Qed.
Lemma eig_fb' : fb'^T *m fb' = fR *m diag_mx (rw3 0 0 1) *m fR^T.
Proof.
apply/matrixP => i j; rewrite [LHS]mxE [RHS]mxE !big_ord_recl !big_ord0 !mul_mx_diag !mxE.
case: i => [[|[|[|]]] ?] //; case: j => [[|[|[|]]] ?] //=; mcfield.
Qed.

(** eigh with these two bases *)
Definition patch (eigh : forall n, 'M[R]_n -> 'rV[R]_n * 'M[R]_n) (n : nat) : 'M[R]_n -> 'rV[R]_n * 'M[R]_n :=
  match n return 'M[R]_n -> 'rV[R]_n * 'M[R]_n with
  | 3%N => fun A => if A == fb^T *m fb then (rw3 0 0 1, fQ) else if A == fb'^T *m fb' then (rw3 0 0 1, fR) else eigh 3%N A
  | m => eigh m
  end.
Lemma patch_ok eigh : (forall n, eigh_ok (@eigh n)) -> forall n, eigh_ok (patch eigh (n := n)).
Proof.
move=> ok [|[|[|[|n]]]]; try exact: ok.
move=> A sA /=; case: eqP => [->|_]; first by split; [exact: orth_fQ | exact: eig_fb].
by case: eqP => [->|_]; [split; [exact: orth_fR | exact: eig_fb'] | exact: ok].
Qed.
Lemma eigh_all : exists eigh : forall n, 'M[R]_n -> 'rV[R]_n * 'M[R]_n, forall n, eigh_ok (@eigh n).
Proof.
exists (fun n => epsilon (inhabits (fun=> (0, 0))) (@eigh_ok n)) => n.
exact: (epsilon_spec (inhabits (fun=> (0, 0))) (@eigh_ok n) (eigh_exists n)).
Qed.

Definition fS : 'rV[R]_3 := rw3 1 1 (103%:R / 100%:R).
(** before the threshold: 1 + (3/100) q q^T with q = (6, 7, 6) / 11 *)
Definition qq (a b : nat) : R := 3%:R / 100%:R * (a%:R / 11%:R * (b%:R / 11%:R)).
Definition fK0 : 'M[R]_3 := mx3 [:: [:: 1 + qq 6 6; qq 6 7; qq 6 6]; [:: qq 6 7; 1 + qq 7 7; qq 6 7]; [:: qq 6 6; qq 6 7; 1 + qq 6 6]].
Definition fK : 'M[R]_3 := mx3 [:: [:: 1 + qq 6 6; qq 6 7; 0]; [:: qq 6 7; 1 + qq 7 7; qq 6 7]; [:: 0; qq 6 7; 1 + qq 6 6]].
Definition fL : 'M[R]_3 := (249%:R / 250%:R / 121%:R) *: mx3 [:: [:: 36%:R; - 42%:R; 36%:R]; [:: - 42%:R; 49%:R; - 42%:R]; [:: 36%:R; - 42%:R; 36%:R]].
Lemma fK0_E : sconj fQ fS = fK0.
Proof.
apply/matrixP => i j; rewrite /sconj [LHS]mxE !big_ord_recl !big_ord0 !mul_mx_diag !mxE.
case: i => [[|[|[|]]] ?] //; case: j => [[|[|[|]]] ?] //=; rewrite /qq; mcfield.
Qed.
Lemma fK_thr : thr (1 / 100%:R) (sconj fQ fS) = fK.
Proof.
rewrite fK0_E.
have big (x : R) : 1 / 100%:R <= x -> (`|x| < 1 / 100%:R) = false.
  by move=> h; apply/negbTE; rewrite -leNgt; apply: le_trans h (ler_norm _).
have small : `|qq 6 6| < 1 / 100%:R.
  by rewrite ger0_norm /qq; mclra.
have b1 : (`|1 + qq 6 6| < 1 / 100%:R) = false by apply: big; rewrite /qq; mclra.
have b2 : (`|qq 6 7| < 1 / 100%:R) = false by apply: big; rewrite /qq; mclra.
have b3 : (`|1 + qq 7 7| < 1 / 100%:R) = false by apply: big; rewrite /qq; mclra.
apply/matrixP => i j; rewrite [LHS]mxE ![fK0 _ _]mxE [RHS]mxE.
move: (qq 6 6) (qq 6 7) (qq 7 7) small b1 b2 b3 => x y z small b1 b2 b3.
case: i => [[|[|[|]]] ?] //; case: j => [[|[|[|]]] ?] //=; by rewrite ?b1 ?b2 ?b3 ?small.
Qed.
Lemma fL_E : sconj fR (rw3 (249%:R / 250%:R) 0 0) = fL.
Proof.
apply/matrixP => i j; rewrite /sconj [LHS]mxE !big_ord_recl !big_ord0 !mul_mx_diag !mxE.
case: i => [[|[|[|]]] ?] //; case: j => [[|[|[|]]] ?] //=; mcfield.
Qed.
Lemma fKL_not : ~ psd (fK - fL).
Proof.
move=> [_ /(_ (rw3 6%:R (- 7%:R) 6%:R)^T)]; rewrite quadE !big_ord_recl !big_ord0 !mxE /= /qq.
apply/negP; rewrite -ltNge; mclra.
Qed.

Lemma fede_size p (Q Rm : 'M[R]_p) e idx us ul turns : forall sigma lamda t, size (fede_loop Q Rm e idx us ul sigma lamda turns t) = turns.
Proof. by elim: turns => [|m IH] //= sigma lamda t; rewrite IH. Qed.

Lemma slr_nth p (spd low : nat -> 'M[R]_p) T : size (make_sparse_low_rank T spd low) = maxn 1 T /\
  forall t, (t < maxn 1 T)%N -> nth (0, 0, 0) (make_sparse_low_rank T spd low) t =
    (\sum_(k < t.+1) spd k, \sum_(k < t.+1) spd k - \sum_(k < t.+1) low k, \sum_(k < t.+1) low k).
Proof.
case: T => [|T].
  by split=> // - [|t] // _; rewrite !big_ord1.
have -> : maxn 1 T.+1 = T.+1 by apply/maxn_idPr.
elim: T => [|T [IH1 IH2]]; first by split=> // - [|t] // _; rewrite !big_ord1.
have step : make_sparse_low_rank T.+2 spd low = let l := make_sparse_low_rank T.+1 spd low in
    let: (K, _, L) := last (0, 0, 0) l in rcons l (K + spd T.+1, K + spd T.+1 - (L + low T.+1), L + low T.+1).
  rewrite /make_sparse_low_rank; have -> : iota 1 T.+2.-1 = rcons (iota 1 T.+1.-1) T.+1.
    by rewrite [LHS](_ : _ = iota 1 (T + 1)); [rewrite iotaD cats1 add1n | rewrite addn1].
  by rewrite foldl_rcons.
have la : last (0, 0, 0) (make_sparse_low_rank T.+1 spd low) =
    (\sum_(k < T.+1) spd k, \sum_(k < T.+1) spd k - \sum_(k < T.+1) low k, \sum_(k < T.+1) low k).
  by rewrite -nth_last IH1; exact: IH2.
rewrite step /= la size_rcons IH1; split=> // t tT; rewrite nth_rcons IH1; case: ltnP => h; first exact: IH2.
have -> : t = T.+1 by apply/eqP; rewrite eqn_leq h andbT -ltnS.
have E (F : nat -> 'M[R]_p) : \sum_(k < T.+2) F k = \sum_(k < T.+1) F k + F T.+1 by rewrite big_ord_recr.
by rewrite eqxx !E.
Qed.
