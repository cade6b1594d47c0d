(** Proofs about the numeric helpers of utils.py. *)
From Coq Require Import Reals Lra Lia String.
From mathcomp Require Import all_ssreflect all_algebra.
From Verif Require Import RStruct RTac NP Str M_Utils S_Mat S_Utils RMx P_Utils.
Import Order.TTheory GRing.Theory Num.Theory.

Set Implicit Arguments.
Unset Strict Implicit.
Unset Printing Implicit Defensive.
Local Open Scope ring_scope.

Lemma sqrt_gt0 (x : R) : 0 < x -> 0 < sqrt x.
Proof. by move=> h; apply/RltP; apply: sqrt_lt_R0; apply/RltP. Qed.
Lemma sqrt_sqr (x : R) : 0 <= x -> sqrt x * sqrt x = x.
Proof. by move=> h; rewrite -RmultE sqrt_sqrt //; apply/RleP. Qed.

(** * normalize_matrix *)
Section Normalize.
Variable n : nat.
Implicit Types x : 'M[R]_n.
Definition normed x : 'M[R]_n := \matrix_(i, j) (x i j / sqrt (x j j) / sqrt (x i i)).
Lemma xrecip_pos (a : R) : 0 < a -> xrecip (np_sqrt a) = Fin (1 / sqrt a).
Proof.
move=> h; rewrite /np_sqrt ltNge (ltW h) /= /xdiv.
by rewrite (negbTE (lt0r_neq0 (sqrt_gt0 h))).
Qed.
Lemma normalizeE x i j : (forall k, 0 < x k k) -> normalize_matrix x i j = Fin (normed x i j).
Proof. by move=> h; rewrite /normalize_matrix !xrecip_pos //= mxE !mul1r. Qed.
Lemma normalize_nan x i : x i i <= 0 -> normalize_matrix x i i = NaN.
Proof.
rewrite /normalize_matrix /np_sqrt le_eqVlt; case: ltP => [_ _ //|h].
rewrite orbF => /eqP ->; rewrite sqrt_0 /= /xdiv eqxx /= oner_eq0 ltr01 /= /xinfmul eqxx //.
Qed.
Lemma normed_diag x i : 0 < x i i -> normed x i i = 1.
Proof.
move=> h; rewrite mxE; have s0 := sqrt_gt0 h; have := sqrt_sqr (ltW h).
move: (sqrt _) s0 => s s0 <-; mcfield; by toR; lra.
Qed.
Lemma normed_sym x : sym x -> sym (normed x).
Proof.
move=> /matrixP hs; apply/matrixP => i j; rewrite !mxE.
by have := hs i j; rewrite mxE => ->; rewrite mulrAC.
Qed.
Lemma normedE x : normed x = diag_mx (\row_i (sqrt (x i i))^-1) *m x *m (diag_mx (\row_i (sqrt (x i i))^-1))^T.
Proof.
rewrite tr_diag_mx; apply/matrixP => i j; rewrite mul_mx_diag mul_diag_mx !mxE.
by rewrite mulrC mulrA.
Qed.
Lemma normed_pd x : pd x -> pd (normed x).
Proof.
move=> h; rewrite normedE; apply: pd_conj => //.
rewrite unitmxE det_diag unitfE prodf_seq_neq0; apply/allP => i _ /=.
by rewrite mxE invr_eq0 lt0r_neq0 // sqrt_gt0 // pd_diag_gt0.
Qed.
Lemma normed_idem x : (forall k, 0 < x k k) -> normed (normed x) = normed x.
Proof.
move=> h; apply/matrixP => i j; rewrite [LHS]mxE !normed_diag //.
by rewrite sqrt_1 !divr1.
Qed.
Lemma normed_sq x i j : (forall k, 0 < x k k) -> normed x i j ^+ 2 * (x i i * x j j) = x i j ^+ 2.
Proof.
move=> h; rewrite mxE -{2}(sqrt_sqr (ltW (h i))) -{2}(sqrt_sqr (ltW (h j))).
have si := sqrt_gt0 (h i); have sj := sqrt_gt0 (h j).
by move: (sqrt (x i i)) (sqrt (x j j)) si sj => a b ha hb; mcfield; toR; lra.
Qed.
Lemma normalize_ok x : (forall i, 0 < x i i) -> exists Y : 'M[R]_n,
  [/\ forall i j, normalize_matrix x i j = Fin (Y i j),
      forall i, Y i i = 1,
      forall i j, Y i j ^+ 2 * (x i i * x j j) = x i j ^+ 2 /\ (0 <= Y i j) = (0 <= x i j),
      (sym x -> sym Y) /\ (pd x -> pd Y)
    & forall i j, normalize_matrix Y i j = Fin (Y i j)].
Proof.
move=> h; exists (normed x); split.
- by move=> i j; apply: normalizeE.
- by move=> i; apply: normed_diag.
- move=> i j; split; first exact: normed_sq.
  by rewrite mxE !pmulr_lge0 // invr_gt0 sqrt_gt0.
- split; [exact: normed_sym | exact: normed_pd].
- move=> i j; rewrite normalizeE ?normed_idem // => k; rewrite normed_diag //; exact: ltr01.
Qed.
End Normalize.

(** * threshold *)
Section Threshold.
Variables m n : nat.
Implicit Types a : 'M[R]_(m, n).
Definition out_of_range (lo hi : option R) (x : R) : bool :=
  (if lo is Some l then x < l else false) || (if hi is Some h then x > h else false).
Lemma threshold_entries a lo hi v i j :
  (out_of_range lo hi (a i j) -> threshold a lo hi v i j = v) /\
  (~~ out_of_range lo hi (a i j) -> threshold a lo hi v i j = a i j).
Proof.
by rewrite mxE /threshold1 -/(out_of_range lo hi (a i j)); case: ifP.
Qed.
Lemma threshold_idem a lo hi v : ~~ out_of_range lo hi v ->
  threshold (threshold a lo hi v) lo hi v = threshold a lo hi v.
Proof.
move=> hv; apply/matrixP => i j; rewrite !mxE /threshold1 -!/(out_of_range _ _ _).
by case E: (out_of_range lo hi (a i j)); rewrite -/(out_of_range _ _ _) ?E ?(negbTE hv).
Qed.
End Threshold.

(** * ensure_posdef *)
Lemma quadE n (A : 'M[R]_n) v : quad A v = \sum_i \sum_j A i j * v i 0 * v j 0.
Proof.
rewrite /quad mxE exchange_big; apply: eq_bigr => j _; rewrite mxE mulr_suml.
by apply: eq_bigr => i _; rewrite mxE [v i 0 * _]mulrC.
Qed.
Lemma diag_dom_pd n (A : 'M[R]_n) : sym A ->
  (forall i, \sum_(j | j != i) `|A i j| < A i i) -> pd A.
Proof.
move=> sA dom; split=> // v vn0; rewrite quadE.
pose D i := A i i - \sum_(j | j != i) `|A i j|.
have D0 i : 0 < D i by rewrite subr_gt0.
have [i0 hi0] : exists i, v i 0 != 0.
  apply/existsP; apply/contraT; rewrite negb_exists => /forallP h.
  by case/eqP: vn0; apply/matrixP => i j; rewrite ord1 mxE; apply/eqP; move: (h i); rewrite negbK.
have sAE i j : A i j = A j i by rewrite -{1}sA mxE.
have e2 : \sum_i \sum_(j | j != i) `|A i j| * v j 0 ^+ 2 = \sum_i \sum_(j | j != i) `|A i j| * v i 0 ^+ 2.
  rewrite (exchange_big_dep predT) //=; apply: eq_bigr => j _.
  by apply: eq_big => [i|i _]; rewrite 1?eq_sym // sAE.
suff low : \sum_i D i * v i 0 ^+ 2 <= \sum_i \sum_j A i j * v i 0 * v j 0.
  apply: lt_le_trans low; apply: (@sumr_gt0_ex _ _ i0) => [i|].
    by apply: mulr_ge0; rewrite ?sqr_ge0 // ltW.
  by apply: mulr_gt0 => //; rewrite lt_neqAle eq_sym sqrf_eq0 hi0 sqr_ge0.
have -> : \sum_i D i * v i 0 ^+ 2 =
    \sum_i (A i i * v i 0 * v i 0 - \sum_(j | j != i) `|A i j| * ((v i 0 ^+ 2 + v j 0 ^+ 2) / 2%:R)).
  rewrite [RHS]big_split /= sumrN.
  have -> : \sum_i \sum_(j | j != i) `|A i j| * ((v i 0 ^+ 2 + v j 0 ^+ 2) / 2%:R) =
    \sum_i \sum_(j | j != i) `|A i j| * v i 0 ^+ 2.
    transitivity (2%:R^-1 * ((\sum_i \sum_(j | j != i) `|A i j| * v i 0 ^+ 2) +
                   \sum_i \sum_(j | j != i) `|A i j| * v j 0 ^+ 2)).
      rewrite -big_split mulr_sumr; apply: eq_bigr => i _; rewrite -big_split mulr_sumr.
      by apply: eq_bigr => j _ /=; mcfield.
    by rewrite e2; mcfield.
  rewrite -sumrB; apply: eq_bigr => i _; rewrite /D mulrBl mulr_suml expr2 mulrA; congr (_ - _).
apply: ler_sum => i _; rewrite [X in _ <= X](bigD1 i) //=; apply: ler_add => //.
rewrite -sumrN; apply: ler_sum => j _.
have /andP[] : - `|A i j| <= A i j <= `|A i j| by rewrite -ler_norml.
move: (A i j) (v i 0) (v j 0) => a x y; move: (`|a|) => b h1 h2.
have p1 : 0 <= (a + b) * (x + y) ^+ 2 by apply: mulr_ge0; rewrite ?sqr_ge0 //; mclra.
have p2 : 0 <= (b - a) * (x - y) ^+ 2 by apply: mulr_ge0; rewrite ?sqr_ge0 //; mclra.
mcnra.
Qed.
Section Posdef.
Variables (n : nat) (chol : 'M[R]_n -> bool).
Hypothesis cholP : chol_ok chol.
Lemma ensure_off A i j : i != j -> ensure_posdef_2d chol A i j = A i j.
Proof. by rewrite /ensure_posdef_2d; case: ifP => // _; rewrite mxE => /negbTE ->. Qed.
Lemma ensure_same A : sym A -> pd A -> ensure_posdef_2d chol A = A.
Proof. by move=> sA pA; rewrite /ensure_posdef_2d /is_pos_def; case: ifP => // /negP []; apply/cholP. Qed.
Lemma ensure_row (A : 'M[R]_n) i : \sum_k `|(A - diag_mx (\row_k A k k)) i k| = \sum_(j | j != i) `|A i j|.
Proof.
rewrite (bigD1 i) //= !mxE eqxx mulr1n subrr normr0 add0r; apply: eq_bigr => j hj.
by rewrite !mxE eq_sym (negbTE hj) mulr0n subr0.
Qed.
Lemma ensure_pd A : sym A -> pd (ensure_posdef_2d chol A).
Proof.
move=> sA; rewrite /ensure_posdef_2d /is_pos_def; case: ifP => [/cholP|_]; first exact.
have sAE i j : A i j = A j i by rewrite -{1}sA mxE.
apply: diag_dom_pd => [|i].
  by apply/matrixP => i j; rewrite !mxE eq_sym; case: eqP => [->|] //.
rewrite [X in _ < X]mxE eqxx ensure_row.
rewrite (eq_bigr (fun j => `|A i j|)); last by move=> j hj; rewrite mxE eq_sym (negbTE hj).
by rewrite ltr_addl; apply: divr_gt0; rewrite ?ltr01 ?ltr0n.
Qed.
End Posdef.

(** * error_norm *)
Section ErrorNorm.
Variable n : nat.
Implicit Types A B : 'M[R]_n.+1.
Lemma n1_neq0 : (n.+1%:R : R) != 0. Proof. by rewrite pnatr_eq0. Qed.
Lemma error_norm_sq A B sc u :
  error_norm A B sc true u false =
  Fin (fnorm2 ((if u then triu1 B else B) - (if u then triu1 A else A)) / (if sc then n.+1%:R else 1)).
Proof.
rewrite /error_norm; case: sc; rewrite /xdiv ?(negbTE n1_neq0) ?divr1; congr Fin.
  congr (_ / _); apply: eq_bigr => i _; apply: eq_bigr => j _; by rewrite !mxE.
by apply: eq_bigr => i _; apply: eq_bigr => j _; rewrite !mxE.
Qed.
Lemma error_norm_root A B sc u : error_norm A B sc false u false =
  Fin (sqrt (fnorm2 ((if u then triu1 B else B) - (if u then triu1 A else A)) / (if sc then n.+1%:R else 1))).
Proof.
have := error_norm_sq A B sc u; rewrite /error_norm => ->; rewrite /np_sqrt.
case: ltP => // /lt_geF; rewrite divr_ge0 ?fnorm2_ge0 //; case: sc => //; rewrite ?ler0n //; exact: ler01.
Qed.
Lemma error_norm_zero A B sc sq u : error_norm A B sc sq u false = Fin 0 <->
  forall i j : 'I_n.+1, (u -> (i < j)%N) -> A i j = B i j.
Proof.
have c0 : 0 < (if sc then n.+1%:R else 1 : R) by case: sc; rewrite ?ltr0n ?ltr01.
have key : (if u then triu1 B else B) - (if u then triu1 A else A) = 0 <->
   forall i j : 'I_n.+1, (u -> (i < j)%N) -> A i j = B i j.
  split=> [/subr0_eq/matrixP h i j hij|h].
    by have := h i j; case: u hij {h} => [hij|_]; rewrite ?mxE ?hij // => ->.
  apply/matrixP => i j; case: u h => h; rewrite !mxE; last by rewrite h // subrr.
  by case: ltnP => hij; rewrite ?subrr // h // subrr.
have main : fnorm2 ((if u then triu1 B else B) - (if u then triu1 A else A)) / (if sc then n.+1%:R else 1) = 0
   <-> forall i j : 'I_n.+1, (u -> (i < j)%N) -> A i j = B i j.
  rewrite -key; split=> [/eqP|->]; last by rewrite fnorm2_0 mul0r.
  by rewrite mulf_eq0 invr_eq0 (gt_eqF c0) orbF => /eqP /fnorm2_eq0.
case: sq; rewrite ?error_norm_sq ?error_norm_root -main; first by split=> [[]|->].
split=> [[h]|->]; last by rewrite sqrt_0.
have := sqrt_sqr (divr_ge0 (fnorm2_ge0 ((if u then triu1 B else B) - (if u then triu1 A else A))) (ltW c0)).
by rewrite h mulr0 => <-.
Qed.
Lemma error_norm_symm A B sc sq u : error_norm A B sc sq u false = error_norm B A sc sq u false.
Proof.
have e : fnorm2 ((if u then triu1 B else B) - (if u then triu1 A else A)) =
         fnorm2 ((if u then triu1 A else A) - (if u then triu1 B else B)).
  by rewrite -opprB fnorm2N.
by case: sq; rewrite ?error_norm_sq ?error_norm_root e.
Qed.
Lemma error_norm_ge0 A B sc sq u : exists2 r, error_norm A B sc sq u false = Fin r & 0 <= r.
Proof.
have c0 : 0 <= (if sc then n.+1%:R else 1 : R) by case: sc; rewrite ?ler0n ?ler01.
case: sq; rewrite ?error_norm_sq ?error_norm_root; (eexists; first by []).
  by rewrite divr_ge0 ?fnorm2_ge0.
by apply/RleP; apply: sqrt_pos.
Qed.
(** nonzero=True only looks at the entries where [cov] is zero *)
Lemma error_norm_nonzero A B sc sq : (forall i j, A i j = 0 -> B i j = 0) ->
  error_norm A B sc sq false true = (if sc && [forall i, forall j, A i j != 0] then NaN else Fin 0).
Proof.
move=> h; rewrite /error_norm.
have -> : \sum_i \sum_(j | A i j == 0) (B i j - A i j) ^+ 2 = 0.
  by apply: big1 => i _; apply: big1 => j /eqP e; rewrite e h // subrr expr2 mulr0.
have e0 : (#|[pred e : 'I_n.+1 * 'I_n.+1 | A e.1 e.2 == 0]|%:R == 0 :> R) = [forall i, forall j, A i j != 0].
  rewrite pnatr_eq0; apply/pred0P/forallP => [h1 i|h1 [i j]].
    by apply/forallP => j; have /= := h1 (i, j) => ->.
  by have /forallP/(_ j)/negbTE := h1 i.
have s0 : np_sqrt 0 = Fin 0 by rewrite /np_sqrt ltxx sqrt_0.
case: sc; rewrite /= /xdiv ?e0 ?eqxx /=; last by case: sq.
by rewrite mul0r; case: [forall i, _]; case: sq; rewrite ?s0.
Qed.
End ErrorNorm.

(** * structure_error *)
Section StructureError.
Variables (I : finType) (dg up : pred I) (mcc : seq bool -> seq bool -> R).
Variables (t p : I -> R) (thr : bool) (eps : R) (nd : bool).
Let c := considered dg nd.
Let T e := is_edge (t e).
Let P e := is_pred_edge thr eps (p e).
Definition tp_spec := count_pos (fun e => c e && T e && P e).
Definition fp_spec := count_pos (fun e => c e && ~~ T e && P e).
Definition fn_spec := count_pos (fun e => c e && T e && ~~ P e).
Definition tn_spec := count_pos (fun e => c e && ~~ T e && ~~ P e).

Lemma two_neq0 : (2%:R == 0 :> R) = false. Proof. by rewrite pnatr_eq0. Qed.
Let t2 e := if nd then (if dg e then t e - t e else t e - 0) else t e.
Let p1 e := if thr && (`|p e| < eps) then 0 else p e.
Let p2 e := if nd then (if dg e then p1 e - p1 e else p1 e - 0) else p1 e.
Let t3 e : R := if t2 e != 0 then 1 else t2 e.
Let p3 e : R := if p2 e != 0 then 2%:R else p2 e.
Lemma t3E e : t3 e = if c e && T e then 1 else 0.
Proof.
rewrite /t3 /t2 /c /considered /T /is_edge; case: nd => /=; last by case: eqP.
by case: (dg e) => /=; rewrite ?subr0 ?subrr ?eqxx //=; case: eqP.
Qed.
Lemma p3E e : p3 e = if c e && P e then 2%:R else 0.
Proof.
rewrite /p3 /p2 /c /considered /P /is_pred_edge /p1 implybE.
have -> : (eps <= `|p e|) = ~~ (`|p e| < eps) by rewrite leNgt.
case: nd thr (`|p e| < eps) (dg e) => -[] [] [] /=; rewrite ?subr0 ?subrr ?eqxx ?andbF ?andbT //=; by case: eqP.
Qed.
Let cnt (k : R) := #|[pred e | t3 e + p3 e == k]|.
Lemma cnt1 : cnt 1 = fn_spec.
Proof.
apply: eq_card => e; rewrite !inE t3E p3E.
case: (c e) (T e) (P e) => -[] [] /=; rewrite ?addr0 ?add0r ?eqxx //; try by apply/eqP => h; toR; lra.
Qed.
Lemma cnt2 : cnt 2%:R = fp_spec.
Proof.
apply: eq_card => e; rewrite !inE t3E p3E.
case: (c e) (T e) (P e) => -[] [] /=; rewrite ?addr0 ?add0r ?eqxx //; try by apply/eqP => h; toR; lra.
Qed.
Lemma cnt3 : cnt 3%:R = tp_spec.
Proof.
apply: eq_card => e; rewrite !inE t3E p3E.
case: (c e) (T e) (P e) => -[] [] /=; rewrite ?addr0 ?add0r ?eqxx //; try by apply/eqP => h; toR; lra.
Qed.
Lemma cnt0 : cnt 0 = (tn_spec + (if nd then #|dg| else 0))%N.
Proof.
rewrite /tn_spec /count_pos.
have -> : (if nd then #|dg| else 0%N) = #|[pred e | ~~ c e]|.
  case E: nd; first by apply: eq_card => e; rewrite !inE /c /considered E negbK.
  by symmetry; apply/eqP/pred0P => e; rewrite /= /c /considered E.
rewrite -cardUI [X in (_ + X)%N](_ : _ = 0%N) ?addn0; last first.
  by apply/eqP/pred0P => e; rewrite !inE /=; case: (c e); rewrite ?andbF.
apply: eq_card => e; rewrite !inE t3E p3E.
case: (c e) (T e) (P e) => -[] [] /=; rewrite ?addr0 ?add0r ?eqxx //; try by apply/eqP => h; toR; lra.
Qed.

Lemma card_sum (Q : I -> bool) : #|[pred e | Q e]| = (\sum_e Q e)%N.
Proof. by rewrite -sum1_card big_mkcond; apply: eq_bigr => e _; rewrite inE; case: (Q e). Qed.
Lemma totals : (tp_spec + fp_spec + tn_spec + fn_spec + (if nd then #|dg| else 0))%N = #|I|.
Proof.
have -> : (if nd then #|dg| else 0%N) = #|[pred e | ~~ c e]|.
  case E: nd; first by apply: eq_card => e; rewrite !inE /c /considered E negbK.
  by symmetry; apply/eqP/pred0P => e; rewrite /= /c /considered E.
rewrite /tp_spec /fp_spec /tn_spec /fn_spec /count_pos !card_sum -!big_split /=.
by apply: eq_bigr => e _; case: (c e) (T e) (P e) => -[] [].
Qed.
Lemma true_edges : (tp_spec + fn_spec)%N = count_pos (fun e => c e && T e).
Proof.
rewrite /tp_spec /fn_spec /count_pos !card_sum -!big_split /=.
by apply: eq_bigr => e _; case: (c e) (T e) (P e) => -[] [].
Qed.
Lemma pred_edges : (tp_spec + fp_spec)%N = count_pos (fun e => c e && P e).
Proof.
rewrite /tp_spec /fp_spec /count_pos !card_sum -!big_split /=.
by apply: eq_bigr => e _; case: (c e) (T e) (P e) => -[] [].
Qed.
Lemma structure_errorE : structure_error dg up mcc t p thr eps nd =
  let TP := tp_spec in let FP := fp_spec in let FN := fn_spec in let TN := tn_spec in
  let f : nat -> R := fun k => k%:R in
  let size := f #|I| in
  let precision := if (0 < TP + FP)%N then f TP / f (TP + FP)%N else 0 in
  if (TP + FN == 0)%N then Raise ZeroDivisionError else
  let recall := f TP / f (TP + FN)%N in
  let miss_rate := if f FN / f (TP + FN)%N != 0 then f FN / f (TP + FN)%N else 1 - recall in
  let f1 := if precision + recall > 0 then 2%:R * precision * recall / (precision + recall) else 0 in
  let accuracy := (f TP + f TN) / size in
  let prevalence := (f TP + f FN) / size in
  let fall_out := if (0 < FP + TN)%N then f FP / f (FP + TN)%N else 1 in
  let specificity := if (0 < FP + TN)%N then f TN / f (FP + TN)%N else 1 - fall_out in
  let balanced_accuracy := 1 / 2%:R * (recall + specificity) in
  let fdr := if (0 < TP + FP)%N then f FP / f (TP + FP)%N else 1 - precision in
  let for_ := if (0 < FN + TN)%N then f FN / f (FN + TN)%N else 0 in
  let npv := if (0 < FN + TN)%N then f TN / f (FN + TN)%N else 1 - for_ in
  let plr := if fall_out > 0 then recall / fall_out else 0 in
  let nlr := if specificity > 0 then miss_rate / specificity else 0 in
  let dor := if nlr > 0 then plr / nlr else 0 in
  Val (StrErr TP TN FP FN precision recall f1 accuracy for_ fdr npv prevalence miss_rate fall_out
              specificity plr nlr dor balanced_accuracy
              (mcc [seq t e > 0 | e <- enum up] [seq p e > 0 | e <- enum up])).
Proof. by rewrite -{1}(addnK (if nd then #|dg| else 0%N) tn_spec) -cnt0 -cnt1 -cnt2 -cnt3. Qed.
End StructureError.

Definition in01 (x : R) : Prop := 0 <= x <= 1.
Lemma rat01 (a b : nat) : in01 (a%:R / (a + b)%:R).
Proof.
rewrite /in01 divr_ge0 ?ler0n //=; case: (posnP (a + b)) => [->|h]; first by rewrite invr0 mulr0 ler01.
by rewrite ler_pdivr_mulr ?ltr0n // mul1r ler_nat leq_addr.
Qed.
Lemma rat01r (a b : nat) : in01 (b%:R / (a + b)%:R). Proof. by rewrite addnC; apply: rat01. Qed.
Lemma rat_compl (a b : nat) : (0 < a + b)%N -> (b%:R / (a + b)%:R : R) = 1 - a%:R / (a + b)%:R.
Proof.
move=> h; have : ((a + b)%:R : R) != 0 by rewrite pnatr_eq0 -lt0n.
by rewrite natrD; move: (a%:R) (b%:R) => x y hxy; mcfield; toR.
Qed.
Lemma in01_1m x : in01 x -> in01 (1 - x).
Proof. by rewrite /in01 => /andP[h1 h2]; apply/andP; split; mclra. Qed.

Section Ratios.
Variables (I : finType) (dg up : pred I) (mcc : seq bool -> seq bool -> R).
Variables (t p : I -> R) (thr : bool) (eps : R) (nd : bool).
Notation se := (structure_error dg up mcc t p thr eps nd).
Lemma se_counts r : se = Val r ->
  [/\ se_tp r = tp_spec dg t p thr eps nd, se_fp r = fp_spec dg t p thr eps nd,
      se_fn r = fn_spec dg t p thr eps nd & se_tn r = tn_spec dg t p thr eps nd].
Proof. by rewrite structure_errorE /=; case: ifP => // _ [<-]. Qed.
Lemma se_raise : (se = Raise ZeroDivisionError <-> forall e, considered dg nd e -> ~~ is_edge (t e)) /\
  ((exists2 e, considered dg nd e & is_edge (t e)) <-> exists r, se = Val r).
Proof.
rewrite structure_errorE /= true_edges; case: eqP => h.
  have h0 e : considered dg nd e -> ~~ is_edge (t e).
    move=> hc; apply/negP => he; move/eqP/pred0P: h => /(_ e) /=.
    by rewrite hc he.
  split; first by split.
  by split=> [[e hc he]|[]] //; case/negP: (h0 e hc).
have [e /andP[hc he]] : exists e, considered dg nd e && is_edge (t e).
  by apply/existsP; apply: contraT => /existsPn h0; case: h; apply/eqP/pred0P => e; apply/negbTE/h0.
split; first by split=> // /(_ e hc); rewrite he.
by split=> _; [eexists | exists e].
Qed.
Lemma se_ratios r : se = Val r ->
  let tp : R := (se_tp r)%:R in let fp : R := (se_fp r)%:R in
  let fn : R := (se_fn r)%:R in let tn : R := (se_tn r)%:R in
  [/\ [/\ se_recall r = tp / (tp + fn), se_miss_rate r = 1 - se_recall r & 0 < tp + fn],
      [/\ 0 < tp + fp -> se_precision r = tp / (tp + fp), se_fdr r = 1 - se_precision r
        & se_f1 r = 2%:R * tp / (2%:R * tp + fp + fn)],
      [/\ 0 < fp + tn -> se_specificity r = tn / (fp + tn), se_fall_out r = 1 - se_specificity r
        & se_balanced_accuracy r = (se_recall r + se_specificity r) / 2%:R],
      [/\ se_npv r = 1 - se_for r, se_accuracy r = (tp + tn) / #|I|%:R & se_prevalence r = (tp + fn) / #|I|%:R]
    & [/\ in01 (se_recall r), in01 (se_precision r), in01 (se_f1 r), in01 (se_specificity r) /\ in01 (se_npv r)
        & in01 (se_accuracy r) /\ in01 (se_prevalence r)]].
Proof.
have tot := totals dg t p thr eps nd.
rewrite structure_errorE /=; move: tot.
move: (tp_spec _ _ _ _ _ _) (fp_spec _ _ _ _ _ _) (tn_spec _ _ _ _ _ _) (fn_spec _ _ _ _ _ _) => TP FP TN FN tot.
case: eqP => // /eqP hz [<-] /=.
have hz' : (0 < TP + FN)%N by rewrite lt0n.
have sz1 : (TP + TN <= #|I|)%N.
  by rewrite -tot [in X in (_ <= X)%N]addnAC (addnAC TP) -!addnA !leq_add2l leq_addr.
have sz2 : (TP + FN <= #|I|)%N.
  by rewrite -tot -!addnA leq_add2l addnA addnA -addnA addnC -!addnA leq_addr.
have I0 : (0 < #|I|)%N := leq_trans hz' sz2.
have rc01 := rat01 TP FN.
have pr01 : in01 (if (0 < TP + FP)%N then TP%:R / (TP + FP)%:R else 0).
  by case: ifP => _; [exact: rat01 | rewrite /in01 lexx ler01].
have mE : (if (FN%:R / (TP + FN)%:R : R) != 0 then (FN%:R / (TP + FN)%:R : R) else 1 - TP%:R / (TP + FN)%:R)
    = 1 - TP%:R / (TP + FN)%:R by rewrite (rat_compl hz'); case: ifP.
have fE : (if (0 < FP + TN)%N then FP%:R / (FP + TN)%:R else 1 : R) =
    1 - (if (0 < FP + TN)%N then TN%:R / (FP + TN)%:R else 1 - (if (0 < FP + TN)%N then FP%:R / (FP + TN)%:R else 1)).
  by case: ifP => h; rewrite ?(rat_compl h); mcring.
have frac01 a b : (a <= b)%N -> (0 < b)%N -> in01 (a%:R / b%:R).
  move=> h1 h2; rewrite /in01 divr_ge0 ?ler0n //= ler_pdivr_mulr ?ltr0n // mul1r ler_nat //.
have f1E : (if (0 : R) < (if (0 < TP + FP)%N then TP%:R / (TP + FP)%:R else 0) + TP%:R / (TP + FN)%:R
  then 2%:R * (if (0 < TP + FP)%N then TP%:R / (TP + FP)%:R else 0) * (TP%:R / (TP + FN)%:R) /
    ((if (0 < TP + FP)%N then TP%:R / (TP + FP)%:R else 0) + TP%:R / (TP + FN)%:R) else 0) =
  2%:R * TP%:R / (2%:R * TP%:R + FP%:R + FN%:R) :> R.
  case: (posnP TP) => [->|h]; first by rewrite mulr0n !(mul0r, mulr0, if_same) //.
  have h0 : (0 : R) < TP%:R by rewrite ltr0n.
  have h1 : (0 : R) <= FP%:R by rewrite ler0n.
  have h2 : (0 : R) <= FN%:R by rewrite ler0n.
  rewrite (ltn_addr _ h) ifT; last first.
    by apply: addr_gt0; rewrite divr_gt0 // ltr0n (ltn_addr _ h).
  rewrite !natrD; move: (TP%:R) (FP%:R) (FN%:R) h0 h1 h2 => x y z h0 h1 h2.
  by mcfield; toR; repeat split; nra.
have D a b : ((a + b)%:R : R) = a%:R + b%:R by apply: natrD.
rewrite mE f1E -!D !ltr0n; split.
- by [].
- split=> //; first by move=> ->.
  by case: (ltnP 0 (TP + FP)%N) => h; rewrite ?(rat_compl h).
- split=> [->||] //; by rewrite mulrC mul1r.
- split=> //; by case: (ltnP 0 (FN + TN)%N) => h; rewrite ?(rat_compl h) ?subr0.
- split=> //.
  + have -> : (2%:R * TP%:R + FP%:R + FN%:R : R) = ((2 * TP) + (FP + FN))%:R by rewrite natrD (natrD _ FP) natrM addrA.
    by rewrite -natrM; apply: rat01.
  + split; first by case: (ltnP 0 (FP + TN)%N) => h; [exact: rat01r | rewrite subrr /in01 lexx ler01].
    by case: (ltnP 0 (FN + TN)%N) => h; [exact: rat01r | rewrite subr0 /in01 lexx ler01].
  + split; exact: frac01.
Qed.
Lemma se_swap r r' : thr = false ->
  se = Val r -> structure_error dg up mcc p t thr eps nd = Val r' ->
  [/\ se_tp r' = se_tp r, se_tn r' = se_tn r, se_fp r' = se_fn r, se_fn r' = se_fp r
    & [/\ se_f1 r' = se_f1 r, se_accuracy r' = se_accuracy r, se_recall r' = se_precision r
        & se_precision r' = se_recall r]].
Proof.
move=> -> h h'.
have e1 : tp_spec dg p t false eps nd = tp_spec dg t p false eps nd.
  by apply: eq_card => e; rewrite !inE /is_edge /is_pred_edge !andbT -andbA [X in _ && X]andbC andbA.
have e2 : tn_spec dg p t false eps nd = tn_spec dg t p false eps nd.
  by apply: eq_card => e; rewrite !inE /is_edge /is_pred_edge !andbT -andbA [X in _ && X]andbC andbA.
have e3 : fp_spec dg p t false eps nd = fn_spec dg t p false eps nd.
  by apply: eq_card => e; rewrite !inE /is_edge /is_pred_edge !andbT -andbA [X in _ && X]andbC andbA.
have e4 : fn_spec dg p t false eps nd = fp_spec dg t p false eps nd.
  by apply: eq_card => e; rewrite !inE /is_edge /is_pred_edge !andbT -andbA [X in _ && X]andbC andbA.
move: h h'; rewrite !structure_errorE /= e1 e2 e3 e4.
move: (tp_spec _ _ _ _ _ _) (fp_spec _ _ _ _ _ _) (tn_spec _ _ _ _ _ _) (fn_spec _ _ _ _ _ _) => TP FP TN FN.
case: eqP => // /eqP h1 [<-]; case: eqP => // /eqP h2 [<-] /=.
rewrite -!lt0n in h1 h2; rewrite h1 h2; split=> //; split=> //.
by move: (TP%:R / _) (TP%:R / _) => x y; rewrite addrC -[_ * x * y]mulrAC.
Qed.
End Ratios.

Section Perfect.
Variables (I : finType) (dg up : pred I) (mcc : seq bool -> seq bool -> R).
Variables (t : I -> R) (eps : R).
Lemma perfect_counts nd : fp_spec dg t t false eps nd = 0%N /\ fn_spec dg t t false eps nd = 0%N.
Proof.
by split; apply/eqP/pred0P => e; rewrite /= /is_edge /is_pred_edge; case: (_ == 0); rewrite ?andbF.
Qed.
Lemma perfect nd r : structure_error dg up mcc t t false eps nd = Val r ->
  [/\ se_fp r = 0%N, se_fn r = 0%N, se_precision r = 1 /\ se_recall r = 1, se_f1 r = 1
    & se_accuracy r = 1 - (if nd then #|dg| else 0%N)%:R / #|I|%:R].
Proof.
move=> h; case: (se_counts h) => h1 h2 h3 h4; case: (se_ratios h) => [[r1 _ r0] [r2 _ r3] _ [_ r4 _] _].
have [p1 p2] := perfect_counts nd.
rewrite p1 in h2; rewrite p2 in h3; rewrite h2 h3 ?addr0 in r1 r0 r2 r3 r4.
have tn0 : (se_tp r)%:R != 0 :> R by rewrite gt_eqF.
have := totals dg t t false eps nd; rewrite -h1 -h4 p1 p2 addn0 addn0 => tot.
have I0 : (#|I|%:R : R) != 0.
  by rewrite -tot natrD natrD gt_eqF // -addrA; apply: ltr_paddr; rewrite // addr_ge0 ?ler0n.
split=> //; first by rewrite r1 r2 // !divff.
  by rewrite r3 divff // mulf_neq0 // two_neq0.
rewrite r4; have := congr1 (fun k : nat => k%:R : R) tot; rewrite !natrD.
move: (#|I|%:R) I0 => N N0; set d := (if nd then _ else _)%:R; move: d => d e.
by rewrite (_ : _ + _ = N - d) ?mulrBl ?divff // -e addrK.
Qed.
End Perfect.

(** * mean_structure_error *)
Lemma mean_structure_error_fails P (err : P -> res str_err) p ps :
  mean_structure_error err (p :: ps) 0 =
  match err p with Val _ => Raise (KeyError "mcc") | Raise e => Raise e end.
Proof. by rewrite /=; case: (err p). Qed.
