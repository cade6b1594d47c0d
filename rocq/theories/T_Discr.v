(** Property theorems C156: the decision function of the discriminant analysis. *)
From Coq Require Import Reals.
From mathcomp Require Import all_ssreflect all_algebra.
From Verif Require Import RStruct RTac NP S_Mat Spectral RMx M_Utils M_Discr P_KernelFit.
Import Order.TTheory GRing.Theory Num.Theory.

Set Implicit Arguments.
Unset Strict Implicit.
Unset Printing Implicit Defensive.
Local Open Scope ring_scope.

(** a singular value decomposition: orthogonal factors, no negative values *)
Definition svd_ok n (svd : 'M[R]_n -> 'M[R]_n * 'rV[R]_n * 'M[R]_n) (A : 'M[R]_n) : Prop :=
  let: (U, s, Vt) := svd A in [/\ A = U *m diag_mx s *m Vt, U^T *m U = 1%:M, Vt^T *m Vt = 1%:M & forall i, 0 <= s 0 i].
(** the logarithm of a Gaussian density, times the prior *)
Definition log_posterior n (c : fitted_class n) (x : 'rV[R]_n) : R :=
  ln (prior c) - ln (\det (cov c)) / 2%:R - quad (invmx (cov c)) (x - mean c)^T / 2%:R - n%:R / 2%:R * ln (2%:R * PI).

(** two positive definite matrices with the same square are equal *)
Lemma pd_square_inj n (A B : 'M[R]_n) : pd A -> psd B -> A *m A = B *m B -> A = B.
Proof.
move=> pA pB e; pose D := A - B; have sD : sym D by apply: symB; [case: pA|case: pB].
have z : A *m D + D *m B = 0 by rewrite /D mulmxBr mulmxBl e addrA subrK subrr.
have sA : A^T = A by case: pA.
have sB : B^T = B by case: pB.
have t0 : fdot A (D *m D^T) + fdot B (D *m D^T) = 0.
  rewrite !fdotE sA sB sD [A *m _]mulmxA mxtrace_mulC [\tr (B *m _)]mxtrace_mulC -[D *m D *m B]mulmxA -mxtraceD -mulmxDr z mulmx0.
  exact: raddf0.
have pDD : psd (D *m D^T) by have := psd_conj D (pd_psd (pd1 n)); rewrite mulmx1.
have hA := psd_fdot_ge0 (pd_psd pA) pDD; have hB := psd_fdot_ge0 pB pDD.
have a0 : fdot A (D *m D^T) = 0 by apply: le_anti; rewrite hA andbT -t0 ler_addl.
have [Q [pQ eQ]] := pd_sqrt pA; have sQ : Q^T = Q by case: pQ.
have q0 : fdot (Q *m D) (Q *m D) = 0.
  by rewrite -[RHS]a0 -eQ !fdotE !trmx_mul sQ -!mulmxA mxtrace_mulC !mulmxA.
have := fdotAA_eq0 q0 => /(congr1 (mulmx (invmx Q))); rewrite mulmxA mulVmx ?pd_unit // mul1mx mulmx0 => d0.
by apply/eqP; rewrite -subr_eq0 -/D d0.
Qed.

(** the right factor of a decomposition of a matrix with the square of a positive definite one *)
Lemma svd_right n (svd : 'M[R]_n -> 'M[R]_n * 'rV[R]_n * 'M[R]_n) (C A : 'M[R]_n) U s Vt : svd_ok svd C -> svd C = (U, s, Vt) ->
  pd A -> C^T *m C = A *m A -> [/\ orthogonal Vt^T, A = sconj Vt^T s & forall i, 0 < s 0 i].
Proof.
move=> ok e pA sq; have := ok; rewrite /svd_ok e => -[eC oU oV s0].
have oV' : orthogonal Vt^T by rewrite /orthogonal trmxK.
have eA : A = sconj Vt^T s.
  apply: pd_square_inj => //; first by apply: psd_sconj.
  rewrite -sq eC sconj_mul // !trmx_mul tr_diag_mx !mulmxA -[_ *m U^T *m U]mulmxA oU mulmx1 /sconj trmxK -[_ *m diag_mx s *m diag_mx s]mulmxA.
  by rewrite mulmx_diag.
by split=> //; apply: (pd_spectrum oV'); rewrite -eA.
Qed.
Lemma decisionE n (svd : 'M[R]_n -> 'M[R]_n * 'rV[R]_n * 'M[R]_n) (c : fitted_class n) (A : 'M[R]_n) x : svd_ok svd (cov c) ->
  pd A -> (cov c)^T *m cov c = A *m A ->
  decision svd c x = ln (prior c) - ln (\det A) / 2%:R - quad (invmx A) (x - mean c)^T / 2%:R.
Proof.
move=> ok pA sq; rewrite /decision; case e: (svd _) => [[U s] Vt]; have [oV eA sp] := svd_right ok e pA sq.
have u : \sum_j ln (s 0 j) = ln (\det A) by rewrite eA sconj_det // ln_prod.
have iA : invmx A = sconj Vt^T (\row_i (s 0 i)^-1).
  have h : sconj Vt^T (\row_i (s 0 i)^-1) *m A = 1%:M.
    rewrite eA sconj_mul // (_ : (\row_i _) = const_mx 1) ?sconj1 //.
    by apply/rowP => i; rewrite !mxE mulVf // gt_eqF.
  by rewrite -[RHS]mulmx1 -(mulmxV (pd_unit pA)) mulmxA h mul1mx.
have q : quad (invmx A) (x - mean c)^T = \sum_j ((x - mean c) *m (\matrix_(i, j) (Vt^T i j * (sqrt (s 0 j))^-1))) 0 j ^+ 2.
  rewrite iA /sconj trmxK quad_cong quad_diag; apply: eq_bigr => j _; rewrite mxE.
  have -> : ((x - mean c) *m (\matrix_(i, j) (Vt^T i j * (sqrt (s 0 j))^-1))) 0 j = (Vt *m (x - mean c)^T) j 0 * (sqrt (s 0 j))^-1.
    rewrite !mxE mulr_suml; apply: eq_bigr => i _; by rewrite !mxE mulrCA mulrA.
  rewrite exprMn [RHS]mulrC exprVn; congr (_^-1 * _).
  by rewrite expr2; apply/esym; apply: sqrt_sqrt; apply/RleP; exact: ltW.
rewrite -q u; have num (a b d : R) : - (1 / 2%:R) * (a + b) + d = d - b / 2%:R - a / 2%:R by mcring.
exact: num.
Qed.

(** for positive definite covariances the decision value is the logarithm of prior times Gaussian density, up to a constant that does not depend on
    the class *)
Theorem C156_gaussian : forall n (svd : 'M[R]_n -> 'M[R]_n * 'rV[R]_n * 'M[R]_n) (c : fitted_class n) x, svd_ok svd (cov c) -> pd (cov c) ->
  decision svd c x = log_posterior c x + n%:R / 2%:R * ln (2%:R * PI).
Proof.
move=> n svd c x ok pc; rewrite (decisionE x ok pc); last by case: (pc) => ->.
by rewrite /log_posterior subrK.
Qed.
Print Assumptions C156_gaussian.
(** the prediction is a class of largest posterior density, the first of them *)
Lemma predictP n (svd : 'M[R]_n -> 'M[R]_n * 'rV[R]_n * 'M[R]_n) (cs : seq (fitted_class n)) x c0 : cs <> [::] ->
  let k := predict svd cs x in (k < size cs)%N /\
  (forall i, (i < size cs)%N -> decision svd (nth c0 cs i) x <= decision svd (nth c0 cs k) x) /\
  (forall i, (i < k)%N -> decision svd (nth c0 cs i) x < decision svd (nth c0 cs k) x).
Proof.
move=> ne k; pose vs := [seq decision svd c x | c <- cs].
have svs : size vs = size cs by rewrite size_map.
have h : has (fun v => all (fun w => w <= v) vs) vs.
  have ne' : vs <> [::] by rewrite /vs; case: (cs) ne.
  have [v vin hv] : exists2 v, v \in vs & forall w, w \in vs -> w <= v.
    elim: vs ne' {svs} => // a [|b l] IH _; first by exists a; rewrite ?mem_head // => y; rewrite inE => /eqP ->.
    have [//|v vr hv] := IH; case: (leP v a) => ax.
      by exists a; rewrite ?mem_head // => y; rewrite inE => /orP[/eqP -> //|/hv h]; exact: le_trans h ax.
    by exists v; rewrite ?(in_cons a) ?vr ?orbT // => y; rewrite inE => /orP[/eqP ->|/hv //]; exact: ltW.
  by apply/hasP; exists v => //; apply/allP.
have kl : (k < size cs)%N by rewrite -svs /k /predict -has_find.
have vE i : (i < size cs)%N -> nth 0 vs i = decision svd (nth c0 cs i) x by move=> il; rewrite (nth_map c0).
have top i : (i < size cs)%N -> decision svd (nth c0 cs i) x <= decision svd (nth c0 cs k) x.
  move=> il; rewrite -!vE //; have := nth_find 0 h => /allP hk; apply: hk; by rewrite mem_nth // svs.
split=> //; split=> // i ik; have il := ltn_trans ik kl.
rewrite lt_neqAle top // andbT; apply/negP => /eqP ei.
have := before_find 0 ik; rewrite -/vs => /negP; apply; apply/allP => w /(nthP 0)[j]; rewrite svs => jl <-.
by rewrite !vE // ei top.
Qed.
Theorem C156_bayes : forall n (svd : 'M[R]_n -> 'M[R]_n * 'rV[R]_n * 'M[R]_n) (cs : seq (fitted_class n)) x c0, cs <> [::] ->
  (forall i, (i < size cs)%N -> svd_ok svd (cov (nth c0 cs i)) /\ pd (cov (nth c0 cs i))) ->
  let k := predict svd cs x in (k < size cs)%N /\
  (forall i, (i < size cs)%N -> log_posterior (nth c0 cs i) x <= log_posterior (nth c0 cs k) x) /\
  (forall i, (i < k)%N -> log_posterior (nth c0 cs i) x < log_posterior (nth c0 cs k) x).
Proof.
move=> n svd cs x c0 ne pc k; have [kl [h1 h2]] := predictP svd x c0 ne; split=> //.
have e i : (i < size cs)%N -> decision svd (nth c0 cs i) x = log_posterior (nth c0 cs i) x + n%:R / 2%:R * ln (2%:R * PI).
  by move=> il; have [] := pc i il; exact: C156_gaussian.
by split=> i il; [have := h1 i il|have := h2 i il]; rewrite !e ?ler_add2r ?ltr_add2r //; exact: ltn_trans il kl.
Qed.
Print Assumptions C156_bayes.
(** the probabilities: positive, of sum 1, in the ratio of the posterior densities *)
Theorem C156_proba : forall n (svd : 'M[R]_n -> 'M[R]_n * 'rV[R]_n * 'M[R]_n) (cs : seq (fitted_class n)) x c0, cs <> [::] ->
  (forall i, (i < size cs)%N -> svd_ok svd (cov (nth c0 cs i)) /\ pd (cov (nth c0 cs i))) ->
  let p := predict_proba svd cs x in
  size p = size cs /\ (forall y, y \in p -> 0 < y) /\ \sum_(y <- p) y = 1 /\
  forall i j, (i < size cs)%N -> (j < size cs)%N -> nth 0 p i * exp (log_posterior (nth c0 cs j) x) = nth 0 p j * exp (log_posterior (nth c0 cs i) x).
Proof.
move=> n svd cs x c0 ne pc p; pose vs := [seq decision svd c x | c <- cs]; pose top := nth 0 vs (predict svd cs x).
pose ls := [seq exp (v - top) | v <- vs].
have ep : p = [seq l / (\sum_(l' <- ls) l') | l <- ls] by [].
have S0 : 0 < \sum_(l' <- ls) l'.
  rewrite /ls /vs; case: (cs) ne => // a l _; rewrite /= big_cons; apply: ltr_spaddl; first exact: expR_gt0.
  by rewrite big_map; apply: sumr_ge0 => v _; apply: ltW; exact: expR_gt0.
split; first by rewrite ep !size_map.
split; first by rewrite ep => y /mapP[l /mapP[v _ ->] ->]; rewrite divr_gt0 // expR_gt0.
split; first by rewrite ep big_map -mulr_suml divff // gt_eqF.
move=> i j il jl; have pE k : (k < size cs)%N -> nth 0 p k = exp (log_posterior (nth c0 cs k) x) * (exp (n%:R / 2%:R * ln (2%:R * PI) - top) / \sum_(l' <- ls) l').
  move=> kl; rewrite ep (nth_map 0) ?size_map // (nth_map 0) ?size_map // (nth_map c0) // C156_gaussian; try by case: (pc k kl).
  by rewrite -addrA [exp (_ + _)]exp_plus mulrA.
by rewrite !pE // ![exp (log_posterior _ _) * _]mulrC -!mulrA; congr (_ * (_ * _)); rewrite mulrC.
Qed.
Print Assumptions C156_proba.
(** expected: the decision uses the covariance. A covariance that is not positive definite is silently replaced by its absolute value, e.g. -A by A *)
Theorem C156_indefinite_refuted : forall n (svd : 'M[R]_n -> 'M[R]_n * 'rV[R]_n * 'M[R]_n) (p : R) mu (C A : 'M[R]_n) x, svd_ok svd C -> svd_ok svd A -> pd A -> sym C ->
  C *m C = A *m A -> decision svd (FittedClass p mu C) x = decision svd (FittedClass p mu A) x.
Proof.
move=> n svd p mu C A x ok ok' pA sC sq; rewrite (@decisionE _ svd (FittedClass p mu C) A x ok pA) /= ?sC //.
by rewrite (@decisionE _ svd (FittedClass p mu A) A x ok' pA) //=; case: (pA) => ->.
Qed.
Print Assumptions C156_indefinite_refuted.
(** PrecomputedDiscriminantAnalysis cannot be used: it has no location *)
Theorem C156_precomputed_refuted : forall n (pinvh : 'M[R]_n -> 'M[R]_n) fix_posdef ensure_posdef precision,
  read_attrs pinvh fix_posdef ensure_posdef (precomputed precision) = Raise AttributeError.
Proof. by []. Qed.
Print Assumptions C156_precomputed_refuted.
(** which covariance is used *)
Theorem C156_covariance : forall n (pinvh : 'M[R]_n -> 'M[R]_n) fix_posdef p c l,
  read_attrs pinvh fix_posdef false (Attrs (Some p) (Some c) (Some l)) = Val (p, c, l) /\
  read_attrs pinvh fix_posdef false (Attrs (Some p) None (Some l)) = Val (p, [seq pinvh k | k <- p], l) /\
  read_attrs pinvh fix_posdef true (Attrs (Some p) (Some c) (Some l)) = Val (fix_posdef p, [seq pinvh k | k <- fix_posdef p], l).
Proof. by []. Qed.
Print Assumptions C156_covariance.

(** two classes in the plane at distance 2: a point nearer to the second *)
Example C156_case : let svd := fun _ => (1%:M, const_mx 1, 1%:M) in
  let cs := [:: FittedClass (1 / 2%:R) 0 1%:M; FittedClass (1 / 2%:R) (const_mx 2%:R) (1%:M : 'M[R]_2)] in
  predict svd cs (const_mx 2%:R) = 1%N /\ \sum_(y <- predict_proba svd cs (const_mx 2%:R)) y = 1.
Proof.
move=> svd cs.
have ok (c : fitted_class 2) : cov c = 1%:M -> svd_ok svd (cov c) /\ pd (cov c).
  move=> ->; split; last exact: pd1.
  by rewrite /svd_ok /=; split; rewrite ?trmx1 ?mul1mx ?mulmx1 ?diag_const_mx // => i; rewrite mxE ler01.
have hc i : (i < size cs)%N -> svd_ok svd (cov (nth (FittedClass 0 0 0) cs i)) /\ pd (cov (nth (FittedClass 0 0 0) cs i)).
  by case: i => [|[|i]] // _; apply: ok.
have ne : cs <> [::] by [].
split; last by have [_ [_ [-> _]]] := C156_proba (const_mx 2%:R) ne hc.
have [k2 [h _]] := C156_bayes (const_mx 2%:R) ne hc.
move: k2 (h 1%N isT); case: (predict _ _ _) => [|[|k]] // _; rewrite /log_posterior /= subrr subr0 trmx0 quad0v invmx1.
have q : 0 < quad 1%:M (const_mx 2%:R : 'rV[R]_2)^T.
  apply: quad1_gt0; apply/eqP => /(congr1 (fun m : 'cV[R]_2 => m 0 0)); rewrite !mxE => /eqP; by rewrite pnatr_eq0.
move: q; set q := quad _ _; rewrite mul0r subr0 => q0 h'; exfalso.
have num (a b c d : R) : 0 < d -> a - b - c <= a - b - d / 2%:R - c -> False by mclra.
exact: num h'.
Qed.
