(** The proximal operator of the l-infinity norm. *)
From Coq Require Import Reals.
From mathcomp Require Import all_ssreflect all_algebra.
From Verif Require Import RStruct RTac LinTac S_Mat RMx P_Missing M_Linf S_Linf.
Import Order.TTheory GRing.Theory Num.Theory.

Set Implicit Arguments.
Unset Strict Implicit.
Unset Printing Implicit Defensive.
Local Open Scope ring_scope.

Lemma fdot_cv n (x y : 'cV[R]_n) : fdot x y = \sum_i x i 0 * y i 0.
Proof. by apply: eq_bigr => i _; rewrite big_ord1. Qed.
Lemma linf_ge n (x : 'cV[R]_n) i : `|x i 0| <= linf x.
Proof. by apply: (bigmax_ge (fun i => `|x i 0|)); rewrite mem_index_enum. Qed.
Lemma linf_le n (x : 'cV[R]_n) c : 0 <= c -> (forall i, `|x i 0| <= c) -> linf x <= c.
Proof. by move=> c0 h; rewrite /linf; elim/big_ind: _ => // a b; rewrite le_maxl => -> ->. Qed.
Lemma linf_ge0 n (x : 'cV[R]_n) : 0 <= linf x.
Proof. by rewrite /linf; elim/big_ind: _ => // a b; rewrite le_maxr => ->. Qed.
Lemma l1v_ge0 n (x : 'cV[R]_n) : 0 <= l1v x.
Proof. by apply: sumr_ge0 => i _; rewrite normr_ge0. Qed.
(** Hoelder *)
Lemma holder n (u y : 'cV[R]_n) : fdot u y <= l1v u * linf y.
Proof.
rewrite fdot_cv /l1v mulr_suml; apply: ler_sum => i _.
by apply: le_trans (ler_norm _) _; rewrite normrM ler_wpmul2l // linf_ge.
Qed.

Section Opt.
Variables (n : nat) (a : 'cV[R]_n) (t : R).
Definition linf_kkt (x : 'cV[R]_n) := l1v (a - x) <= t /\ fdot (a - x) x = t * linf x.
Lemma kkt_gap x y : linf_kkt x -> linf_objective a t x + 1 / 2%:R * fnorm2 (y - x) <= linf_objective a t y.
Proof.
case=> h1 h2; rewrite /linf_objective.
have -> : a - y = (a - x) - (y - x) by rewrite opprB addrA subrK.
rewrite (fnorm2D (a - x) (- (y - x))) (fnorm2N (y - x)) fdotNr fdotBr h2.
have h3 : fdot (a - x) y <= t * linf y by apply: le_trans (holder _ _) _; rewrite ler_wpmul2r // linf_ge0.
move: (fnorm2 (a - x)) (fnorm2 (y - x)) (fdot _ _) (t * linf y) (t * linf x) h3 => b c d e f h; mclra.
Qed.
Lemma kkt_min x : linf_kkt x -> unique_minimiser (fun=> True) (linf_objective a t) x.
Proof.
move=> k; split=> // y _ yx; apply: lt_le_trans (kkt_gap y k); rewrite ltr_addl mulr_gt0 ?divr_gt0 ?ltr01 ?ltr0n //.
by rewrite lt_def fnorm2_ge0 andbT; apply/eqP => e; apply: yx; apply/eqP; rewrite -subr_eq0; apply/eqP; apply: fnorm2_eq0.
Qed.
(** the residual is the projection on the l1 ball *)
Lemma kkt_ball x z : 0 <= t -> linf_kkt x -> l1v z <= t -> fnorm2 (a - (a - x)) <= fnorm2 (a - z).
Proof.
move=> t0 [h1 h2] hz; have -> : a - z = x + ((a - x) - z) by rewrite addrA [x + _]addrC subrK.
have -> : a - (a - x) = x by rewrite opprB addrC subrK.
rewrite (fnorm2D x) -addrA ler_addl addr_ge0 ?fnorm2_ge0 // mulr_ge0 ?ler0n // fdotBr [fdot x (a - x)]fdotC h2 subr_ge0 fdotC.
by apply: le_trans (holder _ _) _; rewrite ler_wpmul2r // linf_ge0.
Qed.
End Opt.

(** * the threshold *)
Definition pos (x : R) : R := Num.max x 0.
Lemma pos_ge0 x : 0 <= pos x. Proof. by rewrite /pos le_maxr lexx orbT. Qed.
Lemma pos_ge x : x <= pos x. Proof. by rewrite /pos le_maxr lexx. Qed.
Lemma posE x : 0 <= x -> pos x = x. Proof. by move=> h; rewrite /pos max_l. Qed.
Lemma pos0 x : x <= 0 -> pos x = 0. Proof. by move=> h; rewrite /pos max_r. Qed.
Lemma filter_take (b : R) (s : seq R) : sorted (fun x y => y <= x) s -> [seq x <- s | b < x] = take (count (fun x => b < x) s) s.
Proof.
elim: s => //= x s IH hs; have {}IH := IH (path_sorted hs).
case: ifP => bx; first by rewrite add1n /= IH.
have z : count (fun y => b < y) s = 0%N.
  rewrite -[RHS](count_pred0 s); apply: eq_in_count => y ys /=; apply/negbTE; rewrite -leNgt.
  move/allP: (order_path_min (fun _ _ _ h1 h2 => le_trans h2 h1) hs) => /(_ y ys) yx; apply: le_trans yx _; by rewrite leNgt bx.
by rewrite z add0n take0 IH z take0.
Qed.
Lemma sum_take_le (b : R) (s : seq R) k : (k <= size s)%N -> \sum_(x <- take k s) x - k%:R * b <= \sum_(x <- s) pos (x - b).
Proof.
elim: s k => [|x s IH] [|k] //= hk; rewrite ?big_nil ?mul0r ?subr0 //.
- by apply: sumr_ge0 => i _; exact: pos_ge0.
rewrite !big_cons; have hI := IH k hk; have hp := pos_ge (x - b).
have num (q c d e y z : R) : y - z <= e -> c - q * z <= d -> y + c - (q + 1) * z <= e + d.
  by move=> h1 h2; rewrite mulrDl mul1r; move: (q * z) h2 => v h2; mclra.
have -> : k.+1%:R = k%:R + 1 :> R by rewrite -addn1 natrD.
exact: num.
Qed.
Lemma sum_filter (b : R) (s : seq R) : \sum_(x <- s) pos (x - b) = \sum_(x <- [seq x <- s | b < x]) x - (count (fun x => b < x) s)%:R * b.
Proof.
elim: s => [|x s IH] /=; first by rewrite !big_nil mul0r subr0.
rewrite big_cons IH; case: ifP => bx.
  rewrite big_cons posE ?subr_ge0 ?ltW // natrD mulrDl mul1r; move: (\sum_(j <- _) j) (_ * b) => c d; mclra.
by rewrite add0n pos0 ?add0r // subr_le0 leNgt bx.
Qed.
Lemma threshold (m : nat) (s : seq R) (t : R) (ws : nat -> R) : 0 <= t -> sorted (fun x y => y <= x) s -> size s = m.+1 ->
  (forall k, ws k = (\sum_(x <- take k.+1 s) x - t) / k.+1%:R) ->
  let al := \big[Num.max/ws 0%N]_(k < m.+1) ws k in \sum_(x <- s) pos (x - al) = t.
Proof.
move=> t0 so sz hw al; apply/eqP; rewrite eq_le; apply/andP; split.
  rewrite sum_filter filter_take //; set k := count _ _.
  have : (k <= m.+1)%N by rewrite -sz count_size.
  case: k => [|k] km; first by rewrite take0 big_nil mul0r subr0.
  have : ws k <= al by apply: (bigmax_ge (fun k : 'I_m.+1 => ws k) _ (i := Ordinal km)); rewrite mem_index_enum.
  by rewrite hw ler_pdivr_mulr ?ltr0n // ler_subl_addr => h; rewrite ler_subl_addr addrC mulrC.
have [k [km ek]] : exists k, (k < m.+1)%N /\ al = ws k.
  rewrite /al; elim/big_ind: _ => [|x y [k1 [h1 ->]] [k2 [h2 ->]]|k _]; first by exists 0%N.
    by rewrite /Num.max; case: ifP => _; [exists k2 | exists k1].
  by exists k; rewrite ltn_ord.
have := sum_take_le al (_ : (k.+1 <= size s)%N); rewrite sz => /(_ km); rewrite {1}ek hw mulrC divfK ?pnatr_eq0 //.
by rewrite opprB addrC subrK.
Qed.

(** * the documented formula *)
Section Formula.
Variables (n : nat) (w : 'cV[R]_n.+1) (t : R).
Hypothesis t0 : 0 <= t.
Lemma descending : sorted (fun x y : R => y <= x) (abs_descending w).
Proof. by apply: sort_sorted => x y; exact: le_total. Qed.
Lemma sum_descending (F : R -> R) : \sum_(x <- abs_descending w) F x = \sum_i F `|w i 0|.
Proof. by rewrite (perm_big _ (permEl (perm_sort _ _))) big_map big_enum. Qed.
Lemma size_descending : size (abs_descending w) = n.+1.
Proof. by rewrite size_sort size_map size_enum_ord. Qed.
Lemma alpha_sum : \sum_i pos (`|w i 0| - alphaopt w t) = t.
Proof.
rewrite -(sum_descending (fun x => pos (x - alphaopt w t))).
by apply: (threshold t0 descending size_descending) => k.
Qed.
Lemma alpha_le : alphaopt w t <= 0 -> l1v w <= t.
Proof.
move=> a0; rewrite -alpha_sum; apply: ler_sum => i _; apply: le_trans (pos_ge _).
by rewrite ler_addl oppr_ge0.
Qed.
Lemma formula_entry i : 0 < alphaopt w t -> `|prox_infinityNorm w t i 0| = Num.min `|w i 0| (alphaopt w t) /\
  (w - prox_infinityNorm w t) i 0 = pos (`|w i 0| - alphaopt w t) * Num.sg (w i 0).
Proof.
move=> a0; rewrite /prox_infinityNorm a0 !mxE; set al := alphaopt w t in a0 *.
have m0 : 0 <= Num.min `|w i 0| al by rewrite le_minr normr_ge0 ltW.
split.
  rewrite normrM (ger0_norm m0); have [->|wi] := eqVneq (w i 0) 0.
    by rewrite sgr0 normr0 mulr0 min_l ?ltW.
  by rewrite normr_sg wi mulr1.
rewrite {1}[w i 0]numEsg mulrC -mulrBl mulrC [RHS]mulrC; congr (_ * _).
by case: (lerP `|w i 0| al) => h; [rewrite subrr pos0 // subr_le0 | rewrite posE // subr_ge0 ltW].
Qed.
Lemma formula_kkt : linf_kkt w t (prox_infinityNorm w t).
Proof.
case: (ltP 0 (alphaopt w t)) => a0; last first.
  have -> : prox_infinityNorm w t = 0 by rewrite /prox_infinityNorm ltNge a0.
  split; first by rewrite subr0; exact: alpha_le.
  rewrite fdot0r; suff -> : linf (0 : 'cV[R]_n.+1) = 0 by rewrite mulr0.
  by apply/eqP; rewrite eq_le linf_ge0 andbT; apply: linf_le => // i; rewrite mxE normr0.
set al := alphaopt w t in a0 *; set x := prox_infinityNorm w t.
have eu i : `|(w - x) i 0| = pos (`|w i 0| - al).
  have [_ ->] := formula_entry i a0; rewrite normrM (ger0_norm (pos_ge0 _)).
  have [wi|wi] := eqVneq (w i 0) 0; last by rewrite normr_sg wi mulr1.
  by rewrite wi sgr0 normr0 mulr0 sub0r pos0 // oppr_le0 ltW.
have sumu : l1v (w - x) = t by rewrite -alpha_sum; apply: eq_bigr => i _; exact: eu.
have xle i : `|x i 0| <= al by have [-> _] := formula_entry i a0; rewrite le_minl lexx orbT.
split; first by rewrite sumu.
have -> : fdot (w - x) x = t * al.
  rewrite fdot_cv -sumu /l1v mulr_suml; apply: eq_bigr => i _; rewrite eu.
  have [_ ->] := formula_entry i a0; rewrite /x /prox_infinityNorm a0 [X in _ * X]mxE -/al.
  case: (ltP al `|w i 0|) => h; last by rewrite pos0 ?subr_le0 // !mul0r.
  have wi : w i 0 != 0 by rewrite -normr_gt0 (lt_trans a0).
  rewrite -!mulrA; congr (_ * _); rewrite mulrCA -expr2 sqr_sg wi mulr1 //.
have [->|tn] := eqVneq t 0; first by rewrite !mul0r.
congr (_ * _); apply/eqP; rewrite eq_le; apply/andP; split; last by apply: linf_le => //; exact: ltW.
have [i hi] : exists i, al < `|w i 0|.
  apply/existsP; rewrite -[X in is_true X]negbK negb_exists; apply: contra tn => /forallP h.
  rewrite -alpha_sum big1 // => i _; rewrite pos0 // subr_le0 leNgt; exact: h.
apply: le_trans (linf_ge x i); have [-> _] := formula_entry i a0; rewrite min_r ?lexx // ltW //.
Qed.
Lemma minimiser_is x : minimiser (fun=> True) (linf_objective w t) x -> x = prox_infinityNorm w t.
Proof.
move=> [_ h]; have [_ u] := kkt_min formula_kkt.
have [//|/eqP ne] := eqVneq x (prox_infinityNorm w t).
by have := u x I ne; rewrite ltNge h.
Qed.
End Formula.
