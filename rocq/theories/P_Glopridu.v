(** glo_prox: dual descent, sign of the multipliers, optimality. *)
From Coq Require Import Reals.
From mathcomp Require Import all_ssreflect all_algebra.
From Verif Require Import RStruct RTac NP S_Mat RMx M_Utils M_Glopridu.
Import Order.TTheory GRing.Theory Num.Theory.

Set Implicit Arguments.
Unset Strict Implicit.
Unset Printing Implicit Defensive.
Local Open Scope ring_scope.

Lemma np_max0_ge0 (x : R) : 0 <= np_max 0 x.
Proof. by rewrite /np_max; case: ifP => // /ltW. Qed.
Lemma np_max0_le (x y : R) : 0 <= y -> x <= y -> np_max 0 x <= y.
Proof. by rewrite /np_max; case: ifP. Qed.

Section Newton.
Variable pinv : forall n, 'M[R]_n -> 'M[R]_n.
Variables (d B : nat) (blocks : 'I_B -> {set 'I_d}) (weights : 'I_B -> R) (w0 : 'I_d -> R).
Variables (tol beta sigma s_beta epsilon : R).
Hypothesis pinv_psd : forall n (A : 'M[R]_n), psd A -> psd (pinv A).
Hypotheses (b0 : 0 <= beta) (sg0 : 0 <= sigma) (sb0 : 0 <= s_beta).
Implicit Types lamda : 'I_B -> R.
Notation bsum := (block_sum blocks).
Notation grad := (dual_grad blocks weights w0).

(** the dual objective *)
Definition dual_obj lamda : R := \sum_j w0 j ^+ 2 / (1 + bsum lamda j) + \sum_g weights g * lamda g.

Lemma bsum_ge0 lamda j : (forall g, 0 <= lamda g) -> 0 <= bsum lamda j.
Proof. by move=> l0; apply: sumr_ge0. Qed.
Lemma bsum1_gt0 lamda j : (forall g, 0 <= lamda g) -> 0 < 1 + bsum lamda j.
Proof. by move=> l0; apply: ltr_paddr (bsum_ge0 j l0) ltr01. Qed.

Lemma fdiffE lamda lm : (forall g, 0 <= lamda g) -> (forall g, 0 <= lm g) -> fdiff blocks weights w0 lamda lm = dual_obj lamda - dual_obj lm.
Proof.
move=> l0 m0; rewrite /fdiff /dual_obj.
have -> : \sum_g weights g * (lamda g - lm g) = \sum_g weights g * lamda g - \sum_g weights g * lm g.
  by rewrite -sumrB; apply: eq_bigr => g _; rewrite mulrBr.
have -> : \sum_j w0 j ^+ 2 * (bsum (fun g => lm g - lamda g) j / ((1 + bsum lm j) * (1 + bsum lamda j))) =
  \sum_j w0 j ^+ 2 / (1 + bsum lamda j) - \sum_j w0 j ^+ 2 / (1 + bsum lm j).
  rewrite -sumrB; apply: eq_bigr => j _.
  have -> : bsum (fun g => lm g - lamda g) j = bsum lm j - bsum lamda j by rewrite /block_sum sumrB.
  have p1 := lt0r_neq0 (bsum1_gt0 j l0); have p2 := lt0r_neq0 (bsum1_gt0 j m0).
  move: (bsum lm j) (bsum lamda j) p1 p2 => a b p1 p2; by mcfield.
by have num (a b c e : R) : a - b + (c - e) = a + c - (b + e) by mcring.
Qed.

Lemma tmp_ge0 lamda j : (forall g, 0 <= lamda g) -> 0 <= dual_tmp blocks w0 lamda j.
Proof.
move=> l0; rewrite /dual_tmp; apply: mulr_ge0; first by apply: mulr_ge0; [rewrite ler0n|exact: sqr_ge0].
by rewrite exprn_ge0 // div1r invr_ge0 ltW // bsum1_gt0.
Qed.
Lemma p_active_ge0 lamda g : (forall g, 0 <= lamda g) -> g \in active blocks weights w0 epsilon lamda -> 0 <= p_active blocks weights w0 lamda g.
Proof.
move=> l0; rewrite inE => /andP [gp _]; rewrite /p_active divr_ge0 ?(ltW gp) // sumr_ge0 // => j _; exact: tmp_ge0.
Qed.
Lemma b_inactive_psd lamda : (forall g, 0 <= lamda g) -> psd (b_inactive blocks weights w0 epsilon lamda).
Proof.
move=> l0; set S := inactive _ _ _ _ _; split.
  by apply/matrixP => g k; rewrite !mxE setIC.
move=> v; rewrite /quad mxE.
have -> : \sum_j ((v^T *m b_inactive blocks weights w0 epsilon lamda) 0 j * v j 0) =
  \sum_j dual_tmp blocks w0 lamda j * (\sum_(g < #|S| | j \in blocks (enum_val g)) v g 0) ^+ 2.
  have -> : \sum_j ((v^T *m b_inactive blocks weights w0 epsilon lamda) 0 j * v j 0) =
    \sum_(k < #|S|) \sum_(g < #|S|) \sum_j (if (j \in blocks (enum_val g)) && (j \in blocks (enum_val k)) then v g 0 * v k 0 * dual_tmp blocks w0 lamda j else 0).
    apply: eq_bigr => k _; rewrite mxE mulr_suml; apply: eq_bigr => g _; rewrite !mxE mulrAC mulr_sumr [LHS]big_mkcond /=.
    by apply: eq_bigr => j _; rewrite inE.
  transitivity (\sum_j \sum_(k < #|S|) \sum_(g < #|S|)
    (if (j \in blocks (enum_val g)) && (j \in blocks (enum_val k)) then v g 0 * v k 0 * dual_tmp blocks w0 lamda j else 0)).
    by rewrite [RHS]exchange_big; apply: eq_bigr => k _; rewrite [RHS]exchange_big.
  apply: eq_bigr => j _; rewrite expr2 mulr_suml mulr_sumr [RHS]big_mkcond /= exchange_big; apply: eq_bigr => g _.
  case: ifP => gj; last by rewrite big1 // => k _; rewrite andFb.
  rewrite mulr_sumr mulr_sumr [RHS]big_mkcond; apply: eq_bigr => k _; case: (j \in blocks (enum_val k)) => //=.
  by rewrite [RHS]mulrC.
by apply: sumr_ge0 => j _; rewrite mulr_ge0 ?sqr_ge0 // tmp_ge0.
Qed.
Lemma x_inactive_ge0 lamda : (forall g, 0 <= lamda g) -> 0 <= x_inactive pinv blocks weights w0 epsilon lamda.
Proof.
move=> l0; rewrite /x_inactive; set S := inactive _ _ _ _ _.
rewrite big_enum_val /=.
have pe (k : 'I_#|S|) : p_inactive pinv blocks weights w0 epsilon lamda (enum_val k) = p_inactive_vec pinv blocks weights w0 epsilon lamda k 0.
  rewrite /p_inactive (bigD1 k) //= eqxx big1 ?addr0 // => i ik; case: eqP => // e; by rewrite (enum_val_inj e) eqxx in ik.
have -> : \sum_(k < #|S|) dual_grad blocks weights w0 lamda (enum_val k) * p_inactive pinv blocks weights w0 epsilon lamda (enum_val k) =
  quad (pinv (b_inactive blocks weights w0 epsilon lamda)) (\col_g dual_grad blocks weights w0 lamda (enum_val g)).
  rewrite /quad -mulmxA mxE; apply: eq_bigr => k _; by rewrite pe !mxE.
by have [_] := pinv_psd (b_inactive_psd l0).
Qed.
Lemma lamda_m_ge0 lamda step g : 0 <= lamda_m pinv blocks weights w0 epsilon lamda step g.
Proof. by rewrite /lamda_m; case: ifP => _; [|case: ifP => _ //]; exact: np_max0_ge0. Qed.
Lemma ls_accept lamda step : (forall g, 0 <= lamda g) -> 0 <= step -> ~~ ls_rejects pinv blocks weights w0 sigma epsilon lamda step ->
  dual_obj (lamda_m pinv blocks weights w0 epsilon lamda step) <= dual_obj lamda.
Proof.
move=> l0 st0; rewrite /ls_rejects -leNgt => h; rewrite -subr_ge0 -fdiffE //; last by move=> g; exact: lamda_m_ge0.
apply: le_trans h; apply: mulr_ge0 => //; apply: addr_ge0; first by rewrite mulr_ge0 // x_inactive_ge0.
apply: sumr_ge0 => g ga; apply: mulr_ge0; first by move: ga; rewrite inE => /andP [/ltW].
rewrite subr_ge0 /lamda_m ga; have -> : g \in inactive blocks weights w0 epsilon lamda = false.
  by move: ga; rewrite !inE => /andP [gp le]; rewrite leNgt gp ltNge le.
by apply: np_max0_le => //; rewrite ler_subl_addr ler_addl mulr_ge0 // p_active_ge0.
Qed.
Lemma line_search_ok fuel m lamda lm : (forall g, 0 <= lamda g) -> line_search pinv blocks weights w0 beta sigma s_beta epsilon fuel m lamda = Some lm ->
  (forall g, 0 <= lm g) /\ dual_obj lm <= dual_obj lamda.
Proof.
move=> l0; elim: fuel m => [|fuel IH] m //=; case: ifP => [_|/negbT h]; first exact: IH.
move=> [<-]; split; first by move=> g; exact: lamda_m_ge0.
by apply: ls_accept => //; rewrite mulr_ge0 // exprn_ge0.
Qed.
Lemma newton_ok fuel todo it i_null lamda r k : (forall g, 0 <= lamda g) ->
  newton pinv blocks weights w0 tol beta sigma s_beta epsilon fuel todo it i_null lamda = Some (r, k) ->
  (forall g, 0 <= r g) /\ dual_obj r <= dual_obj lamda.
Proof.
elim: todo it i_null lamda => [|todo IH] it i_null lamda l0 /=; first by move=> [<- _].
case: ifP => _; first by move=> [<- _].
case e : (line_search _ _ _ _ _ _ _ _ _ _ _) => [lm|] //; have [m0 mo] := line_search_ok l0 e.
case: ifP => _; first by move=> [<- _].
by move=> /(IH _ _ _ m0) [r0 ro]; split=> //; apply: le_trans mo.
Qed.
End Newton.
