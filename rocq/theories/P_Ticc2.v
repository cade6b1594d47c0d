(** Proofs about the conditional distributions of the TICC data sets. *)
From Coq Require Import Reals.
From mathcomp Require Import all_ssreflect all_algebra.
From Verif Require Import RStruct RTac RMx NP S_Mat P_Utils2 M_Utils M_Ising M_Gauss P_Gauss6 P_Gauss7 M_Ticc P_Ticc.
Import Order.TTheory GRing.Theory Num.Theory.

Set Implicit Arguments.
Unset Strict Implicit.
Unset Printing Implicit Defensive.
Local Open Scope ring_scope.

(** * what determines a conditional distribution *)
Section Cond.
Variables (a b : nat) (S : 'M[R]_(a + b)).
Hypothesis dS : pd S.
Lemma cond_cov_pd : pd (cond_cov S).
Proof. by rewrite /cond_cov /cond_coef; have [_ _ e] := blocks_sym dS; rewrite {2}e trmxK; exact: schur_dr. Qed.
Lemma cond_unique (K : 'M[R]_(b, a)) V : row_mx (- K) 1%:M *m S = row_mx 0 V -> cond_coef S = K /\ cond_cov S = V.
Proof.
have uS := pd_unit (ul_pd dS); have [_ _ e] := blocks_sym dS.
rewrite -{1}(submxK S) mul_row_block !mul1mx !mulNmx => /eq_row_mx[e1 e2].
have k : K = cond_coef S.
  have h : dlsubmx S = K *m ulsubmx S by apply/eqP; rewrite -subr_eq0 addrC; apply/eqP.
  by rewrite /cond_coef h mulmxK.
by split=> //; rewrite /cond_cov -k -e2 addrC e trmxK.
Qed.
Lemma cond_prec (P : 'M[R]_(b, a)) Q : Q \in unitmx -> row_mx P Q *m S = row_mx 0 1%:M ->
  cond_coef S = - (invmx Q *m P) /\ cond_cov S = invmx Q.
Proof.
move=> uQ e; apply: cond_unique; rewrite opprK.
have -> : row_mx (invmx Q *m P) 1%:M = invmx Q *m row_mx P Q by rewrite mul_mx_row mulVmx.
by rewrite -mulmxA e mul_mx_row mulmx0 mulmx1.
Qed.
End Cond.

(** the last block given the first ones, from the precision *)
Lemma cond_last a b (Th : 'M[R]_(a + b)) : pd Th ->
  cond_coef (invmx Th) = - (invmx (drsubmx Th) *m dlsubmx Th) /\ cond_cov (invmx Th) = invmx (drsubmx Th).
Proof.
move=> d; apply: cond_prec; [exact: pd_inv | exact: pd_unit (dr_pd d) |].
have -> : row_mx (dlsubmx Th) (drsubmx Th) = dsubmx Th by rewrite hsubmxK.
by rewrite mul_dsub_mx mulmxV ?pd_unit // (scalar_mx_block a b) block_mxEv col_mxKd.
Qed.
(** the inverse of a leading block of the covariance *)
Lemma marginal a b (Th : 'M[R]_(a + b)) : pd Th ->
  invmx (ulsubmx (invmx Th)) = ulsubmx Th - ursubmx Th *m invmx (drsubmx Th) *m dlsubmx Th.
Proof.
move=> d; set S := invmx Th; have dS : pd S := pd_inv d; have uD := pd_unit (dr_pd d).
have e : Th *m S = 1%:M by rewrite mulmxV // pd_unit.
move: e; rewrite -{1}(submxK Th) -{1}(submxK S) mulmx_block (scalar_mx_block a b) => /eq_block_mx[e1 _ e3 _].
have s21 : dlsubmx S = - (invmx (drsubmx Th) *m dlsubmx Th *m ulsubmx S).
  have : invmx (drsubmx Th) *m (dlsubmx Th *m ulsubmx S + drsubmx Th *m dlsubmx S) = 0 by rewrite e3 mulmx0.
  by rewrite mulmxDr !mulmxA mulVmx // mul1mx addrC => /eqP; rewrite addr_eq0 => /eqP.
have m1 : (ulsubmx Th - ursubmx Th *m invmx (drsubmx Th) *m dlsubmx Th) *m ulsubmx S = 1%:M.
  by rewrite mulmxBl -e1; congr (_ + _); rewrite s21 mulmxN !mulmxA.
by rewrite -[RHS]mulmx1 -(mulmxV (pd_unit (ul_pd dS))) mulmxA m1 mul1mx.
Qed.
Lemma castmx_inv m m' (e : m = m') (A : 'M[R]_m) : castmx (e, e) (invmx A) = invmx (castmx (e, e) A).
Proof. by case: _ / e; rewrite !castmx_id. Qed.

(** * windows *)
Section Sub.
Variable N : nat.
Implicit Types A B : 'M[R]_N.+1.
Lemma sub_full A m : m = N.+1 -> exists e : N.+1 = m, sub A 0 m = castmx (e, e) A.
Proof.
move=> ->; exists erefl; rewrite castmx_id; apply/matrixP => i j; rewrite mxE !add0n.
by rewrite !inord_val.
Qed.
Lemma sub_full_inv A m : m = N.+1 -> sub (invmx A) 0 m = invmx (sub A 0 m).
Proof.
move=> ->; have id B : sub B 0 N.+1 = B by apply/matrixP => i j; rewrite mxE !add0n !inord_val.
by rewrite !id.
Qed.
Lemma sub_sym A o m : sym A -> sym (sub A o m).
Proof. by move=> s; apply/matrixP => i j; rewrite !mxE -{1}s mxE. Qed.
Lemma sub_pd_full A m : m = N.+1 -> pd A -> pd (sub A 0 m).
Proof.
move=> ->; have id B : sub B 0 N.+1 = B by apply/matrixP => i j; rewrite mxE !add0n !inord_val.
by rewrite id.
Qed.
Lemma sub_ul A o a b : ulsubmx (sub A o (a + b)) = sub A o a.
Proof. by apply/matrixP => i j; rewrite !mxE. Qed.
Lemma sub_dr A o a b : drsubmx (sub A o (a + b)) = sub A (o + a) b.
Proof. by apply/matrixP => i j; rewrite !mxE /= !addnA. Qed.
Lemma sub_pd A o m : (o + m <= N.+1)%N -> pd A -> pd (sub A o m).
Proof.
move=> h d; have e : (o + (m + (N.+1 - (o + m))))%N = N.+1 by rewrite addnA subnKC.
have := ul_pd (dr_pd (sub_pd_full e d)).
by rewrite sub_dr sub_ul add0n.
Qed.
End Sub.

(** * the window of a banded precision *)
Section Window.
Variables (n N : nat) (Th : 'M[R]_N.+1).
Notation d := n.+1.
Hypothesis dT : pd Th.
Variables (band i r : nat).
Hypothesis bandP : forall x y : 'I_N.+1, (y %/ d + band < x %/ d)%N -> Th x y = 0.
Hypotheses (ri : (r <= i)%N) (br : (band <= r)%N \/ r = i) (iN : (i.+1 * d <= N.+1)%N).
Let C := invmx Th.
Let far := ((i - r) * d)%N.
Let L1 := (far + (r * d + d))%N.
Let F := (N.+1 - L1)%N.
Lemma L1E : L1 = (i.+1 * d)%N.
Proof. by rewrite /L1 /far addnA -mulnDl subnK // mulSn addnC. Qed.
Lemma L1F : (L1 + F)%N = N.+1.
Proof. by rewrite /F subnKC // L1E. Qed.
Let T1 : 'M[R]_(L1 + F) := sub Th 0 (L1 + F).
Let dT1 : pd T1. Proof. exact: sub_pd_full L1F dT. Qed.
Let Lam : 'M[R]_L1 := invmx (sub C 0 L1).
Lemma LamE : Lam = ulsubmx T1 - ursubmx T1 *m invmx (drsubmx T1) *m dlsubmx T1.
Proof. by rewrite /Lam -(sub_ul C 0 L1 F) /C sub_full_inv ?L1F // (marginal dT1). Qed.
Lemma dC : pd C. Proof. exact: pd_inv. Qed.
Lemma dCL : pd (sub C 0 L1).
Proof. by apply: sub_pd; [rewrite add0n L1E | exact: dC]. Qed.
Lemma dLam : pd Lam. Proof. exact: pd_inv dCL. Qed.
Let Th_inord x y : (x < N.+1)%N -> (y < N.+1)%N -> (y %/ d + band < x %/ d)%N -> Th (inord x) (inord y) = 0.
Proof. by move=> xl yl h; apply: bandP; rewrite !inordK. Qed.
Lemma far_div x : (x < far)%N -> (band <= r)%N /\ (x %/ d + r < i)%N.
Proof.
rewrite /far => xf; have xd : (x %/ d < i - r)%N by rewrite ltn_divLR.
split; last by rewrite addnC -ltn_subRL.
by case: br => // e; move: xd; rewrite e subnn.
Qed.
Lemma Lam_far : dsubmx (dlsubmx Lam) = 0.
Proof.
have dl0 : lsubmx (dlsubmx T1 : 'M[R]_(F, far + (r * d + d))) = 0.
  apply/matrixP => y x; rewrite !mxE /=; have [b1 b2] := far_div (ltn_ord x).
  apply: Th_inord; rewrite ?add0n.
  - by rewrite -L1F ltn_add2l.
  - by rewrite (leq_trans (ltn_ord x)) // (leq_trans _ iN) // -L1E leq_addr.
  have h1 : (i.+1 <= (L1 + y) %/ d)%N by rewrite leq_divRL // -L1E leq_addr.
  by apply: leq_trans h1; rewrite ltnS (leq_trans _ (ltnW b2)) // leq_add2l.
rewrite LamE.
apply/matrixP => u x; rewrite mxE [X in X = _]mxE [X in X = _]mxE [X in X = _]mxE [X in _ + X]mxE.
have -> : ulsubmx T1 (rshift far (rshift (r * d) u)) (lshift (r * d + d) x) = 0.
  rewrite !mxE /=; have [b1 b2] := far_div (ltn_ord x); apply: Th_inord; rewrite ?add0n.
  - by rewrite (leq_trans _ iN) // -L1E /L1 ltn_add2l ltn_add2l.
  - by rewrite (leq_trans (ltn_ord x)) // (leq_trans _ iN) // -L1E leq_addr.
  have h1 : (i <= (far + (r * d + u)) %/ d)%N by rewrite leq_divRL // addnA /far -mulnDl subnK // leq_addr.
  by apply: leq_trans h1; apply: leq_ltn_trans b2; rewrite leq_add2l.
rewrite add0r mxE [X in - X](_ : _ = 0) ?oppr0 ?mxE // big1 // => y _.
have -> : dlsubmx T1 y (lshift (r * d + d) x) = lsubmx (dlsubmx T1 : 'M[R]_(F, far + (r * d + d))) y x by rewrite [RHS]mxE.
by rewrite dl0 [X in _ * X]mxE mulr0.
Qed.
Let G : 'M[R]_(r * d + d) := sub C far (r * d + d).
Let Lw := drsubmx Lam.
Lemma G_cond : cond_coef G = - (invmx (drsubmx Lw) *m dlsubmx Lw) /\ cond_cov G = invmx (drsubmx Lw).
Proof.
have dLw : pd Lw := dr_pd dLam.
have GE : G = drsubmx (sub C 0 L1) by rewrite sub_dr add0n.
apply: cond_prec; [by rewrite GE; exact: dr_pd dCL | exact: pd_unit (dr_pd dLw) |].
have -> : row_mx (dlsubmx Lw) (drsubmx Lw) = dsubmx Lw by rewrite hsubmxK.
have e : Lam *m sub C 0 L1 = 1%:M by rewrite mulVmx //; exact: pd_unit dCL.
have := congr1 (fun M => dsubmx (drsubmx M)) e.
rewrite -{1}(submxK Lam) -{1}(submxK (sub C 0 L1)) mulmx_block block_mxKdr linearD /= -!mul_dsub_mx Lam_far mul0mx add0r -GE => ->.
by rewrite (scalar_mx_block far (r * d + d)) block_mxKdr (scalar_mx_block (r * d) d) block_mxEv col_mxKd.
Qed.
End Window.
