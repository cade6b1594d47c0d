(** Proofs about the fit methods of the kernel-driven estimators (M_KernelFit.v). *)
From Coq Require Import Reals Lra.
From mathcomp Require Import all_ssreflect all_algebra.
From Verif Require Import RStruct RTac S_Mat NP M_Prox M_Loop M_GL M_LGL M_TGL M_KTGL M_Utils M_Missing M_KernelFit RMx P_Prox P_Missing.
Import Order.TTheory GRing.Theory Num.Theory.

Set Implicit Arguments.
Unset Strict Implicit.
Unset Printing Implicit Defensive.
Local Open Scope ring_scope.

(** * kernels *)
Lemma expR_lt (x y : R) : x < y -> exp x < exp y.
Proof. by move=> /RltP h; apply/RltP; apply: exp_increasing. Qed.
Lemma expR_le (x y : R) : x <= y -> exp x <= exp y.
Proof. by rewrite le_eqVlt => /orP[/eqP -> //|/expR_lt/ltW]. Qed.
Lemma expR_gt0 (x : R) : 0 < exp x.
Proof. by apply/RltP; exact: exp_pos. Qed.
Lemma expR0 : exp 0 = 1 :> R.
Proof. exact: exp_0. Qed.
Lemma rbf_gt0 l s t : 0 < rbf l s t.
Proof. exact: expR_gt0. Qed.
Lemma rbf_diag l s : rbf l s s = 1.
Proof. by rewrite /rbf subrr expr0n mul0r oppr0 expR0. Qed.
Lemma rbf_sym l s t : rbf l s t = rbf l t s.
Proof. by rewrite /rbf -opprB sqrrN. Qed.
Lemma rbf_le1 l s t : rbf l s t <= 1.
Proof.
rewrite -expR0; apply: expR_le; rewrite oppr_le0 divr_ge0 ?sqr_ge0 //.
by rewrite mulr_ge0 ?ler0n ?sqr_ge0.
Qed.
Lemma rbf_lt l l' s t : 0 < l -> l < l' -> s != t -> rbf l s t < rbf l' s t.
Proof.
move=> l0 ll st; have l'0 := lt_trans l0 ll; apply: expR_lt; rewrite ltr_opp2 ltr_pmul2l; last first.
  by rewrite lt_neqAle sqr_ge0 eq_sym sqrf_eq0 subr_eq0 st.
rewrite ltf_pinv ?posrE ?mulr_gt0 ?ltr0n ?exprn_gt0 // ltr_pmul2l ?ltr0n //.
by rewrite ltr_expn2r ?ltW.
Qed.
(** nearer times have a larger weight *)
Lemma rbf_decreasing l s t s' t' : 0 < l -> `|s - t| < `|s' - t'| -> rbf l s' t' < rbf l s t.
Proof.
move=> l0 h; apply: expR_lt; rewrite ltr_opp2 ltr_pmul2r ?invr_gt0 ?mulr_gt0 ?ltr0n ?exprn_gt0 //.
by rewrite -[X in X < _]real_normK ?num_real // -[X in _ < X]real_normK ?num_real // ltr_expn2r.
Qed.
Lemma rbf_small l s t : 0 < l -> s != t -> rbf l s t <= 2%:R * l ^+ 2 / (s - t) ^+ 2.
Proof.
move=> l0 st; rewrite /rbf.
have d0 : 0 < (s - t) ^+ 2 by rewrite lt_neqAle sqr_ge0 eq_sym sqrf_eq0 subr_eq0 st.
have q0 : 0 < 2%:R * l ^+ 2 by rewrite mulr_gt0 ?ltr0n ?exprn_gt0.
have x0 : 0 < (s - t) ^+ 2 / (2%:R * l ^+ 2) by rewrite divr_gt0.
have -> : 2%:R * l ^+ 2 / (s - t) ^+ 2 = ((s - t) ^+ 2 / (2%:R * l ^+ 2))^-1 by rewrite [RHS]invf_div.
move: x0; move: (_ / (2%:R * _)) => x x0.
have -> : exp (- x) = (exp x)^-1 :> R by rewrite RinvE' -exp_Ropp.
rewrite lef_pinv ?posrE ?expR_gt0 //.
have := exp_ineq1 x; move: x0 => /RltP x0 h; apply/RleP.
have h' : x <> 0%R by move=> e; move: x0; rewrite e; apply: Rlt_irrefl.
by move: (h h') => {}h; lra.
Qed.
Lemma ess_le l l' s t : 0 < l -> l < l' -> exp_sine_squared l s t <= exp_sine_squared l' s t.
Proof.
move=> l0 ll; have l'0 := lt_trans l0 ll; apply: expR_le; rewrite ler_opp2 ler_pmul2l ?ltr0n // !expr_div_n.
apply: ler_wpmul2l; first exact: sqr_ge0.
by rewrite lef_pinv ?posrE ?exprn_gt0 // ler_expn2r ?nnegrE ?ltW.
Qed.
Lemma sin_nat (k : nat) : sin (PI * k%:R) = 0 :> R.
Proof.
elim: k => [|k IH]; first by rewrite mulr0; exact: sin_0.
rewrite -addn1 natrD mulrDr mulr1; have := neg_sin (PI * k%:R); rewrite IH => e.
by rewrite [LHS]e; exact: oppr0.
Qed.
Lemma ess_nat l (i j : nat) : exp_sine_squared l i%:R j%:R = 1.
Proof.
rewrite /exp_sine_squared; have [k ->] : exists k : nat, `|i%:R - j%:R| = k%:R :> R.
  case/orP: (leq_total i j) => h; first by exists (j - i)%N; rewrite -normrN opprB -natrB // ger0_norm ?ler0n.
  by exists (i - j)%N; rewrite -natrB // ger0_norm ?ler0n.
by rewrite sin_nat mul0r expr0n mulr0 oppr0 expR0.
Qed.

(** * the objective of the kernel parameter *)
Section Objective.
Variables (n T : nat) (times : 'I_T -> R) (psi : 'M[R]_n -> R) (K : stack n T).
Hypothesis psi0 : forall X, 0 <= psi X.
Lemma objective_le (k k' : 'M[R]_T) : (forall s t : 'I_T, (s < t)%N -> k s t <= k' s t) ->
  objective_kernel_value K k psi <= objective_kernel_value K k' psi.
Proof. by move=> h; apply: ler_sum => e _; apply: ler_wpmul2l => //; apply: h; exact: (valP e). Qed.
Lemma objective_lt (k k' : 'M[R]_T) (s t : 'I_T) : (forall s t : 'I_T, (s < t)%N -> k s t < k' s t) ->
  (s < t)%N -> 0 < psi (K t - K s) -> objective_kernel_value K k psi < objective_kernel_value K k' psi.
Proof.
move=> h st p0; rewrite /objective_kernel_value; pose e : tpair T := exist _ (s, t) st.
rewrite (bigD1 e) //= [X in _ < X](bigD1 e) //=; apply: ltr_le_add; first by rewrite ltr_pmul2l //; apply: h.
by apply: ler_sum => e' _; apply: ler_wpmul2l => //; apply: ltW; apply: h; exact: (valP e').
Qed.
Lemma objective_rbf_lt (l l' : R) (s t : 'I_T) : injective times -> 0 < l -> l < l' -> (s < t)%N -> 0 < psi (K t - K s) ->
  objective_kernel_value K (gram (rbf l) times) psi < objective_kernel_value K (gram (rbf l') times) psi.
Proof.
move=> inj l0 ll st; apply: objective_lt => // s' t' st'; rewrite !mxE rbf_lt //.
by apply: contraTneq st' => /inj ->; rewrite ltnn.
Qed.
Lemma objective_constant_lt (l l' : R) (s t : 'I_T) : l < l' -> (s < t)%N -> 0 < psi (K t - K s) ->
  objective_kernel_value K (gram (constant_value l) times) psi < objective_kernel_value K (gram (constant_value l') times) psi.
Proof. by move=> ll st; apply: objective_lt => // s' t' st'; rewrite !mxE. Qed.
Lemma objective_ess_le (l l' : R) : 0 < l -> l < l' ->
  objective_kernel_value K (gram (exp_sine_squared l) times) psi <= objective_kernel_value K (gram (exp_sine_squared l') times) psi.
Proof. by move=> l0 ll; apply: objective_le => s t _; rewrite !mxE ess_le. Qed.
Lemma objective_rbf_small (e : R) : injective times -> 0 < e ->
  exists2 l : R, 0 < l & objective_kernel_value K (gram (rbf l) times) psi < e.
Proof.
move=> inj e0; pose C : R := \sum_(p : tpair T) psi (K (t_r p) - K (t_l p)) * (2%:R / (times (t_l p) - times (t_r p)) ^+ 2).
have C0 : 0 <= C by apply: sumr_ge0 => p _; rewrite mulr_ge0 // divr_ge0 ?ler0n ?sqr_ge0.
have D0 : 0 < C + 1 by apply: ltr_paddl C0 ltr01.
exists (Num.sqrt (e / (C + 1))); first by rewrite sqrtr_gt0 divr_gt0.
apply: (@le_lt_trans _ _ (C * (e / (C + 1)))); last first.
  by rewrite mulrA ltr_pdivr_mulr // mulrC ltr_pmul2l // ltr_addl ltr01.
rewrite /C mulr_suml; apply: ler_sum => p _; rewrite -mulrA; apply: ler_wpmul2l => //; rewrite mxE.
have st : times (t_l p) != times (t_r p) by apply/negP => /eqP/inj e'; have := valP p; rewrite -/(t_l p) -/(t_r p) e' ltnn.
apply: le_trans (rbf_small _ st) _; first by rewrite sqrtr_gt0 divr_gt0.
by rewrite sqr_sqrtr; [rewrite [X in _ <= X]mulrAC|apply: ltW; rewrite divr_gt0].
Qed.
End Objective.

(** * the loop over the parameter *)
Section EM.
Variables (n T : nat) (times : 'I_T -> R) (Out : Type) (prec : Out -> stack n T).
Variables (solver : 'M[R]_T -> init_mode3 n T -> res Out) (c : kernel_class) (minimise : stack n T -> R).
(** [out] is the solver's result for the kernel at theta, which was best for the previous matrices; [K] are its matrices *)
Definition em_solved K theta (out : option Out) : Prop :=
  exists r k K0, [/\ out = Some r, K = prec r, theta = minimise K0, kernel_at times c theta = Val k & solver k (Init3Array K0) = Val r].
Lemma em_loop_spec todo : forall i K theta out K' out' theta' w, ((0 < i)%N -> em_solved K theta out) ->
  em_loop times prec solver c minimise todo i K theta out = Val (K', out', theta', w) ->
  ((0 < todo + i)%N -> em_solved K' theta' out') /\ (w = false -> `|theta' - minimise K'| < em_tol).
Proof.
elim: todo => [|todo IH] i K theta out K' out' theta' w inv /=.
  by case=> <- <- <- <-; split=> // h; apply: inv.
case: ifP => [/andP[i0 h] [<- <- <- <-]|_]; first by split=> // _; apply: inv.
case ek: (kernel_at times c _) => [k|//]; case er: (solver k _) => [r|//].
by move=> /IH; rewrite addnS; apply=> _; exists r, k, K.
Qed.
End EM.

(** * the similarity *)
Section Similarity.
Variables (n T : nat) (psi : 'M[R]_n -> R) (K : stack n T.+1).
Hypothesis psi0 : forall X, 0 <= psi X.
Lemma np_amin_le d (A : 'M[R]_d.+1) i j : np_amin A <= A i j.
Proof.
rewrite /np_amin; have : (i, j) \in index_enum [finType of 'I_d.+1 * 'I_d.+1] by rewrite mem_index_enum.
elim: (index_enum _) => // st r IH; rewrite inE big_cons le_minl => /orP[/eqP <-|/IH ->]; by rewrite ?lexx ?orbT.
Qed.
Lemma np_amin_ge d (A : 'M[R]_d.+1) (m : R) : (forall i j, m <= A i j) -> m <= np_amin A.
Proof.
by move=> h; rewrite /np_amin; elim/big_ind: _ => // x y hx hy; rewrite le_minr hx hy.
Qed.
(** the distance of two times, whatever their order *)
Definition distance (s t : 'I_T.+1) : R := if (s <= t)%N then psi (K t - K s) else psi (K s - K t).
Lemma psi_distances_ge0 s t : 0 <= psi_distances psi K s t.
Proof. by rewrite mxE; do 2 case: ifP => // _. Qed.
Lemma psi_distances_sym s t : psi_distances psi K s t = psi_distances psi K t s.
Proof. by rewrite !mxE; case: ltngtP. Qed.
Lemma psi_distances_diag s : psi_distances psi K s s = 0.
Proof. by rewrite mxE ltnn. Qed.
Lemma np_amin_distances : np_amin (psi_distances psi K) = 0.
Proof.
apply/eqP; rewrite eq_le np_amin_ge ?andbT; last exact: psi_distances_ge0.
by rewrite -[X in _ <= X](psi_distances_diag 0) np_amin_le.
Qed.
Lemma precision_similarityE : precision_similarity psi K =
  let d := psi_distances psi K in if np_amax d == 0 then None else Some (\matrix_(s, t) (1 - d s t / np_amax d)).
Proof.
rewrite /precision_similarity np_amin_distances.
have -> : (\matrix_(s, t) (psi_distances psi K s t - 0) = psi_distances psi K)%R by apply/matrixP => s t; rewrite mxE subr0.
by [].
Qed.
End Similarity.

(** * the similarity loops *)
Section SimLoop.
Variables (n T : nat) (Out : Type) (prec : Out -> stack n T.+1) (solver : 'M[R]_T.+1 -> init_mode3 n T.+1 -> res Out).
Variables (similarity : stack n T.+1 -> option 'M[R]_T.+1) (cluster : nat -> 'M[R]_T.+1 -> option ('I_T.+1 -> nat)).
Variables (k : nat) (beta eps : R).
(** [out] is the solver's result for the kernel of the labels [lab]; [K] are its matrices *)
Definition sim_solved (K : stack n T.+1) (out : option Out) (lab : 'I_T.+1 -> nat) : Prop :=
  exists r init, [/\ out = Some r, K = prec r & solver (cluster_kernel beta lab) init = Val r].
Lemma sim_loop_spec todo : forall i K out kernel lo f, ((0 < i)%N -> sim_solved K out lo /\ kernel = cluster_kernel beta lo) ->
  sim_loop prec solver similarity cluster k beta eps todo i K out kernel lo = Val f ->
  (sf_warned f = false -> similarity (sf_precision f) = Some (sf_similarity f) /\
     exists lab lo', [/\ cluster k (sf_similarity f) = Some lab, labels_close eps lab lo' & sim_solved (sf_precision f) (sf_out f) lo']) /\
  (sf_warned f -> (0 < todo + i)%N -> exists lo', sf_similarity f = cluster_kernel beta lo' /\ sim_solved (sf_precision f) (sf_out f) lo').
Proof.
elim: todo => [|todo IH] i K out kernel lo f inv /=.
  by case=> <- /=; split=> // _ /inv [h1 h2]; exists lo.
case es: (similarity K) => [theta|//]; case ec: (cluster k theta) => [lab|//].
case: ifP => [/andP[i0 h] [<-]|_] /=.
  by split=> // _; split=> //; exists lab, lo; split=> //; case: (inv i0).
case er: (solver _ _) => [r|//] /IH; rewrite addnS; apply=> _; split=> //.
by exists r, (Init3Array K).
Qed.
Lemma sim_ising_loop_spec todo : forall i K out kernel lo f, ((0 < i)%N -> kernel = cluster_kernel beta lo) ->
  sim_ising_loop prec solver similarity cluster k beta eps todo i K out kernel lo = Val f ->
  (sf_warned f = false -> similarity (sf_precision f) = Some (sf_similarity f) /\
     exists lab lo', [/\ cluster k (sf_similarity f) = Some lab, labels_close eps lab lo' & sim_solved (sf_precision f) (sf_out f) lo']) /\
  (sf_warned f -> (0 < todo + i)%N -> exists lo', sf_similarity f = cluster_kernel beta lo').
Proof.
elim: todo => [|todo IH] i K out kernel lo f inv /=.
  by case=> <- /=; split=> // _ /inv h2; exists lo.
case er: (solver _ _) => [r|//].
case es: (similarity (prec r)) => [theta|//]; case ec: (cluster k theta) => [lab|//].
case: ifP => [/andP[i0 h] [<-]|_] /=.
  split=> // _; split=> //; exists lab, lo; split=> //; exists r, Init3Other; split=> //.
  by rewrite -(inv i0).
by move=> /IH; rewrite addnS; apply.
Qed.
Lemma labels_close_eq (a b : 'I_T.+1 -> nat) : eps <= T.+1%:R^-1 -> labels_close eps a b -> a =1 b.
Proof.
rewrite /labels_close => he h t; apply/eqP; apply: contraTT h => ab; rewrite -leNgt; apply: le_trans he _.
rewrite -[X in X <= _]mul1r ler_pmul2r ?invr_gt0 ?ltr0n //.
suff : 1 <= \sum_t0 ((a t0)%:R - (b t0)%:R) ^+ 2 :> R.
  by move=> /RleP h; apply/RleP; have := sqrt_le_1_alt _ _ h; rewrite sqrt_1.
rewrite (bigD1 t) //= -[X in X <= _]addr0; apply: ler_add; last by apply: sumr_ge0 => i _; exact: sqr_ge0.
wlog l : a b ab / (a t < b t)%N.
  move=> h; case: (ltngtP (a t) (b t)) ab => // l ab; first by apply: h; rewrite ?ltn_eqF.
  by rewrite -opprB sqrrN; apply: h; rewrite ?ltn_eqF.
by rewrite -opprB sqrrN -natrB ?(ltnW l) // -natrX ler1n expn_gt0 subn_gt0 l.
Qed.
End SimLoop.
Lemma cluster_kernel_diag T beta (lab : 'I_T.+1 -> nat) t : cluster_kernel beta lab t t = 2%:R.
Proof. by rewrite !mxE !rbf_diag -(natrD _ 1 1). Qed.
