(** Further theorems for C129, C135 and C144, each of which a wrong program had passed without. *)
From Coq Require Import Reals.
From mathcomp Require Import all_ssreflect all_algebra.
From Verif Require Import RStruct RTac S_Mat NP M_Utils M_Prox M_GL M_LGL M_Infimal M_Ising M_Gauss M_TGL M_KTGL M_KernelFit RMx P_Prox P_Rules P_GaussMY.
Import Order.TTheory GRing.Theory Num.Theory.

Set Implicit Arguments.
Unset Strict Implicit.
Unset Printing Implicit Defensive.
Local Open Scope ring_scope.

(** before edges are removed again, a node with k neighbours among the earlier nodes has at most 4 - k among itself and the later ones *)
Theorem C129_budget : forall p (ix : 'I_p -> seq 'I_p) value (i : 'I_p), let A : 'M[R]_p := my_fill ix value in
  (#|[set j : 'I_p | (i <= j)%N && (A i j != 0%R)]| <= 4 - #|[set j : 'I_p | (j < i)%N && (A i j != 0%R)]|)%N.
Proof. by move=> p ix v i; case: (fill_row ix v i). Qed.
Print Assumptions C129_budget.
(** a node is a candidate for its own neighbours, usually the best one as its distance is 0: the first node then gets at most three *)
Theorem C129_self_refuted : forall chol p (ix : 'I_p -> seq 'I_p) shuffle theta (i : 'I_p), theta_my chol ix shuffle = IOk theta ->
  ohead (ix i) = Some i -> (#|[set j : 'I_p | (i < j)%N && (theta i j != 0%R)]| <= 3)%N.
Proof.
move=> chol p ix shuffle theta i; rewrite /theta_my; case: ifP => // _ [<-] hi.
have [_ /(_ hi) h] := fill_row ix my_value i; apply: leq_trans (leq_trans h (leq_subr _ _)); apply: subset_leq_card; apply/subsetP => j.
rewrite !inE mxE => /andP [ij]; rewrite ij (negbTE (_ : i != j)) /=; last by rewrite -val_eqE /= (ltn_eqF ij).
by apply: contraNN => /eqP e; rewrite prune_sub.
Qed.
Print Assumptions C129_self_refuted.

(** the objective that is reported is the one that is minimised, less the penalty on the diagonal of K *)
Theorem C135_objective_refuted : forall n nuc (S K L : 'M[R]_n) alpha tau, nuc L = \tr L ->
  ic_objective nuc S (K - L) K L alpha tau = fnorm2 (S - (K - L)) / 2%:R + alpha * l1 K + tau * \tr L - alpha * \sum_i `|K i i|.
Proof.
move=> n nuc S K L a t e; rewrite /ic_objective squared_normE e.
have -> : l1 K = l1od K + \sum_i `|K i i|.
  by rewrite /l1 /l1od -big_split /=; apply: eq_bigr => i _; rewrite (bigD1 i) //= addrC.
rewrite l1_od_normE.
have num (x l d y : R) : 2%:R^-1 * x + a * l + y = x / 2%:R + a * (l + d) + y - a * d by mcring.
exact: num.
Qed.
Print Assumptions C135_objective_refuted.

(** with a number as ker_param there is one call of the solver: with the kernel at that number and the init parameter as given *)
Theorem C144_fixed : forall n T (times : 'I_T -> R) Out (prec : Out -> stack n T) solver kernel theta minimise m init K0 K out w,
  kernel_fit times prec solver kernel (Some theta) minimise m init K0 = Val (K, out, w) ->
  exists k r, [/\ choose_kernel times kernel theta = Val k, solver k init = Val r, K = prec r, out = Some r & w = false].
Proof.
move=> n T times Out prec solver kernel theta minimise m init K0 K out w; rewrite /kernel_fit.
case: (choose_kernel _ _ _) => // k; case e : (solver k init) => [r|] // [<- <- <-]; by exists k, r.
Qed.
Print Assumptions C144_fixed.

(** three nodes, each its own first choice *)
Example C129_self_case : let ix := fun i : 'I_3 => i :: enum 'I_3 in
  ohead (ix 0) = Some 0 /\ (my_fill ix (1 : R)) 0 0 = 1.
Proof.
move=> ix; split=> //; rewrite /my_fill.
have [l [l' [e al al']]] := @enum_split 3 0.
have l0 : l = [::] by case: (l) al => [|k l0] //=; rewrite ltn0.
rewrite e l0; apply: etrans (fill_later ix 1 _ 0 al') _; rewrite mxE eqxx /= /nnz.
have -> : #|[set j | (0 : 'M[R]_3) 0 j != 0]| = 0%N by apply/eqP; rewrite cards_eq0; apply/eqP/setP => j; rewrite !inE mxE eqxx.
by rewrite subn0 mem_head.
Qed.
