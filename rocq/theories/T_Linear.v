(** Property theorems C50, C102-C110: the linear models. *)
From Coq Require Import Reals Lra.
From mathcomp Require Import all_ssreflect all_algebra.
From Verif Require Import RStruct RTac LinTac S_Mat RMx S_Linear NP M_Prox P_Prox M_Loop P_Loop M_Linear P_GL2.
From Verif Require Import P_Linear P_Linear2 P_Linear3 P_Linear4 P_Linear5 P_Exist P_Linear6 P_Linear7.
Import Order.TTheory GRing.Theory Num.Theory.

Set Implicit Arguments.
Unset Strict Implicit.
Unset Printing Implicit Defensive.
Local Open Scope ring_scope.

(** the numpy routines exist: a factor L with L L^T = M for positive definite M, and exact solutions of regular systems *)
Lemma numpy_exists : exists chol lstsq, cholesky_ok chol /\ lstsq_ok lstsq.
Proof.
pose lst : lstsq_t := fun k M q => invmx M *m q.
have hl : lstsq_ok lst by move=> k M q uM; rewrite mulKVmx.
have [chol hc] : exists chol : cholesky_t, cholesky_ok chol.
  have ch k (M : 'M[R]_k) : exists L : 'M[R]_k, pd M -> L *m L^T = M.
    case: (Classical_Prop.classic (pd M)) => [pM|nM]; last by exists 0.
    by have [B [[sB _] e]] := psd_sqrt (pd_psd pM); exists B => _; rewrite sB.
  exists (fun k M => proj1_sig (ClassicalEpsilon.constructive_indefinite_description _ (ch k M))) => k M.
  exact: (proj2_sig (ClassicalEpsilon.constructive_indefinite_description _ (ch k M))).
by exists chol, lst.
Qed.

(** ** C50: D counts the groups of a variable; P* is the least-squares consensus *)
Theorem C50_D_counts : forall groups e, D_function groups e = (count (fun g : seq nat => e \in g) groups)%:R.
Proof. exact D_functionE. Qed.
Print Assumptions C50_D_counts.
Theorem C50_consensus : forall (x : seq (seq R)) (groups : seq (seq nat)), same_shape x groups -> all uniq groups ->
  (forall v, disagreement x groups (P_star_x_bar x groups) <= disagreement x groups v) /\
  (forall v, (forall w, disagreement x groups v <= disagreement x groups w) ->
     forall e, e \in flatten groups -> v e = P_star_x_bar x groups e).
Proof.
move=> x groups ss ug; split=> [v|v h]; first exact: consensus_min.
exact: (consensus_unique ss ug (h _)).
Qed.
Print Assumptions C50_consensus.
(** copies of one vector are averaged to that vector *)
Theorem C50_idempotent : forall (groups : seq (seq nat)) (v : nat -> R) e, e \in flatten groups ->
  P_star_x_bar [seq [seq v i | i <- g] | g <- groups] groups e = v e.
Proof. by move=> groups v e he; rewrite (P_star_copies groups v e) he. Qed.
Print Assumptions C50_idempotent.
Example C50_case : same_shape [:: [:: 1; 2%:R]; [:: 4%:R; 5%:R]] [:: [:: 0; 1]; [:: 1; 2]]%N /\
  all uniq [:: [:: 0; 1]; [:: 1; 2]]%N /\
  P_star_x_bar [:: [:: 1; 2%:R]; [:: 4%:R; 5%:R]] [:: [:: 0; 1]; [:: 1; 2]]%N 1 = 3%:R.
Proof.
split=> //; split=> //; rewrite /P_star_x_bar /P_star_acc /= add0r -natrD.
by rewrite (natrM _ 3 2 : (2 + 4)%:R = _) mulfK ?pnatr_eq0.
Qed.

(** ** C102: one iteration of lasso; its resting states are the solutions *)
Theorem C102_x_update : forall m n (A : 'M[R]_(m, n)) b rho, 0 < rho -> forall chol lstsq, cholesky_ok chol -> lstsq_ok lstsq ->
  forall z u, unique_minimiser (@everywhere _)
    (fun x => 2%:R^-1 * fnorm2 (A *m x - b) + rho / 2%:R * fnorm2 (x - z + u)) (ls_x chol lstsq A b rho z u).
Proof. by move=> m n A b rho r0 chol lstsq hc hl z u; exact: ls_x_min. Qed.
Print Assumptions C102_x_update.
Theorem C102_stationary_is_optimal : forall m n chol lstsq (A : 'M[R]_(m, n)) b p,
  cholesky_ok chol -> lstsq_ok lstsq -> 0 <= ls_lamda p -> 0 < ls_rho p -> ls_alpha p != 0 -> forall it s,
  ls_z (out_state (lasso_body chol lstsq A b p it s).1) = ls_z s ->
  ls_u (out_state (lasso_body chol lstsq A b p it s).1) = ls_u s ->
  minimiser (@everywhere _) (lasso_problem A b (ls_lamda p)) (ls_z s).
Proof.
move=> m n chol lstsq A b p hc hl l0 r0 a0 it s ez eu; apply/lasso_optimumE.
apply: (ls_fixed_opt hc hl l0 r0 a0 (u := ls_u s)).
have := body_u chol lstsq A b p it s; cbv zeta; rewrite ez eu => e1.
have := body_z chol lstsq A b p it s; cbv zeta; rewrite ez => e2.
by split.
Qed.
Print Assumptions C102_stationary_is_optimal.
Theorem C102_optimal_is_stationary : forall m n chol lstsq (A : 'M[R]_(m, n)) b p,
  cholesky_ok chol -> lstsq_ok lstsq -> 0 <= ls_lamda p -> 0 < ls_rho p -> forall z,
  minimiser (@everywhere _) (lasso_problem A b (ls_lamda p)) z ->
  exists u, forall it s, ls_z s = z -> ls_u s = u ->
    ls_z (out_state (lasso_body chol lstsq A b p it s).1) = z /\
    ls_u (out_state (lasso_body chol lstsq A b p it s).1) = u.
Proof.
move=> m n chol lstsq A b p hc hl l0 r0 z /lasso_optimumE h.
have [u [h1 h2]] := ls_opt_fixed hc hl l0 r0 h; exists u => it s ez eu.
have := body_z chol lstsq A b p it s; cbv zeta; rewrite ez eu -h1 => e1.
by have := body_u chol lstsq A b p it s; cbv zeta; rewrite ez eu e1 -h2.
Qed.
Print Assumptions C102_optimal_is_stationary.
Theorem C102_solution_exists : forall m n (A : 'M[R]_(m, n)) b lamda, 0 < lamda ->
  exists x, minimiser (@everywhere _) (lasso_problem A b lamda) x.
Proof. by move=> m n A b lamda l0; have [x h] := lasso_exists A b l0; exists x; apply/lasso_optimumE. Qed.
Print Assumptions C102_solution_exists.
Example C102_case : exists chol lstsq, cholesky_ok chol /\ lstsq_ok lstsq.
Proof. exact numpy_exists. Qed.

(** ** C103: lasso stops, and how good its last iterate is *)
Definition with_iter (p : ls_params) (k : nat) : ls_params :=
  LSParams (ls_lamda p) (ls_rho p) (ls_alpha p) k (ls_tol p) (ls_rtol p) (ls_return_history p).
Lemma lasso_break m n chol lstsq (A : 'M[R]_(m, n)) b p it s : is_break (lasso_body chol lstsq A b p it s).1 ->
  exists2 h, ls_hist (out_state (lasso_body chol lstsq A b p it s).1) = Some h & c_rnorm h < c_e_pri h /\ c_snorm h < c_e_dual h.
Proof.
rewrite /lasso_body; set h := {| c_obj := _ |}; case e: (ls_stop h) => // _; exists h => //.
by move/andP: e.
Qed.
Theorem C103_terminates : forall m n chol lstsq (A : 'M[R]_(m, n.+1)) b p,
  cholesky_ok chol -> lstsq_ok lstsq -> 0 < ls_lamda p -> 0 < ls_rho p -> ls_alpha p = 1 ->
  0 < ls_tol p -> 0 <= ls_rtol p ->
  exists N r, forall k, (N < k)%N -> lasso chol lstsq A b (with_iter p k) = r /\
    (ls_return_history p -> exists z h, [/\ r = Ok (z, LastEntry n.+1 h),
      c_rnorm h < c_e_pri h & c_snorm h < c_e_dual h]).
Proof.
move=> m n chol lstsq A b p hc hl l0 r0 a1 t0 rt0.
have [xo hxo] := lasso_exists A b l0.
pose e : R := 2%:R^-1 * (sqrt n.+1%:R * ls_tol p).
have e0 : 0 < e ^+ 2 by rewrite exprn_gt0 // mulr_gt0 ?invr_gt0 ?ltr0n //; exact: sqn_gt0.
pose d : R := ls_rho p ^- 2 * fnorm2 (ls_grad A b xo) + fnorm2 xo.
have [N1 [_ h1]] := archi d e0; have [N2 [_ h2]] := archi (ls_rho p ^+ 2 * d) e0.
pose N := (maxn N1 N2).+1.
have hN (x : R) k : (k <= N)%N -> x <= e ^+ 2 * k%:R -> x <= e ^+ 2 * N%:R.
  by move=> hk h; apply: le_trans h _; apply: ler_wpmul2l; [exact: ltW | rewrite ler_nat].
have g1 : d <= e ^+ 2 * N%:R by apply: (hN _ N1) => //; apply: leqW; exact: leq_maxl.
have g2 : ls_rho p ^+ 2 * d <= e ^+ 2 * N%:R by apply: (hN _ N2) => //; apply: leqW; exact: leq_maxr.
have stop k : (N < k)%N -> ~~ le_else (py_for (lasso_body chol lstsq A b p) k 0 (ls_init n.+1) [::] None).
  by move=> hk; exact: (lasso_bound hc hl (ltW l0) r0 a1 t0 rt0 (ltn0Sn n) hxo (ltn0Sn _) hk g1 g2).
exists N, (lasso chol lstsq A b (with_iter p N.+1)) => k hk.
have same j : lasso_loop chol lstsq A b (with_iter p j) = py_for (lasso_body chol lstsq A b p) j 0 (ls_init n.+1) [::] None by [].
split.
  rewrite /lasso !same (py_for_more (N := N.+1)) //; exact: stop.
move=> rh; have := py_for_break (Convergence NaN 0 0 0 0) (stop N.+1 (ltnSn N)); cbv zeta.
case=> j [_ br es _]; have [h eh [q1 q2]] := lasso_break br.
by exists (ls_z (le_state (lasso_loop chol lstsq A b (with_iter p N.+1)))), h; split=> //; rewrite /lasso rh same es eh.
Qed.
Print Assumptions C103_terminates.
Theorem C103_gap : forall m n chol lstsq (A : 'M[R]_(m, n)) b p,
  cholesky_ok chol -> lstsq_ok lstsq -> 0 <= ls_lamda p -> 0 < ls_rho p -> ls_alpha p = 1 ->
  (0 < ls_max_iter p)%N -> ls_return_history p ->
  exists z h o, lasso chol lstsq A b p = Ok (z, LastEntry n h) /\ c_obj h = Fin o /\
  forall y, o <= lasso_problem A b (ls_lamda p) y + ls_lamda p * sqrt n%:R * c_rnorm h
                 + c_snorm h * (fnorm (y - z) + c_rnorm h).
Proof.
move=> m n chol lstsq A b p hc hl l0 r0 a1 m0 rh.
have [h eh [o eo g]] := run_gap A b hc hl l0 r0 a1 m0.
exists (ls_z (le_state (lasso_loop chol lstsq A b p))), h, o; split=> //.
by rewrite /lasso rh eh.
Qed.
Print Assumptions C103_gap.
Example C103_case : exists chol lstsq (A : 'M[R]_(1, 2)) (b : 'cV[R]_1) p, [/\ cholesky_ok chol, lstsq_ok lstsq & A 0 0 != A 0 1] /\
  [/\ 0 < ls_lamda p, 0 < ls_rho p, ls_alpha p = 1, 0 < ls_tol p & 0 <= ls_rtol p] /\ b 0 0 != 0 :> R.
Proof.
have [chol [lstsq [hc hl]]] := numpy_exists.
exists chol, lstsq, (\row_i (i : nat)%:R), (const_mx 1), (LSParams 1 1 1 10 1 0 true).
by split; [split=> //; rewrite !mxE eq_sym oner_eq0 | split; [split=> //=; exact: ltr01 | rewrite mxE oner_eq0]].
Qed.

(** ** C104: what lasso returns *)
(** documented: the coefficients, or with return_history the coefficients and the list of all entries *)
Theorem C104_pair_refuted : forall m n chol lstsq (A : 'M[R]_(m, n)) b p, ls_return_history p = false ->
  exists z, lasso chol lstsq A b p = Ok (z, Coefs z).
Proof. by move=> m n chol lstsq A b p e; rewrite /lasso e; eexists. Qed.
Print Assumptions C104_pair_refuted.
Theorem C104_history_refuted : forall m n chol lstsq (A : 'M[R]_(m, n)) b p, ls_return_history p ->
  ls_max_iter p != 0%N -> exists z h, lasso chol lstsq A b p = Ok (z, LastEntry n h).
Proof.
move=> m n chol lstsq A b p e; rewrite -lt0n => m0; rewrite /lasso e.
have [h eh] : exists h, ls_hist (le_state (lasso_loop chol lstsq A b p)) = Some h; last by rewrite eh; eexists; eexists.
apply: (@py_for_post _ _ (lasso_body chol lstsq A b p) (fun=> True) (fun s => exists h, ls_hist s = Some h)) => // j s _.
by split=> //; rewrite /lasso_body; case: ls_stop; eexists.
Qed.
Print Assumptions C104_history_refuted.
Theorem C104_no_iteration : forall m n chol lstsq (A : 'M[R]_(m, n)) b p, ls_return_history p -> ls_max_iter p = 0%N ->
  lasso chol lstsq A b p = UnboundLocalError _.
Proof. by move=> m n chol lstsq A b p e m0; rewrite /lasso /lasso_loop m0 e. Qed.
Print Assumptions C104_no_iteration.

(** ** C105: group_lasso solves the lasso *)
Theorem C105_stationary_is_lasso : forall m n chol lstsq (A : 'M[R]_(m, n)) b groups p, cholesky_ok chol -> lstsq_ok lstsq ->
  0 <= ls_lamda p -> 0 < ls_rho p -> ls_alpha p != 0 -> (forall i : 'I_n, (i : nat) \in flatten groups) -> forall it s,
  ls_z (out_state (group_lasso_body chol lstsq A b groups p it s).1) = ls_z s ->
  ls_u (out_state (group_lasso_body chol lstsq A b groups p it s).1) = ls_u s ->
  minimiser (@everywhere _) (lasso_problem A b (ls_lamda p)) (ls_z s).
Proof.
move=> m n chol lstsq A b groups p hc hl l0 r0 a0 cov it s ez eu; apply/lasso_optimumE.
exact: (group_fixed_opt hc hl l0 r0 a0 cov ez eu).
Qed.
Print Assumptions C105_stationary_is_lasso.
(** on A = I, b = (1,1), one group of two variables, lamda = rho = 1, every budget and tolerance: the estimate is 0 and there
    is a better one *)
Theorem C105_group_problem_refuted : forall chol lstsq p, cholesky_ok chol -> lstsq_ok lstsq ->
  ls_lamda p = 1 -> ls_rho p = 1 -> ls_alpha p = 1 -> ls_return_history p = false ->
  group_lasso chol lstsq 1%:M ones2 grp2 p = Some (0, Coefs 0) /\
  exists y, group_problem 1%:M ones2 1 grp2 y < group_problem 1%:M ones2 1 grp2 0.
Proof.
move=> chol lstsq p hc hl e1 e2 e3 e4; split.
  have e : partition_check 2 grp2.
    rewrite partition_checkP //.
    rewrite -natrX ler_nat (leq_trans (_ : (2 <= 10)%N)) // -[X in (X <= _)%N]expn1 leq_exp2l //.
  by rewrite /group_lasso e /= (group_run_zero hc hl e1 e2 e3) e4.
exists (const_mx 4%:R^-1); have := @group_value_gap 0 (lexx 0).
have -> : (const_mx 0 : 'cV[R]_2) = 0 by apply/matrixP => i j; rewrite !mxE.
by apply; rewrite invr_ge0 ler0n.
Qed.
Print Assumptions C105_group_problem_refuted.

(** ** C106: the dual residual group_lasso records is always 0, so that it may stop after one iteration *)
Theorem C106_dual_residual_refuted : forall m n chol lstsq (A : 'M[R]_(m, n)) b groups p,
  forall z hist, group_lasso chol lstsq A b groups p = Some (z, AllEntries n hist) ->
  forall c, c \in [seq c_snorm h | h <- hist] -> c = 0.
Proof.
move=> m n chol lstsq A b groups p z hist; rewrite /group_lasso; case: partition_check => //=.
case: ls_return_history => // [[_ <-]] c; rewrite /group_lasso_loop.
have [k [_ _ -> _ _]] := py_forP (group_lasso_body chol lstsq A b groups p) (ls_max_iter p) 0 (ls_init n) [::] None.
by rewrite cat0s -map_comp => /mapP [j _ ->] /=; exact: gbody_snorm.
Qed.
Print Assumptions C106_dual_residual_refuted.
Theorem C106_one_iteration_refuted : forall m n chol lstsq (A : 'M[R]_(m, n.+1)) b groups p,
  ls_alpha p = 1 -> 0 < ls_rho p -> 0 <= ls_lamda p -> ls_lamda p < ls_tol p * ls_rho p -> 0 <= ls_rtol p ->
  (forall i : 'I_n.+1, (i : nat) \in flatten groups) -> (0 < ls_max_iter p)%N -> ls_return_history p ->
  forall z hist, group_lasso chol lstsq A b groups p = Some (z, AllEntries n.+1 hist) -> size hist = 1%N.
Proof.
move=> m n chol lstsq A b groups p a1 r0 l0 lt rt cov; rewrite /group_lasso /group_lasso_loop.
case: (ls_max_iter p) => // k _ -> z hist; case: partition_check => //= -[_ <-].
have := group_stop1 chol lstsq A b (groups := groups) 0 a1 r0 l0 lt rt (ltn0Sn n) cov.
by case: group_lasso_body => -[s|s] c.
Qed.
Print Assumptions C106_one_iteration_refuted.
(** it may then be arbitrarily worse than the solution: one variable, one group *)
Theorem C106_arbitrarily_bad_refuted : forall chol lstsq p M, cholesky_ok chol -> lstsq_ok lstsq -> 0 <= M ->
  ls_alpha p = 1 -> ls_rho p = 1 -> 0 <= ls_lamda p -> ls_lamda p < ls_tol p -> 0 <= ls_rtol p ->
  (0 < ls_max_iter p)%N -> ls_return_history p = false ->
  exists (b : 'cV[R]_1) z y, group_lasso chol lstsq 1%:M b [:: [:: 0%N]] p = Some (z, Coefs z) /\
    group_problem 1%:M b (ls_lamda p) [:: [:: 0%N]] y + M <= group_problem 1%:M b (ls_lamda p) [:: [:: 0%N]] z.
Proof.
move=> chol lstsq p M hc hl M0 a1 r1 l0 lt rt m0 rh.
pose be : R := 8%:R * (ls_lamda p + M + 1).
have be0 : 0 <= be by rewrite mulr_ge0 ?ler0n // addr_ge0 ?ler01 // addr_ge0.
exists (const_mx be), (ls_z (le_state (group_lasso_loop chol lstsq (1%:M : 'M[R]_1) (const_mx be) grp1 p))), (const_mx be); split.
  by rewrite /group_lasso rh -/grp1 chk1.
exact: (bad_gap hc hl a1 r1 l0 lt rt m0 be0 M0 (lexx _)).
Qed.
Print Assumptions C106_arbitrarily_bad_refuted.
Example C106_case : exists (p : ls_params) (groups : seq (seq nat)), [/\ ls_alpha p = 1, 0 < ls_rho p, ls_lamda p < ls_tol p * ls_rho p,
  0 <= ls_rtol p & 0 < ls_lamda p] /\ forall i : 'I_2, (i : nat) \in flatten groups.
Proof.
exists (LSParams 1 1 1 10 2%:R 0 true), grp2; split; last exact: cov2.
by split=> //=; rewrite ?mulr1 ?ltr01 ?ltr1n.
Qed.

(** ** C107: what group_lasso accepts as groups *)
(** from 2 to 10^5 variables: exactly the groups that, one after the other, read 0, 1, ..., n-1 *)
Theorem C107_accepted : forall n groups, (2 <= n)%N -> (n%:R : R) <= 10%:R ^+ 5 ->
  (partition_check n groups <-> flatten groups = iota 0 n).
Proof. by move=> n groups h1 h2; rewrite partition_checkP //; split=> [/eqP|->]. Qed.
Print Assumptions C107_accepted.
(** hence not every partition ... *)
Theorem C107_partition_rejected_refuted : exists n groups, partition_of n groups /\
  forall m chol lstsq (A : 'M[R]_(m, n)) b p, group_lasso chol lstsq A b groups p = None.
Proof.
exists 2%N, [:: [:: 1%N]; [:: 0%N]]; split=> // m chol lstsq A b p.
rewrite /group_lasso partition_checkP //= -natrX ler_nat.
by rewrite (leq_trans (_ : (2 <= 10)%N)) // -[X in (X <= _)%N]expn1 leq_exp2l.
Qed.
Print Assumptions C107_partition_rejected_refuted.
(** ... and, with more variables or only one, not only partitions *)
Theorem C107_non_partition_accepted_refuted : forall K, 10%:R ^+ 5 <= (K.+1%:R : R) ->
  let groups := [:: rcons (iota 0 K.+1) K] in partition_check K.+2 groups /\ ~ partition_of K.+2 groups.
Proof.
by move=> K hK; split; [exact: chk_big | exact: not_part_big].
Qed.
Print Assumptions C107_non_partition_accepted_refuted.
Theorem C107_no_groups_accepted_refuted : partition_check 1 [::] /\ ~ partition_of 1 [::].
Proof. by split; [|move/perm_size]. Qed.
Print Assumptions C107_no_groups_accepted_refuted.
Example C107_case : exists K, 10%:R ^+ 5 <= (K.+1%:R : R).
Proof. by have [N [_ h]] := archi (10%:R ^+ 5) ltr01; exists N; apply: le_trans h _; rewrite mul1r ler_nat. Qed.

(** ** C108: group_lasso_overlap *)
(** the local copies of a variable never differ: the x-update does not use the consensus value *)
Theorem C108_copies_agree : forall m d (A : 'M[R]_(m, d)) b groups inv obj p k,
  let s := iter_state (ov_body A b groups inv obj p) 0 (ov_init d groups) k in
  exists X Y : nat -> R, ov_x s = [seq [seq X e | e <- g] | g <- groups] /\ ov_y s = [seq [seq Y e | e <- g] | g <- groups].
Proof.
move=> m d A b groups inv obj p k; apply: (@iter_inv _ _ _ (agree groups)); first exact: agree_init.
by move=> j s; exact: agree_step.
Qed.
Print Assumptions C108_copies_agree.
Theorem C108_stationary_is_l1 : forall m d (A : 'M[R]_(m, d)) b groups inv obj p, 0 < ov_rho p -> 0 <= ov_lamda p ->
  (A^T *m A + ov_rho p *: diag_mx (\row_i D_function groups i)) *m inv = 1%:M -> forall k j,
  let s := iter_state (ov_body A b groups inv obj p) 0 (ov_init d groups) k in
  let s' := out_state (ov_body A b groups inv obj p j s).1 in
  ov_x s' = ov_x s -> ov_y s' = ov_y s -> ov_z s' = ov_z s ->
  minimiser (@everywhere _) (group_l1_problem A b (ov_lamda p) groups) (ov_z s).
Proof.
move=> m d A b groups inv obj p r0 l0 hi k j s s'; apply: (ov_fixed r0 l0 hi); exact: C108_copies_agree.
Qed.
Print Assumptions C108_stationary_is_l1.
(** on the data of C105: the estimate is worse than (1/4, 1/4), for every budget and tolerance *)
Theorem C108_group_problem_refuted : forall obj p, ov_lamda p = 1 -> ov_rho p = 1 -> (3 <= ov_max_iter p)%N ->
  let inv := fun _ => (2%:R^-1)%:M in
  ((1%:M : 'M[R]_2)^T *m 1%:M + ov_rho p *: ov_D 2 grp2) *m inv (1%:M^T *m 1%:M + ov_rho p *: ov_D 2 grp2) = 1%:M /\
  exists z h k, group_lasso_overlap 1%:M ones2 grp2 inv obj p = Ok (z, h, k) /\
    group_problem 1%:M ones2 1 grp2 (const_mx 4%:R^-1) < group_problem 1%:M ones2 1 grp2 z.
Proof.
move=> obj p l1' r1 m3 inv; split; first exact: half2_inv.
have [_ m0 ei _] := py_for_count (ov_body 1%:M ones2 grp2 half2 obj p) (ov_max_iter p) (ov_init 2 grp2).
have [k k3 ez] := ov_run_z obj l1' r1 m3.
rewrite /group_lasso_overlap -/half2 {1 2}/ov_loop.
move: m0 ei => /(_ (leq_trans (isT : (0 < 3)%N) m3)); rewrite -/(ov_loop _ _ _ _ _ _).
case: (size _) => // i _ ->; eexists; eexists; eexists; split; first by [].
rewrite -/(ov_loop _ _ _ _ _ _) ez; apply: group_value_gap; first by rewrite invr_ge0 exprn_ge0 // ler0n.
rewrite -natrX lef_pinv ?posrE ?ltr0n ?expn_gt0 // ler_nat; exact: (leq_pexp2l (isT : (0 < 2)%N) k3).
Qed.
Print Assumptions C108_group_problem_refuted.

(** ** C109: when group_lasso_overlap stops: at the first twelve consecutive entries within tolerance *)
Theorem C109_stops : forall m d (A : 'M[R]_(m, d)) b groups inv obj p z h k,
  group_lasso_overlap A b groups inv obj p = Ok (z, h, k) ->
  [/\ size h = k.+1, (size h <= ov_max_iter p)%N,
      forall i, (i + 12 < size h)%N -> ~ passes12 h i &
      (size h < ov_max_iter p)%N -> (12 <= size h)%N /\ passes12 h (size h - 12)].
Proof.
move=> m d A b groups inv obj p z h k; rewrite /group_lasso_overlap; set M := inv _.
have t0 i : (i <= size ([::] : seq convergence))%N -> (trail (take i [::]) <= 11)%N by [].
have [r1 r2 r3] := @ov_run _ _ A b groups M obj p (ov_max_iter p) 0 (ov_init d groups) [::] None erefl isT t0.
have [c1 _ c3 c4] := py_for_count (ov_body A b groups M obj p) (ov_max_iter p) (ov_init d groups).
rewrite -/(ov_loop A b groups M obj p) in r1 r2 r3 c1 c3 c4 *; move: c3; case: (le_iter _) => // i ei.
move=> [_ <- <-]; move: ei c1 c4 r1 r2 r3; set H := le_checks _ => ei c1 c4 r1 r2 r3.
have sH : size H = i.+1 by move: ei; case: (size H) => // j [->].
split=> //.
  move=> j hj /passes12P => /(_ (ltnW hj)) h12; have := r1 _ hj; by rewrite leqNgt h12.
move=> hlt; case e: (le_else _) r2 r3 => r2 r3.
  by have [_] := r3 isT; rewrite add0n => eH; rewrite eH ltnn in hlt.
have t12 := r2 isT; have s12 : (12 <= size H)%N.
  by rewrite -t12; have := @trail_pass H (Convergence NaN 0 0 0 0) 11; rewrite t12 => /(_ isT) [_].
by split=> //; apply/passes12P; rewrite subnK // take_size t12.
Qed.
Print Assumptions C109_stops.
Theorem C109_no_iteration : forall m d (A : 'M[R]_(m, d)) b groups inv obj p, ov_max_iter p = 0%N ->
  group_lasso_overlap A b groups inv obj p = UnboundLocalError _.
Proof. by move=> m d A b groups inv obj p e; rewrite /group_lasso_overlap /ov_loop e. Qed.
Print Assumptions C109_no_iteration.
Theorem C109_always_returns : forall m d (A : 'M[R]_(m, d)) b groups inv obj p, ov_max_iter p != 0%N ->
  exists z h k, group_lasso_overlap A b groups inv obj p = Ok (z, h, k).
Proof.
move=> m d A b groups inv obj p; rewrite -lt0n => m0; rewrite /group_lasso_overlap; set M := inv _.
have [_ h1 h2 _] := py_for_count (ov_body A b groups M obj p) (ov_max_iter p) (ov_init d groups).
move: h2; rewrite -/(ov_loop A b groups M obj p) in h1 *; case: (size _) (h1 m0) => // k _ ->.
by eexists; eexists; eexists.
Qed.
Print Assumptions C109_always_returns.

(** ** C110: dropping the features that are in no group *)
Theorem C110_same_columns : forall C (data : nat -> C) groups c0 g i,
  (g < size groups)%N -> (i < size (nth [::] groups g))%N ->
  let: (data', groups') := remove_unused_features data groups in
  let j := nth 0%N (nth [::] groups' g) i in
  (j < size data')%N /\ nth c0 data' j = data (nth 0%N (nth [::] groups g) i).
Proof. by move=> C data groups c0 g i hg hi; exact: (remove_unused_ok data c0 hg hi). Qed.
Print Assumptions C110_same_columns.
Theorem C110_every_column_used : forall C (data : nat -> C) groups,
  let: (data', groups') := remove_unused_features data groups in
  forall j, (j < size data')%N -> exists g i,
    [/\ (g < size groups)%N, (i < size (nth [::] groups g))%N & nth 0%N (nth [::] groups' g) i = j].
Proof. by move=> C data groups; have := @remove_unused_used C data groups; case: remove_unused_features. Qed.
Print Assumptions C110_every_column_used.
Theorem C110_shape : forall C (data : nat -> C) groups,
  let: (data', groups') := remove_unused_features data groups in
  map size groups' = map size groups /\ size data' = size (undup (flatten groups)).
Proof.
move=> C data groups; rewrite /remove_unused_features; split; last by rewrite size_map /unused_idx size_sort.
by rewrite -map_comp; apply: eq_map => g /=; rewrite size_map.
Qed.
Print Assumptions C110_shape.
Example C110_case : remove_unused_features id [:: [:: 7; 2]; [:: 2; 4]]%N = ([:: 2; 4; 7]%N, [:: [:: 2; 0]; [:: 0; 1]]%N).
Proof. by rewrite /remove_unused_features /unused_idx; vm_compute. Qed.
