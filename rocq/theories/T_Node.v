(** Property C07, the node penalty (norm.py node_penalty, prox.py prox_node_penalty). *)
From Coq Require Import Reals.
From mathcomp Require Import all_ssreflect all_algebra.
From Verif Require Import RStruct RTac S_Mat NP M_Prox M_Loop M_TGL RMx P_Prox P_Prox2 P_Rules M_Node P_Node P_Node2 P_Utils2.
Import Order.TTheory GRing.Theory Num.Theory.

Set Implicit Arguments.
Unset Strict Implicit.
Unset Printing Implicit Defensive.
Local Open Scope ring_scope.

(** the row-column overlap norm of the documentation (Hallac et al.): the least sum of the column norms of V over all V with
    V + V^T = X. The problem the proximal operator must solve, as the time-varying solvers call it with
    lamda = beta / (2 rho): *)
Definition overlap_feasible n (z : 'M[R]_n * 'M[R]_n * 'M[R]_n) : Prop := z.1.1 + z.1.1^T = z.1.2 - z.2.
Definition overlap_problem n (A_1 A_2 : 'M[R]_n) (lamda : R) (z : 'M[R]_n * 'M[R]_n * 'M[R]_n) : R :=
  2%:R * lamda * (\sum_j sqrt (\sum_i z.1.1 i j ^+ 2)) + (fnorm2 (z.1.2 - A_1) + fnorm2 (z.2 - A_2)) / 2%:R.

(** The value that node_penalty asks scipy for is |sum X| / (2 sqrt n): the constraint is only on the sum of the entries. *)
Theorem C07_node_penalty_value n (X : 'M[R]_n.+1) :
  exists2 x0, minimiser (fun x => node_constraint X x = 0) (@node_function n.+1) x0
    & node_function x0 = `|\sum_i \sum_j X i j| / (2%:R * sqrt n.+1%:R).
Proof. exact: node_value. Qed.
Print Assumptions C07_node_penalty_value.

(** Expected: the overlap norm. Refuted: zero on a matrix whose overlap norm is at least 1. *)
Theorem C07_node_penalty_refuted : exists X : 'M[R]_2, X != 0 /\
  minimiser (fun x => node_constraint X x = 0) (@node_function 2) 0 /\ @node_function 2 0 = 0 /\
  forall V : 'M[R]_2, V + V^T = X -> 1 <= \sum_j sqrt (\sum_i V i j ^+ 2).
Proof.
pose X : 'M[R]_2 := \matrix_(i, j) if i == j then (if i == 0 then 1 else -1) else 0.
have f0 : @node_function 2 0 = 0.
  rewrite /node_function big1 // => j _; rewrite /col_norm big1 ?sqrt_0 // => i _; by rewrite mxE expr0n.
exists X; split; first by apply/eqP => /matrixP /(_ 0 0); rewrite !mxE /= => /eqP; rewrite oner_eq0.
split; [split|split=> //].
- by rewrite node_constraintE /total !sum2 !mxE /=; mclra.
- by move=> y _; rewrite f0; apply: sumr_ge0 => j _; exact: col_norm_ge0.
move=> V /matrixP e; have := e 0 0; have := e 1 1; rewrite !mxE /= => e1 e0; rewrite sum2.
have b (j : 'I_2) (x : R) : 0 <= x -> `|V j j| = x -> x <= col_norm V j.
  move=> x0 vx; rewrite -(@ler_pexpn2r _ 2) ?nnegrE ?col_norm_ge0 // col_norm_sqr -vx real_normK ?num_real //.
  by rewrite (bigD1 j) //= ler_addl sumr_ge0 // => i _; exact: sqr_ge0.
have h0 : 2%:R^-1 <= col_norm V 0.
  by apply: b; [rewrite invr_ge0 ler0n | rewrite (_ : V 0 0 = 2%:R^-1) ?ger0_norm ?invr_ge0 ?ler0n //; mclra].
have h1 : 2%:R^-1 <= col_norm V 1.
  by apply: b; [rewrite invr_ge0 ler0n | rewrite (_ : V 1 1 = - 2%:R^-1) ?normrN ?ger0_norm ?invr_ge0 ?ler0n //; mclra].
have num (x y : R) : 2%:R^-1 <= x -> 2%:R^-1 <= y -> 1 <= x + y by move=> hx hy; mclra.
exact: num.
Qed.
Print Assumptions C07_node_penalty_refuted.

(** The states that prox_node_penalty leaves unchanged, exactly: for the overlap problem the conditions would be
    V = shrinkage of V - U_1 / 2 and U_1 = U_2^T (up to the weights). *)
Theorem C07_node_stationary n (A_1 A_2 : 'M[R]_n) lamda (V W Y_1 Y_2 U_1 U_2 : 'M[R]_n) :
  node_step A_1 A_2 lamda (NodeSlice V W Y_1 Y_2 U_1 U_2) = Some (NodeSlice V W Y_1 Y_2 U_1 U_2) <->
  [/\ bsts (2%:R^-1 *: (V + V^T) - (3%:R / 4%:R) *: U_1) lamda = Some V, W = V^T, Y_1 - Y_2 = V + V^T,
      U_1 = 2%:R *: U_2^T & Y_1 = A_1 + 2%:R^-1 *: U_1 /\ Y_2 = A_2 - 2%:R^-1 *: U_1].
Proof. exact: node_stationary. Qed.
Print Assumptions C07_node_stationary.

(** Expected: what the iteration converges to solves the overlap problem, or at least the problem of node_penalty. Refuted: a
    state left unchanged by the iteration, for every lamda > 0, that solves neither (for no weight c). *)
Theorem C07_node_prox_refuted lamda : 0 < lamda -> exists (A_1 A_2 : 'M[R]_2) s,
  [/\ node_step A_1 A_2 lamda s = Some s,
      overlap_feasible (nd_V s, nd_Y1 s, nd_Y2 s),
      ~ minimiser (@overlap_feasible 2) (overlap_problem A_1 A_2 lamda) (nd_V s, nd_Y1 s, nd_Y2 s)
    & forall c, ~ minimiser (@everywhere _) (fun Y : 'M[R]_2 * 'M[R]_2 =>
        c * (`|\sum_i \sum_j (Y.1 - Y.2) i j| / (2%:R * sqrt 2%:R)) + (fnorm2 (Y.1 - A_1) + fnorm2 (Y.2 - A_2)) / 2%:R)
        (nd_Y1 s, nd_Y2 s)].
Proof.
move=> l0; exists (nodeA lamda 2), (- nodeA lamda 2), (node_fix lamda 2).
have cs (a : R) : \sum_j sqrt (\sum_i (a%:M : 'M[R]_2) i j ^+ 2) = 2%:R * `|a|.
  by rewrite (eq_bigr (fun=> `|a|)) => [|j _]; [rewrite sumr_const card_ord mulr_natl | exact: (col_scalar a j)].
split; first exact: node_fix_step.
- by rewrite /overlap_feasible /= tr_scalar_mx opprK.
- case=> _ /(_ ((2%:R / 3%:R * lamda)%:M, (2%:R / 3%:R * lamda)%:M, - (2%:R / 3%:R * lamda)%:M)).
  rewrite /overlap_feasible /= tr_scalar_mx opprK => /(_ erefl).
  rewrite /overlap_problem /= !cs !ger0_norm ?(ltW l0) // ?(mulr_ge0 _ (ltW l0)) ?divr_ge0 ?ler0n // /fnorm2 !sum2 !mxE /=.
  have num (x : R) : 0 < x -> 0 < x * x by move=> x0; rewrite mulr_gt0.
  by have := num _ l0; rewrite ?mulr1n ?mulr0n; move=> l1 h; mcnra.
move=> c [_ h].
have {h} := h (lamda%:M + (lamda / 3%:R) *: (\matrix_(i, j) if i == 0 then (if j == 0 then 1 else -1) else 0), - lamda%:M) I.
rewrite /fnorm2 !sum2 !mxE /= ?mulr1n ?mulr0n.
set a := `|_|; set b := `|_| => h.
have eab : b = a by rewrite /a /b; congr `|_|; mclra.
move: h; rewrite eab; move: (c * _) => d h.
have num (x : R) : 0 < x -> 0 < x * x by move=> x0; rewrite mulr_gt0.
by have := num _ l0 => l1; mcnra.
Qed.
Print Assumptions C07_node_prox_refuted.

(** with max_iter = 0 the operator returns the constant 1 / n, whatever it is given *)
Theorem C07_node_zero_iterations n T (A_1 A_2 : stack n T) lamda rho tol rtol :
  prox_node_penalty A_1 A_2 lamda rho tol rtol 0 = Some ([ffun=> const_mx (1 / n%:R)], [ffun=> const_mx (1 / n%:R)], true).
Proof. by []. Qed.
Print Assumptions C07_node_zero_iterations.
(** after one iteration or more the two matrices of each time have the sum of the two that were given *)
Theorem C07_node_sum n T (A_1 A_2 : stack n T) lamda rho tol rtol max_iter Y_1 Y_2 w : (0 < max_iter)%N ->
  prox_node_penalty A_1 A_2 lamda rho tol rtol max_iter = Some (Y_1, Y_2, w) ->
  forall t, Y_1 t + Y_2 t = A_1 t + A_2 t.
Proof. by move=> m0; apply: node_loop_sum; left. Qed.
Print Assumptions C07_node_sum.

(** without a warning, the matrices returned are those of an iteration whose V and W meet both tests: V + W = Y_1 - Y_2 and
    V = W^T up to the primal tolerance, and V, W moved by less than the dual one *)
Theorem C07_node_stop n T (A_1 A_2 : stack n T) lamda rho tol rtol max_iter Y_1 Y_2 :
  prox_node_penalty A_1 A_2 lamda rho tol rtol max_iter = Some (Y_1, Y_2, false) ->
  exists (old new : 'I_T -> node_slice n) (rho' : R),
  [/\ forall t, node_step (A_1 t) (A_2 t) lamda (old t) = Some (new t),
      forall t, Y_1 t = nd_Y1 (new t) /\ Y_2 t = nd_Y2 (new t),
      let V t := nd_V (new t) in let W t := nd_W (new t) in
      sqrt (\sum_t fnorm2 (V t + W t - (Y_1 t - Y_2 t)) + \sum_t fnorm2 (V t - (W t)^T)) <=
        sqrt ((2 * (T * (n * n)))%:R) * tol + rtol * Num.max (sqrt (\sum_t fnorm2 (W t) + \sum_t fnorm2 (V t + W t)))
                                                        (sqrt (\sum_t fnorm2 (V t) + \sum_t fnorm2 (Y_1 t - Y_2 t)))
    & rho' * sqrt (\sum_t fnorm2 (nd_W (new t) - nd_W (old t)) +
                   \sum_t fnorm2 (nd_V (new t) + nd_W (new t) - nd_V (old t) - nd_W (old t))) <=
        sqrt ((2 * (T * (n * n)))%:R) * tol +
        rtol * rho' * sqrt (\sum_t fnorm2 (nd_U1 (new t)) + \sum_t fnorm2 (nd_U2 (new t)))].
Proof.
move/node_loop_stop => [old [new [E /andP[h1 h2] e1 e2]]].
have sq (f : 'I_T -> 'M[R]_n) : sum_over (fun t => squared_norm (f t)) = \sum_t fnorm2 (f t).
  by rewrite /sum_over; apply: eq_bigr => t _; rewrite squared_normE.
exists (ns_slices old), new, (ns_rho old); split.
- move: E; rewrite /node_all; case: forallP => // h [<-] t; have := h t.
  by case: (node_step _ _ _ _).
- by [].
- cbv zeta; move: h1; rewrite /node_check /= !sq.
  have -> (t : 'I_T -> 'M[R]_n) : \sum_i fnorm2 (t i - (Y_1 i - Y_2 i)) = \sum_i fnorm2 (t i - (nd_Y1 (new i) - nd_Y2 (new i))).
    by apply: eq_bigr => i _; rewrite e1 e2.
  have -> : \sum_i fnorm2 (Y_1 i - Y_2 i) = \sum_i fnorm2 (nd_Y1 (new i) - nd_Y2 (new i)).
    by apply: eq_bigr => i _; rewrite e1 e2.
  by [].
- by move: h2; rewrite /node_check /= !sq.
Qed.
Print Assumptions C07_node_stop.
Example C07_node_case : (0 : R) < 1 /\ bsts (2%:R%:M : 'M[R]_3) 1 = Some (2%:R - 1)%:M.
Proof. by split; [exact: ltr01 | apply: bsts_scalar; mclra]. Qed.
(** the operator does stop without a warning, at the first iteration when the tolerance is large enough *)
Example C07_node_stop_case n T (A_1 A_2 : stack n.+1 T.+1) lamda rho : 0 <= rho ->
  exists tol Y_1 Y_2, prox_node_penalty A_1 A_2 lamda rho tol 0 1 = Some (Y_1, Y_2, false).
Proof.
move=> r0; have st t : isSome (node_step (A_1 t) (A_2 t) lamda (node_start n.+1)).
  rewrite /node_step /bsts; set a := _ *: _; case: existsP => [[j] /eqP aj|//].
  have ea : a = const_mx (- (1 / n.+1%:R)).
    apply/matrixP => i k; rewrite !mxE; have num (x : R) : 2%:R^-1 * (x - x - 0 - x + (0 - x)) = - x by mclra.
    exact: num.
  move: aj; rewrite ea col_norm_const => /eqP; rewrite mulf_eq0 normrN normr_eq0 mulf_eq0 oner_eq0 invr_eq0 pnatr_eq0 !orbF => /eqP s0.
  by have := sqrt_gt0 (x := n.+1%:R); rewrite s0 ltxx ltr0n => /(_ isT).
case E: (node_all A_1 A_2 lamda (fun=> node_start n.+1)) => [new|]; last first.
  by move: E; rewrite /node_all; case: forallP => // h; case: h => t; exact: st.
pose N := (2 * (T.+1 * (n.+1 * n.+1)))%N; pose c := node_check rho 0 0 (fun=> node_start n.+1) new.
have sN : 0 < sqrt (N%:R : R) by apply: sqrt_gt0; rewrite ltr0n.
have rn : 0 <= c_rnorm c by rewrite /c /node_check /= sqrt_ge0.
have sn : 0 <= c_snorm c by rewrite /c /node_check /= mulr_ge0 ?sqrt_ge0.
exists ((c_rnorm c + c_snorm c) / sqrt N%:R), [ffun t => nd_Y1 (new t)], [ffun t => nd_Y2 (new t)].
rewrite /prox_node_penalty /= E ifT // /stop_test /node_check /= !mul0r !addr0 -/N mulrC divfK ?gt_eqF //.
by apply/andP; split; [rewrite ler_addl | rewrite ler_addr].
Qed.
