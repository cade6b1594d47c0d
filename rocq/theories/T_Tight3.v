(** Further theorems for C153, C159, C160 and C163, added after wrong programs had passed the first ones. *)
From Coq Require Import Reals.
From mathcomp Require Import all_ssreflect all_algebra.
From Verif Require Import RStruct RTac LinTac NP S_Mat RMx M_Utils M_Tools M_Glopridu M_ClusterRep P_GLM2.
Import Order.TTheory GRing.Theory Num.Theory.

Set Implicit Arguments.
Unset Strict Implicit.
Unset Printing Implicit Defensive.
Local Open Scope ring_scope.

(** * C159: the Newton matrix is the Hessian of the dual function *)
(** specification: the dual function of the proximity operator of the group lasso with overlap *)
Definition dual_value d B (blocks : 'I_B -> {set 'I_d}) (weights : 'I_B -> R) (w0 : 'I_d -> R) (lamda : 'I_B -> R) : R :=
  \sum_j w0 j ^+ 2 / (1 + \sum_(g | j \in blocks g) lamda g) + \sum_g weights g * lamda g.
Definition moved B (lamda : 'I_B -> R) (k : 'I_B) (t : R) (g : 'I_B) : R := if g == k then lamda g + t else lamda g.

Lemma d_inv (c a s : R) : a <> 0 -> derivable_pt_lim (fun t => c * (1 / (a + t * s))) 0 (- (c * s * (1 / a) ^+ 2)).
Proof.
move=> a0.
have h := derivable_pt_lim_div (fct_cte c) (fun t => a + t * s) 0 0 s (derivable_pt_lim_const c 0) (d_affine a s 0).
have e : a + 0 * s = a by rewrite mul0r addr0.
rewrite e in h; have {}h := h a0.
apply: (d_val _ (d_ext _ h)) => [|t].
  by clear h; rewrite /fct_cte /Rsqr; toR; field.
by rewrite /div_fct /fct_cte; toR; rewrite Rmult_1_l.
Qed.
Lemma d_inv2 (c a s : R) : a <> 0 -> derivable_pt_lim (fun t => (c * (1 / (a + t * s))) ^+ 2) 0 (- (s * (2%:R * c ^+ 2 * (1 / a) ^+ 3))).
Proof.
move=> a0; have h := d_inv c s a0.
apply: (d_val _ (d_ext _ (derivable_pt_lim_mult _ _ _ _ _ h h))) => [|t]; last by rewrite expr2.
rewrite mul0r addr0; have num (x y z : R) : - (x * y * z ^+ 2) * (x * z) + (x * z) * (- (x * y * z ^+ 2)) = - (y * (2%:R * x ^+ 2 * z ^+ 3)).
  by rewrite [z ^+ 3]exprS; mcring.
by rewrite -num.
Qed.

Lemma sum_moved d B (blocks : 'I_B -> {set 'I_d}) (lamda : 'I_B -> R) k t j :
  1 + \sum_(g | j \in blocks g) moved lamda k t g = (1 + \sum_(g | j \in blocks g) lamda g) + t * (j \in blocks k)%:R.
Proof.
rewrite -addrA; congr (_ + _); rewrite /moved.
have e g : (if g == k then lamda g + t else lamda g) = lamda g + (if g == k then t else 0) by case: ifP => // _; rewrite addr0.
rewrite (eq_bigr _ (fun g _ => e g)) big_split /=; congr (_ + _).
rewrite -big_mkcondr /=; case h: (j \in blocks k).
  by rewrite mulr1 (big_pred1 k) // => g; rewrite /= andbC; case: eqP => [->|]; rewrite ?h.
by rewrite mulr0 big_pred0 // => g; rewrite andbC; case: eqP => [->|]; rewrite ?h.
Qed.

(** C159: for nonnegative dual variables, the gradient the solver uses is the gradient of the dual function, the matrix that it (pseudo-)inverts for the
    inactive blocks is the Hessian of the dual function, and the active blocks are divided by the diagonal of the Hessian *)
Theorem C159_newton_matrix d B (blocks : 'I_B -> {set 'I_d}) (weights : 'I_B -> R) (w0 : 'I_d -> R) (epsilon : R) (lamda : 'I_B -> R) :
  (forall g, 0 <= lamda g) ->
  (forall k, derivable_pt_lim (fun t => dual_value blocks weights w0 (moved lamda k t)) 0 (dual_grad blocks weights w0 lamda k)) /\
  (forall g k : 'I_#|inactive blocks weights w0 epsilon lamda|,
    derivable_pt_lim (fun t => dual_grad blocks weights w0 (moved lamda (enum_val k) t) (enum_val g)) 0 (b_inactive blocks weights w0 epsilon lamda g k)) /\
  (forall g, exists h, derivable_pt_lim (fun t => dual_grad blocks weights w0 (moved lamda g t) g) 0 h /\
    p_active blocks weights w0 lamda g = dual_grad blocks weights w0 lamda g / h).
Proof.
move=> l0.
have a0 j : 1 + \sum_(g | j \in blocks g) lamda g <> 0.
  apply/eqP; rewrite gt_eqF // ltr_paddr ?ltr01 //; exact: sumr_ge0.
have hess g k : derivable_pt_lim (fun t => dual_grad blocks weights w0 (moved lamda k t) g) 0 (\sum_(j in blocks g :&: blocks k) dual_tmp blocks w0 lamda j).
  rewrite /dual_grad.
  apply: (d_val (l := 0 - \sum_(j in blocks g) - ((j \in blocks k)%:R * dual_tmp blocks w0 lamda j))).
    rewrite sub0r sumrN opprK; rewrite [RHS](eq_bigl (fun j => (j \in blocks g) && (j \in blocks k))); last by move=> j; rewrite in_setI.
    by rewrite [RHS]big_mkcondr; apply: eq_bigr => j _; case: ifP => _; rewrite ?mul1r ?mul0r.
  apply: d_sub; first exact: derivable_pt_lim_const.
  apply: d_sum => j _; apply: (d_ext _ (d_inv2 (w0 j) (j \in blocks k)%:R (@a0 j))) => t.
  by rewrite /block_sum sum_moved.
split.
  move=> k; rewrite /dual_value /dual_grad.
  apply: (d_val (l := \sum_j - (w0 j ^+ 2 * (j \in blocks k)%:R * (1 / (1 + block_sum blocks lamda j)) ^+ 2) + \sum_g weights g * (g == k)%:R)).
    rewrite addrC; congr (_ + _).
      by rewrite (bigD1 k) //= eqxx mulr1 big1 ?addr0 // => g /negbTE ->; rewrite mulr0.
    rewrite sumrN; congr (- _); rewrite [RHS]big_mkcond /=; apply: eq_bigr => j _.
    by case: ifP => _; rewrite ?mulr1 ?mulr0 ?mul0r ?exprMn.
  apply: d_add; last first.
    apply: d_sum => g _; apply: d_scal; rewrite /moved; case: eqP => _; last exact: derivable_pt_lim_const.
    by apply: (d_ext _ (d_affine (lamda g) 1 0)) => t; rewrite mulr1.
  apply: d_sum => j _.
  apply: (d_ext _ (d_inv (w0 j ^+ 2) (j \in blocks k)%:R (@a0 j))) => t.
  by rewrite sum_moved div1r.
split; first by move=> g k; rewrite mxE.
by move=> g; exists (\sum_(j in blocks g) dual_tmp blocks w0 lamda j); split=> //; have := hess g g; rewrite setIid.
Qed.
Print Assumptions C159_newton_matrix.
Example C159_newton_matrix_case : (forall g : 'I_2, 0 <= (fun=> 1 : R) g) /\
  derivable_pt_lim (fun t => dual_value (fun g : 'I_2 => [set (ord0 : 'I_1)]) (fun=> 1) (fun=> 3%:R) (moved (fun=> 1) ord0 t)) 0 0.
Proof.
split=> [_|]; first exact: ler01.
have [h _] := @C159_newton_matrix 1 2 (fun=> [set ord0]) (fun=> 1) (fun=> 3%:R) 0 (fun=> 1) (fun=> ler01).
apply: (d_val _ (h ord0)); rewrite /dual_grad big_set1 /block_sum.
rewrite (eq_bigl xpredT); last by move=> g; rewrite inE.
rewrite sumr_const card_ord; have -> : 1 + 1 *+ 2 = 3%:R :> R by rewrite -(natrD _ 1 2).
by rewrite mulrA mulr1 divff ?pnatr_eq0 // expr1n subrr.
Qed.

(** * C160: the outer loop stops before max_iter_ext only after a second iteration *)
Theorem C160_two_iterations n d prox norm2 (X : 'M[R]_(n, d)) Y n_blocks mu tol_ext max_iter_ext r l k :
  glopridu prox norm2 X Y n_blocks mu tol_ext max_iter_ext = Val (r, l, k) -> (minn 2 max_iter_ext <= k <= max_iter_ext)%N.
Proof.
rewrite /glopridu.
have gen todo it b h t Xb Xh lam sg ms : glopridu_loop prox X Y sg ms tol_ext todo it b h t Xb Xh lam = Val (r, l, k) ->
    (minn 2 (it + todo) <= k <= it + todo)%N; last exact: (gen max_iter_ext 0%N).
elim: todo it b h t Xb Xh lam => [|todo IH] it b h t Xb Xh lam /=; first by move=> [_ _ <-]; rewrite addn0 leqnn geq_minr.
case: (prox _ _ _) => [[p l']|] //; case: ifP => [/andP[_ i1]|_].
  by move=> [_ _ <-]; rewrite -addSnnS leq_addr andbT geq_min i1.
by move=> /IH; rewrite addSnnS.
Qed.
Print Assumptions C160_two_iterations.
(** a proximity operator that returns zero: two iterations even if more are allowed *)
Example C160_two_iterations_case m : glopridu (fun _ _ l => Val (0 : 'cV[R]_2, l)) (fun=> 1) (1%:M : 'M[R]_2) 0 1 0 1 m.+2 = Val (0, [:: 0], 2%N).
Proof.
rewrite /glopridu /= !mulmx0 subrr !mulr1.
by rewrite lexx.
Qed.

(** * C163: pinvh reads the lower triangle *)
Theorem C163_lower_triangle n (A B : 'M[R]_n) :
  (sym B /\ forall i j : 'I_n, (j <= i)%N -> B i j = A i j) <-> B = lower_sym A.
Proof.
split=> [[s h]|->].
  apply/matrixP => i j; rewrite mxE; case: leqP => ij; first exact: h.
  by rewrite -h ?(ltnW ij) //; have := congr1 (fun C : 'M[R]_n => C j i) s; rewrite mxE.
split; last by move=> i j ij; rewrite mxE ij.
apply/matrixP => i j; rewrite !mxE; case: (ltngtP i j) => // ij; by rewrite (val_inj ij).
Qed.
Print Assumptions C163_lower_triangle.
Example C163_lower_triangle_case : exists A : 'M[R]_2, lower_sym A <> A /\ lower_sym A ord_max 0 = A ord_max 0.
Proof.
exists (\matrix_(i, j) (i < j)%N%:R); split; last by rewrite !mxE.
by move=> /matrixP /(_ 0 ord_max) /eqP; rewrite !mxE /= eq_sym oner_eq0.
Qed.

(** * C153: one matrix against many *)
Theorem C153_rank_one n (rank : 'M[R]_n -> nat) (A : 'M[R]_n) (Bs : seq 'M[R]_n) : Bs <> [::] ->
  let m := (\sum_(b <- Bs) `|(rank A)%:R - (rank b)%:R|) / (size Bs)%:R in
  error_rank rank [:: A] Bs = Val (Fin m) /\ error_rank rank Bs [:: A] = Val (Fin m).
Proof.
move=> ne m.
have xm T (f : T -> R) (l : seq T) : l <> [::] -> xmean [seq Fin (f x) | x <- l] = Fin ((\sum_(x <- l) f x) / (size l)%:R).
  move=> l0; rewrite /xmean; have -> : foldr xadd (Fin 0) [seq Fin (f x) | x <- l] = Fin (\sum_(x <- l) f x).
    by elim: (l) => [|x l' /= ->]; rewrite ?big_nil ?big_cons.
  by rewrite size_map /xdiv pnatr_eq0; case: (l) l0.
have e1 : broadcast [:: rank A] [seq rank b | b <- Bs] = Some [seq (rank A, rank b) | b <- Bs].
  by rewrite /broadcast; case: (Bs) => [|x [|y l]] //=; rewrite -map_comp.
have e2 : broadcast [seq rank b | b <- Bs] [:: rank A] = Some [seq (rank b, rank A) | b <- Bs].
  by rewrite /broadcast; case: (Bs) => [|x [|y l]] //=; rewrite -map_comp.
rewrite /error_rank /= e1 e2 -!map_comp /comp /=; split; rewrite xm //; congr (Val (Fin (_ / _))).
by apply: eq_bigr => b _; rewrite distrC.
Qed.
Print Assumptions C153_rank_one.
Example C153_rank_one_case : error_rank (fun A : 'M[R]_1 => if A == 0 then 0%N else 1%N) [:: 0] [:: 0; 1%:M] = Val (Fin (1 / 2%:R)).
Proof.
have [-> _] := @C153_rank_one 1 (fun A : 'M[R]_1 => if A == 0 then 0%N else 1%N) 0 [:: 0; 1%:M] (fun e => ltac:(discriminate e)).
have o : (1%:M : 'M[R]_1) == 0 = false by apply/negbTE; rewrite -scalemx1 scale1r oner_eq0.
by rewrite !big_cons big_nil !eqxx o subrr normr0 add0r addr0 sub0r normrN normr1.
Qed.
