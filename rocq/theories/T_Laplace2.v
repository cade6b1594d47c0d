(** C182: the second versions of the derivatives of the Laplace approximation; C183: objective_similarity. *)
From Coq Require Import Reals.
From mathcomp Require Import all_ssreflect all_algebra.
From Verif Require Import RStruct RTac LinTac S_Mat S_Fit NP M_Utils M_GL M_Fit M_GWishart M_Laplace2.
From Verif Require Import RMx P_Prox P_LGL P_Fit P_GWishart T_GWishart.
Import Order.TTheory GRing.Theory Num.Theory.

Set Implicit Arguments.
Unset Strict Implicit.
Unset Printing Implicit Defensive.
Local Open Scope ring_scope.

Section First.
Variables (p : nat).
Implicit Types (M D K L : 'M[R]_p.+1).
Lemma tr_ones M i j : \tr (M *m ones i j) = if i == j then M i i else M i j + M j i.
Proof.
have e : ones i j = if i == j then delta_mx i i else delta_mx i j + delta_mx j i.
  apply/matrixP => a b; rewrite mxE; case: (eqVneq i j) => [<-|ij]; first by rewrite mxE orbb.
  rewrite !mxE -natrD; congr _%:R; case: (eqVneq a i) => [->|_]; case: (eqVneq b j) => [->|_] //=; rewrite ?orbF ?addn0 ?(negbTE ij) ?andbF //=.
have td a b : \tr (M *m delta_mx a b) = M b a.
  rewrite mxtrace_mulC /mxtrace (bigD1 a) //= big1 ?addr0 => [|c /negbTE ca].
    by rewrite mxE (bigD1 b) //= mxE !eqxx mul1r big1 ?addr0 // => c /negbTE cb; rewrite mxE cb andbF mul0r.
  by rewrite mxE big1 // => d _; rewrite mxE ca mul0r.
by rewrite e; case: eqP => _; rewrite ?mulmxDr ?mxtraceD !td // addrC.
Qed.
Lemma v2E pinvh D K delta i j : pinvh_ok pinvh -> sym D -> pd K ->
  first_derivative_h_version2 pinvh D K delta i j = (if i == j then 1 else 2%:R) * first_derivative_h pinvh D K delta i j.
Proof.
move=> hv hD hK; rewrite !mxE tr_ones.
have s : pinvh K = invmx K by apply: hv; [exact: pd_sym | exact: pd_unit].
have sD : D j i = D i j by rewrite -{1}hD mxE.
have sK : (invmx K) j i = (invmx K) i j by rewrite -{1}(sym_inv (pd_sym hK)) mxE.
have num (a b c : R) : - (a - c * b) / 2%:R = 1 * (- (1 / 2%:R) * (a - c * b)) by mcfield.
have num2 (a b c : R) : - (a - c * b + (a - c * b)) / 2%:R = 2%:R * (- (1 / 2%:R) * (a - c * b)) by mcfield.
by case: eqP => [<-|_]; rewrite !mxE s ?sD ?sK; [exact: num | exact: num2].
Qed.
End First.
(** first_derivative_h_version2 is the derivative with respect to the entries on and above the diagonal: the log density of every positive
    definite L is below the tangent at K. Off the diagonal it is twice first_derivative_h. *)
Theorem C182_first p (pinvh : 'M[R]_p.+1 -> 'M[R]_p.+1) (D K L : 'M[R]_p.+1) (delta : R) :
  pinvh_ok pinvh -> sym D -> pd K -> pd L -> 2%:R <= delta ->
  gw_logdensity D delta L <= gw_logdensity D delta K + \sum_(i < p.+1) \sum_(j < p.+1 | (i <= j)%N)
    first_derivative_h_version2 pinvh D K delta i j * (L i j - K i j).
Proof.
move=> hv hD hK hL hd; set G := first_derivative_h_version2 _ _ _ _; apply: le_trans (C96_first_derivative hv hD hK hL hd) _; rewrite ler_add2l.
set F := first_derivative_h pinvh D K delta; set X := L - K.
have sX i j : X i j = X j i by rewrite /X -{1}(pd_sym hL) -{1}(pd_sym hK) !mxE.
have sF i j : F i j = F j i.
  have s : pinvh K = invmx K by apply: hv; [exact: pd_sym | exact: pd_unit].
  by rewrite /F !mxE s -{1}hD -{1}(sym_inv (pd_sym hK)) !mxE.
suff -> : fdot F X = \sum_(i < p.+1) \sum_(j < p.+1 | (i <= j)%N) G i j * (L i j - K i j) by [].
rewrite /fdot; have e (i : 'I_p.+1) : \sum_j F i j * X i j = \sum_(j < p.+1 | (i <= j)%N) F i j * X i j + \sum_(j < p.+1 | (j < i)%N) F i j * X i j.
  by rewrite (bigID (fun j : 'I_p.+1 => (i <= j)%N)) /=; congr (_ + _); apply: eq_bigl => j; rewrite -ltnNge.
rewrite (eq_bigr _ (fun i _ => e i)) big_split /= [X in _ + X](exchange_big_dep xpredT) //= -big_split; apply: eq_bigr => i _ /=.
rewrite [X in _ + X](eq_bigl (fun j : 'I_p.+1 => (i <= j)%N && (i != j))); last by move=> j; rewrite ltn_neqAle andbC.
rewrite big_mkcondr -big_split; apply: eq_bigr => j _ /=.
rewrite /G v2E // -/F.
have -> : L i j - K i j = X i j by rewrite /X !mxE.
by rewrite [F j i]sF [X j i]sX; case: eqP => _ /=; [rewrite addr0 mul1r | rewrite -mulrA mulr_natl mulr2n].
Qed.
Print Assumptions C182_first.

(** what np.argsort returns *)
Definition argsorts (argsort : seq nat -> seq nat) : Prop := forall keys, sorts keys (argsort keys).

Section Second.
Variables (p : nat) (K : 'M[R]_p.+1).
Definition all_pairs := [seq (i, j) | i <- enum 'I_p.+1, j <- enum 'I_p.+1].
Lemma all_pairs_uniq : uniq all_pairs.
Proof. by apply: allpairs_uniq => [||[a b] [c d] _ _] //; exact: enum_uniq. Qed.
Lemma mem_all_pairs ij : ij \in all_pairs.
Proof. by case: ij => i j; rewrite (allpairs_f (fun i j : 'I_p.+1 => (i, j))) ?mem_enum. Qed.
Lemma nz_mem ij : (ij \in nonzero_triu K) = (ij.1 <= ij.2)%N && (K ij.1 ij.2 != 0).
Proof. by rewrite mem_filter mem_all_pairs andbT. Qed.
Lemma nz_uniq : uniq (nonzero_triu K).
Proof. by rewrite filter_uniq // all_pairs_uniq. Qed.
Lemma nz_size : size (nonzero_triu K) = (num_edges K + #|[pred i | K i i != 0%R]|)%N.
Proof.
have e : #|[pred i | K i i != 0%R]| = count (fun ij : 'I_p.+1 * 'I_p.+1 => (ij.1 == ij.2) && (K ij.1 ij.2 != 0%R)) all_pairs.
  rewrite -size_filter cardE -(size_map (fun i : 'I_p.+1 => (i, i))); apply: perm_size; apply: uniq_perm.
  - by rewrite map_inj_uniq ?enum_uniq // => a b [].
  - by rewrite filter_uniq // all_pairs_uniq.
  move=> [a b]; rewrite mem_filter mem_all_pairs andbT /=; apply/mapP/andP => [[c]|[/eqP <- h]].
    by rewrite mem_enum inE => h [-> ->].
  by exists a; rewrite ?mem_enum.
rewrite e /num_edges !size_filter -/all_pairs -count_predUI -[LHS]addn0; congr (_ + _)%N.
  apply: eq_count => -[a b] /=; rewrite leq_eqVlt val_eqE; by case: (a == b); case: (a < b)%N; case: (K a b != 0%R).
by rewrite -(count_pred0 all_pairs); apply: eq_count => -[a b] /=; case: (eqVneq a b) => [->|_]; rewrite ?ltnn ?andbF.
Qed.
Lemma dof_size argsort : argsorts argsort -> let V := [seq nth (ord0, ord0) (nonzero_triu K) k | k <- argsort [seq val (ij : 'I_p.+1 * 'I_p.+1).2 | ij <- nonzero_triu K]] in
  [/\ perm_eq V (nonzero_triu K) & sorted leq [seq val (ij : 'I_p.+1 * 'I_p.+1).2 | ij <- V]].
Proof.
move=> hs; have [h1 h2] := hs [seq val (ij : 'I_p.+1 * 'I_p.+1).2 | ij <- nonzero_triu K]; move: h1 h2; set idx := argsort _ => h1 h2 V.
rewrite size_map in h1.
have lt k : k \in idx -> (k < size (nonzero_triu K))%N by rewrite (perm_mem h1) mem_iota add0n.
split.
  rewrite /V -{2}[nonzero_triu K](mkseq_nth (ord0, ord0)); exact: perm_map.
have -> : [seq val (ij : 'I_p.+1 * 'I_p.+1).2 | ij <- V] = [seq nth 0%N [seq val (ij : 'I_p.+1 * 'I_p.+1).2 | ij <- nonzero_triu K] k | k <- idx]; last exact: h2.
by rewrite /V -map_comp; apply/eq_in_map => k kk /=; rewrite (nth_map (ord0, ord0)) ?lt.
Qed.
Lemma block_tmp2 (Kinv : 'M[R]_p.+1) dof (V : 'I_dof -> 'I_p.+1 * 'I_p.+1) e f :
  block_sum Kinv (V e).1 (V e).2 (V f).1 (V f).2 = laplace_tmp2 Kinv V e f.
Proof. by rewrite /block_sum /laplace_tmp2 !big_ord_recl !big_ord0 !mxE /= !addr0. Qed.
End Second.

(** second_derivative_h_version2, for a positive definite K: one row for each entry of K that is not 0 on and above the diagonal, by columns,
    and the entries are those of the Hessian of the log density, doubled once for each diagonal parameter. *)
Theorem C182_second p (pinvh : 'M[R]_p.+1 -> 'M[R]_p.+1) argsort (D K : 'M[R]_p.+1) (delta : R) : pinvh_ok pinvh -> argsorts argsort -> pd K ->
  exists V H, second_derivative_h_version2 pinvh argsort D K delta = Val (existT _ V H) /\
  [/\ uniq V, forall i j, ((i, j) \in V) = (i <= j)%N && (K i j != 0),
      sorted leq [seq val (ij : 'I_p.+1 * 'I_p.+1).2 | ij <- V] &
      forall e f, let c e : R := if (tnth (in_tuple V) e).1 == (tnth (in_tuple V) e).2 then 2%:R else 1 in
        H e f = c e * c f * hessian K delta (tnth (in_tuple V)) e f].
Proof.
move=> hv hs hK; have [pm so] := dof_size K hs; move: pm so.
rewrite /second_derivative_h_version2; set V := [seq nth _ _ k | k <- _] => pm so.
have sz : (size V < num_edges K + p.+1)%N = false.
  rewrite (perm_size pm) nz_size ltn_add2l; apply/negbTE; rewrite -leqNgt -[X in (X <= _)%N]card_ord subset_leq_card //.
  by apply/subsetP => i _; rewrite inE gt_eqF // pd_diag_gt0.
rewrite sz; do 2 eexists; split; first reflexivity; split=> //.
- by rewrite (perm_uniq pm) nz_uniq.
- by move=> i j; rewrite (perm_mem pm) nz_mem.
move=> e f; rewrite -C96_hessian_doubled !mxE.
have -> : pinvh K = invmx K by apply: hv; [exact: pd_sym | exact: pd_unit].
have nE (x : 'I_(size V)) : nth (ord0, ord0) V x = tnth (in_tuple V) x by rewrite (tnth_nth (ord0, ord0)).
have num (a b : R) : - a * b / 2%:R = - b * a / 2%:R by mcfield.
by rewrite !nE !block_tmp2; case: ifP => _; exact: num.
Qed.
Print Assumptions C182_second.

(** Refuted for a symmetric matrix with a 0 on the diagonal: there are fewer entries than parameters and it raises IndexError. *)
Theorem C182_zero_diagonal_refuted p (pinvh : 'M[R]_p.+1 -> 'M[R]_p.+1) argsort (D K : 'M[R]_p.+1) (delta : R) i : argsorts argsort -> K i i = 0 ->
  second_derivative_h_version2 pinvh argsort D K delta = Raise IndexError.
Proof.
move=> hs k0; have [pm _] := dof_size K hs; move: pm; rewrite /second_derivative_h_version2; set V := [seq nth _ _ k | k <- _] => pm.
suff -> : (size V < num_edges K + p.+1)%N by [].
rewrite (perm_size pm) nz_size ltn_add2l -[X in (_ < X)%N]card_ord; apply: proper_card; apply/properP; split; first exact/subsetP.
by exists i; rewrite // inE k0 eqxx.
Qed.
Print Assumptions C182_zero_diagonal_refuted.
Example C182_case : pd (1%:M : 'M[R]_2) /\ exists argsort, argsorts argsort.
Proof.
split; first exact: pd1.
exists (fun keys => sort (fun a b => (nth 0%N keys a <= nth 0%N keys b)%N) (iota 0 (size keys))) => keys; split; first by rewrite perm_sort.
rewrite sorted_map; apply: sort_sorted => a b; exact: leq_total.
Qed.

Section Sim.
Implicit Types (T s t : nat).
Lemma mem_strict T s t : ((s, t) \in strict_triu T) = (s < t < T)%N.
Proof.
apply/flatten_mapP/andP => [[i]|[st tT]].
  by rewrite mem_iota => /andP [_ iT] /mapP [j]; rewrite mem_iota => /andP [ij jT] [-> ->]; split=> //; move: jT; rewrite subnKC.
exists s; first by rewrite mem_iota /= add0n (ltn_trans st).
by apply/mapP; exists t => //; rewrite mem_iota st subnKC // (ltn_trans st).
Qed.
Lemma index_strict T s t : (s < t)%N -> (t < T)%N -> index (s, t) (strict_triu T) = (\sum_(i < s) (T - i.+1) + (t - s.+1))%N.
Proof.
move=> st tT; rewrite /strict_triu.
have -> : iota 0 T = iota 0 s ++ s :: iota s.+1 (T - s.+1).
  have sT := ltn_trans st tT; rewrite -{1}(subnKC sT) -addn1 -addnA iotaD add0n; congr (_ ++ _).
  by rewrite iotaD addn1.
rewrite map_cat flatten_cat index_cat ifN; last first.
  apply/flatten_mapP => -[i]; rewrite mem_iota => /andP [_ iT] /mapP [j _ [e _]]; by move: iT; rewrite e add0n ltnn.
congr (_ + _)%N.
  rewrite size_flatten /shape -map_comp sumnE big_map -{1}[s]subn0 -/(index_iota 0 s) big_mkord; apply: eq_bigr => i _ /=.
  by rewrite size_map size_iota.
rewrite /= index_cat ifT; last by apply/mapP; exists t => //; rewrite mem_iota st subnKC // (ltn_trans st).
rewrite index_map; last by move=> a b [].
have -> : t = nth 0%N (iota s.+1 (T - s.+1)) (t - s.+1) by rewrite nth_iota ?ltn_sub2r // ?subnKC // (leq_ltn_trans _ tT).
rewrite index_uniq ?iota_uniq // ?size_iota.
  by rewrite nth_iota ?subnKC // ltn_sub2r // (leq_ltn_trans _ tT).
by rewrite ltn_sub2r // (leq_ltn_trans _ tT).
Qed.
Lemma size_strict T : size (strict_triu T) = 'C(T, 2).
Proof.
rewrite /strict_triu size_flatten /shape -map_comp sumnE big_map -{1}[T]subn0 -/(index_iota 0 T) big_mkord.
by rewrite (reindex_inj rev_ord_inj) -triangular_sum big_mkord; apply: eq_bigr => i _ /=; rewrite size_map size_iota subnSK // subKn // ltnW.
Qed.
Lemma lag_pairs T (f : nat -> nat -> R) :
  \sum_(1 <= m < T) \sum_(0 <= i < T - m) f i (i + m)%N = \sum_(0 <= s < T) \sum_(s.+1 <= t < T) f s t.
Proof.
elim: T => [|T IH]; first by rewrite !big_geq.
case: (posnP T) => [->|T0]; first by rewrite big_geq // big_nat1 big_geq.
rewrite [RHS]big_nat_recr //= [X in _ = _ + X]big_geq // addr0.
rewrite [X in _ = X](eq_big_nat _ _ (F2 := fun s => \sum_(s.+1 <= t < T) f s t + f s T)); last first.
  by move=> s /andP [_ sT]; rewrite big_nat_recr.
rewrite big_split /= -IH big_nat_recr //= subSnn big_nat1 add0n.
rewrite (eq_big_nat _ _ (F2 := fun m => \sum_(0 <= i < T - m) f i (i + m)%N + f (T - m)%N T)); last first.
  move=> m /andP [m0 mT]; rewrite subSn ?(ltnW mT) // big_nat_recr //= subnK // ltnW //.
rewrite big_split /= -addrA; congr (_ + _).
rewrite [RHS]big_ltn // addrC; congr (_ + _).
rewrite [RHS]big_nat_rev /=; apply: eq_big_nat => m /andP [m0 mT]; by rewrite add1n subSS.
Qed.
Lemma pick_nat (a b k : nat) (x : R) : \sum_(a <= i < b) (if i == k then x else 0) = if (a <= k < b)%N then x else 0.
Proof.
rewrite -big_mkcond /=; case: ifP => h; last by rewrite big1_seq // => i /andP [/eqP ->]; rewrite mem_index_iota h.
by rewrite -big_filter filter_pred1_uniq ?iota_uniq ?mem_index_iota // big_seq1.
Qed.
End Sim.
(** objective_similarity is the sum over all pairs of times of the entry of theta for the pair, in row order, times psi of the difference:
    for one entry for each pair of times. Another number of entries raises ValueError, except one entry, used for all pairs. *)
Theorem C183_formula n (theta : seq R) T (K : nat -> 'M[R]_n) psi :
  (size theta = 'C(T, 2) -> objective_similarity theta T K psi =
     Val (\sum_(0 <= s < T) \sum_(s.+1 <= t < T) nth 0 theta (\sum_(i < s) (T - i.+1) + (t - s.+1)) * psi (K t - K s))) /\
  (size theta = 1%N -> objective_similarity theta T K psi = Val (nth 0 theta 0 * \sum_(0 <= s < T) \sum_(s.+1 <= t < T) psi (K t - K s))) /\
  (size theta <> 'C(T, 2) -> size theta <> 1%N -> objective_similarity theta T K psi = Raise ValueError).
Proof.
pose th k := if size theta == 1%N then nth 0 theta 0 else nth 0 theta k.
pose kernel i j : R := if (i, j) \in strict_triu T then th (index (i, j) (strict_triu T))
  else if (j, i) \in strict_triu T then th (index (j, i) (strict_triu T)) else (i == j)%:R.
have -> : objective_similarity theta T K psi = if (size theta != 'C(T, 2)) && (size theta != 1%N) then Raise ValueError
  else Val (\sum_(1 <= m < T) \sum_(0 <= i < T - m) psi (K (i + m)%N - K i) * kernel i (i + m)%N) by rewrite /objective_similarity size_strict.
have kE s t : (s < t)%N -> (t < T)%N -> kernel s t = if size theta == 1%N then nth 0 theta 0 else nth 0 theta (\sum_(i < s) (T - i.+1) + (t - s.+1)).
  by move=> st tT; rewrite /kernel mem_strict st tT /= index_strict.
have sumE (w : nat -> nat -> R) : (forall s t, (s < t)%N -> (t < T)%N -> kernel s t = w s t) ->
  \sum_(1 <= m < T) \sum_(0 <= i < T - m) psi (K (i + m)%N - K i) * kernel i (i + m)%N =
  \sum_(0 <= s < T) \sum_(s.+1 <= t < T) w s t * psi (K t - K s).
  move=> h; rewrite (lag_pairs T (fun s t => psi (K t - K s) * kernel s t)); apply: eq_bigr => s _; apply: eq_big_nat => t /andP [st tT].
  by rewrite h // mulrC.
split=> [e|]; last split=> [e|/eqP /negbTE -> /eqP /negbTE -> //].
  rewrite e eqxx /=; congr Val; apply: sumE => s t st tT; rewrite kE //; case: eqP => // e1; congr nth.
  by have := index_mem (s, t) (strict_triu T); rewrite mem_strict st tT size_strict -e e1 index_strict // ltnS leqn0 => /eqP.
rewrite e eqxx andbF; congr Val; rewrite (sumE (fun _ _ => nth 0 theta 0)); last by move=> s t st tT; rewrite kE // e.
by rewrite mulr_sumr; apply: eq_bigr => s _; rewrite mulr_sumr.
Qed.
Print Assumptions C183_formula.
(** It is linear in theta, so it has no minimum: for times with different matrices it takes every value below any bound, and with
    theta >= 0 the minimum is at theta = 0, whatever the matrices. *)
Theorem C183_no_minimum_refuted n T (K : nat -> 'M[R]_n) psi s t (B : R) : (s < t)%N -> (t < T)%N -> 0 < psi (K t - K s) ->
  exists theta v, [/\ size theta = 'C(T, 2), objective_similarity theta T K psi = Val v & v < B].
Proof.
move=> st tT p0.
set k := (\sum_(i < s) (T - i.+1) + (t - s.+1))%N.
pose c := - (`|B| + 1) / psi (K t - K s).
pose theta := [seq (if i == k then c else 0) | i <- iota 0 'C(T, 2)].
have sz : size theta = 'C(T, 2) by rewrite size_map size_iota.
have kl : (k < 'C(T, 2))%N by rewrite -size_strict /k -index_strict // index_mem mem_strict st.
exists theta, (- (`|B| + 1)); split=> //; last by rewrite ltr_oppl; apply: le_lt_trans (ler_norm _) _; rewrite normrN ltr_addl ltr01.
rewrite (proj1 (C183_formula _ _ _ _)) //; congr Val.
have th a b : (a < b)%N -> (b < T)%N -> nth 0 theta (\sum_(i < a) (T - i.+1) + (b - a.+1)) = if (a == s) && (b == t) then c else 0.
  move=> ab bT; rewrite -index_strict //.
  have lt : (index (a, b) (strict_triu T) < 'C(T, 2))%N by rewrite -size_strict index_mem mem_strict ab.
  rewrite (nth_map 0%N) ?size_iota // nth_iota // add0n /k -index_strict //; congr (if _ then _ else _).
  apply/eqP/andP => [h|[/eqP -> /eqP -> //]].
  have : (a, b) = (s, t).
    by rewrite -(nth_index (0%N, 0%N) (_ : (a, b) \in strict_triu T)) ?mem_strict ?ab // h nth_index // mem_strict st.
  by case=> -> ->.
rewrite (eq_big_nat _ _ (F2 := fun a => if a == s then - (`|B| + 1) else 0)).
  by rewrite pick_nat /= (ltn_trans st).
move=> a /andP [_ aT]; rewrite (eq_big_nat _ _ (F2 := fun b => if b == t then (if a == s then c * psi (K t - K s) else 0) else 0)); last first.
  by move=> b /andP [ab bT]; rewrite th //; case: eqP => [->|_] /=; case: eqP => [->|_]; rewrite ?mul0r.
rewrite pick_nat; case: (eqVneq a s) => [->|_]; first by rewrite st tT /c divfK // gt_eqF.
by case: ifP.
Qed.
Print Assumptions C183_no_minimum_refuted.
Example C183_case : exists (K : nat -> 'M[R]_1) psi, 0 < psi (K 1%N - K 0%N) /\
  objective_similarity [:: 2%:R; 3%:R; 5%:R] 3 K psi = Val (2%:R * 1 + 3%:R * 2%:R + 5%:R * 1).
Proof.
exists (fun t => (t%:R : R)%:M), (fun M : 'M[R]_1 => M 0 0); split; first by rewrite !mxE /= subr0 mulr1n ltr01.
rewrite (proj1 (C183_formula _ _ _ _)) //; congr Val.
rewrite /index_iota /= !big_cons !big_nil !big_ord_recl !big_ord0 !mxE /= !mulr1n; mclra.
Qed.
