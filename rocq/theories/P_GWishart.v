(** Proofs about graph enumeration, covariance selection and the Laplace approximation. *)
From Coq Require Import Reals.
From mathcomp Require Import all_ssreflect all_algebra.
From Verif Require Import RStruct RTac LinTac S_Mat S_Fit NP M_Utils M_GL M_GWishart.
From Verif Require Import RMx P_Prox P_LGL.
Import Order.TTheory GRing.Theory Num.Theory.

Set Implicit Arguments.
Unset Strict Implicit.
Unset Printing Implicit Defensive.

(** ** bits *)
Lemma size_bits w x : size (bits w x) = w.
Proof. by elim: w x => //= w IH x; rewrite size_rcons IH. Qed.
Lemma half_lt w x : (x < 2 ^ w.+1 -> x./2 < 2 ^ w)%N.
Proof. by rewrite expnS mul2n -{1}(odd_double_half x) => h; rewrite -ltn_double; apply: leq_ltn_trans h; rewrite leq_addl. Qed.
Lemma bits_inj w x y : (x < 2 ^ w -> y < 2 ^ w -> bits w x = bits w y -> x = y)%N.
Proof.
elim: w x y => [|w IH] x y hx hy; first by move: hx hy; rewrite expn0 !ltnS !leqn0 => /eqP -> /eqP ->.
move=> /rcons_inj [e1 e2]; rewrite -(odd_double_half x) -(odd_double_half y) e2; congr (_ + _.*2)%N.
by apply: IH => //; exact: half_lt.
Qed.
Lemma bits_surj w s : size s = w -> exists2 x, (x < 2 ^ w)%N & bits w x = s.
Proof.
elim: w s => [|w IH] s; first by move=> /size0nil ->; exists 0%N.
case/lastP: s => [//|s b]; rewrite size_rcons => -[/IH [x hx e]].
exists (b + x.*2)%N; last by rewrite /= half_bit_double e oddD odd_double addbF oddb.
rewrite expnS mul2n; apply: (@leq_trans (x.*2.+2)); first by case: b.
by rewrite -doubleS leq_double.
Qed.

(** ** graphs *)
Section Graphs.
Variables (n : nat).
Definition simple_graph (G : 'M[bool]_n) : Prop := (forall i, G i i = false) /\ (forall i j, G i j = G j i).
Definition edges_of (G : 'M[bool]_n) : seq bool := [seq G ij.1 ij.2 | ij <- triu_positions n].

Lemma triu_mem i j : ((i, j) \in triu_positions n) = (i < j)%N.
Proof. by rewrite mem_filter /= (allpairs_f (fun i j : 'I_n => (i, j))) ?mem_enum ?andbT. Qed.
Lemma triu_uniq : uniq (triu_positions n).
Proof. by apply: filter_uniq; apply: allpairs_uniq => [||[a b] [c d] _ _] //; exact: enum_uniq. Qed.
Lemma triu_size : size (triu_positions n) = 'C(n, 2).
Proof.
rewrite -triangular_sum big_mkord size_filter -sum1_count big_mkcond big_allpairs_dep /= big_enum /=.
under eq_bigr => i _ do rewrite big_enum /=.
rewrite exchange_big /=; apply: eq_bigr => j _; rewrite -big_mkcond /=.
have hj : (j <= n)%N by exact: ltnW.
by rewrite (big_ord_narrow hj) /= sum1_card card_ord.
Qed.
Lemma graph_simple row : simple_graph (graph_of n row).
Proof. by split=> [i|i j]; rewrite !mxE ?ltnn // orbC. Qed.
Lemma graph_upper row (i j : 'I_n) : (i < j)%N -> graph_of n row i j = nth false row (index (i, j) (triu_positions n)).
Proof. by move=> h; rewrite !mxE h ltnNge ltnW //= orbF. Qed.
Lemma edges_graph row : size row = 'C(n, 2) -> edges_of (graph_of n row) = row.
Proof.
move=> hs; apply: (@eq_from_nth _ false); first by rewrite size_map triu_size.
rewrite size_map => k hk; have [x0 _] : exists x0, x0 \in triu_positions n.
  by case: (triu_positions n) hk => // x0 s _; exists x0; rewrite inE eqxx.
rewrite (nth_map x0) //; have := mem_nth x0 hk; case E: (nth x0 _ k) => [i j]; rewrite triu_mem /= => hij.
by rewrite graph_upper // -E index_uniq ?triu_uniq.
Qed.
Lemma graph_edges G : simple_graph G -> graph_of n (edges_of G) = G.
Proof.
move=> [h0 hs]; have up (i j : 'I_n) : (i < j)%N -> graph_of n (edges_of G) i j = G i j.
  move=> hij; rewrite graph_upper // (nth_map (i, j)) ?nth_index ?triu_mem //.
  by rewrite index_mem triu_mem.
apply/matrixP => i j; case: (ltngtP i j) => [/up //|h|/val_inj ->]; last by rewrite h0 (graph_simple _).1.
by rewrite (graph_simple _).2 up // hs.
Qed.

Definition argsort_ok (keys : seq nat) (ord : seq nat) : Prop :=
  perm_eq ord (iota 0 (size keys)) /\ sorted leq [seq nth 0%N keys k | k <- ord].

Lemma row_ok x : (x < 2 ^ 'C(n, 2))%N ->
  edges_of (graph_of n (bits (maxn 1 'C(n, 2)) x)) = bits 'C(n, 2) x /\
  count id (bits (maxn 1 'C(n, 2)) x) = count id (bits 'C(n, 2) x).
Proof.
case E: 'C(n, 2) => [|k] hx.
  have x0 : x = 0%N by move: hx; rewrite expn0; case: x.
  by rewrite x0 /=; split=> //; apply: size0nil; rewrite size_map triu_size E.
by rewrite maxnE subn1 add1n /=; split=> //; rewrite edges_graph // size_rcons size_bits E.
Qed.

Lemma ugs_spec ord : argsort_ok (ug_sums n) ord ->
  let Gs := mk_all_ugs n ord in
  [/\ size Gs = (2 ^ 'C(n, 2))%N, uniq Gs, forall G, G \in Gs <-> simple_graph G &
      sorted leq [seq count id (edges_of G) | G <- Gs]].
Proof.
case; rewrite {1}/ug_sums size_map size_iota => hp hs.
have hm k : (k \in ord) = (k < 2 ^ 'C(n, 2))%N by rewrite (perm_mem hp) mem_iota.
have hg k : k \in ord -> nth [::] [seq bits (maxn 1 'C(n, 2)) x | x <- iota 0 (2 ^ 'C(n, 2))] k = bits (maxn 1 'C(n, 2)) k.
  by rewrite hm => hk; rewrite (nth_map 0%N) ?size_iota // nth_iota.
have e : mk_all_ugs n ord = [seq graph_of n (bits (maxn 1 'C(n, 2)) k) | k <- ord].
  by apply/eq_in_map => k hk; rewrite hg.
rewrite /= e; split.
- by rewrite size_map (perm_size hp) size_iota.
- rewrite map_inj_in_uniq ?(perm_uniq hp) ?iota_uniq // => x y; rewrite !hm => hx hy /(congr1 edges_of).
  rewrite (row_ok hx).1 (row_ok hy).1; exact: bits_inj.
- move=> G; split=> [/mapP [k _ ->]|hG]; first exact: graph_simple.
  have [x hx ex] : exists2 x, (x < 2 ^ 'C(n, 2))%N & bits 'C(n, 2) x = edges_of G.
    by apply: bits_surj; rewrite size_map triu_size.
  apply/mapP; exists x; first by rewrite hm.
  by rewrite -(graph_edges hG) -ex -(row_ok hx).1 graph_edges //; exact: graph_simple.
- rewrite -map_comp; congr (is_true (sorted leq _)): hs; apply/eq_in_map => k hk /=.
  move: (hk); rewrite hm => hk'; rewrite /ug_sums (nth_map 0%N) ?size_iota // nth_iota // add0n.
  by have [-> ->] := row_ok hk'.
Qed.
End Graphs.

Local Open Scope ring_scope.
(** ** covariance selection *)
Section Covsel.
Variables (p : nat).
Implicit Types (N : 'M[bool]_p) (x C : 'M[R]_p).
Definition upper_mask N : Prop := forall i j : 'I_p, N i j -> (i <= j)%N.

Lemma fillE N x i j : fill N x i j = (if N i j then x i j else 0) + (if (j < i)%N && N j i then x j i else 0).
Proof. by rewrite !mxE; case: ltnP. Qed.
Lemma fill_sym N x : upper_mask N -> sym (fill N x).
Proof.
move=> h; apply/matrixP => i j; rewrite mxE !fillE.
case: (ltngtP i j) => [hij|hij|/val_inj ->]; last by [].
- by rewrite /= addr0; case E: (N j i); rewrite ?add0r //; move: (h _ _ E); rewrite leqNgt hij.
- by rewrite /= addr0; case E: (N i j); rewrite ?add0r //; move: (h _ _ E); rewrite leqNgt hij.
Qed.
Lemma fill_zero N x i j : ~~ N i j -> ~~ N j i -> fill N x i j = 0.
Proof. by move=> /negbTE h1 /negbTE h2; rewrite fillE h1 h2 andbF addr0. Qed.
Lemma fillB N x y : fill N x - fill N y = fill N (x - y).
Proof.
apply/matrixP => i j; rewrite mxE [X in _ + X]mxE !fillE opprD addrACA !mxE.
by congr (_ + _); case: ifP => _; rewrite ?subr0.
Qed.
Lemma fill_fdot N (M x : 'M[R]_p) : fdot M (fill N x) = \sum_i \sum_j (if N i j then (M + (trilm1 M)^T) i j * x i j else 0).
Proof.
rewrite /fdot; transitivity (\sum_i \sum_j (M i j * (if N i j then x i j else 0)) + \sum_i \sum_j (M i j * (if (j < i)%N && N j i then x j i else 0))).
  rewrite -big_split; apply: eq_bigr => i _; rewrite -big_split; apply: eq_bigr => j _ /=.
  by rewrite fillE mulrDr.
rewrite [X in _ + X]exchange_big -big_split; apply: eq_bigr => i _; rewrite -big_split; apply: eq_bigr => j _ /=.
rewrite !mxE; case: (N i j); rewrite ?andbF ?andbT ?mulr0 ?addr0 // mulrDl; congr (_ + _).
by case: ifP => _; rewrite ?mulr0 ?mul0r.
Qed.
Lemma covselE pinvh N C x : pinvh_ok pinvh -> pd (fill N x) ->
  covsel pinvh N C x = (Fin (fdot C (fill N x) - logdet (fill N x)),
    \matrix_(i, j) if N i j then (C - invmx (fill N x) + (trilm1 (C - invmx (fill N x)))^T) i j else 0).
Proof.
move=> hp h; rewrite /covsel /fast_logdet pd_det_gt0 //= hp ?pd_unit //; last exact: pd_sym.
by congr (Fin _, _); rewrite addrC.
Qed.
Lemma covsel_convex pinvh N C x y : pinvh_ok pinvh -> pd (fill N x) -> pd (fill N y) ->
  exists fx fy : R, [/\ (covsel pinvh N C x).1 = Fin fx, (covsel pinvh N C y).1 = Fin fy &
    fx + fdot (covsel pinvh N C x).2 (y - x) <= fy].
Proof.
move=> hp hx hy; rewrite !covselE // [_.1]/= [_.2]/=; do 2 eexists; split; [reflexivity | reflexivity |].
have := logdet_tangent hx hy; rewrite tr_fdot; last by apply: sym_inv; exact: pd_sym.
set M := C - invmx _ => ht.
have -> : fdot (\matrix_(i, j) (if N i j then (M + (trilm1 M)^T) i j else 0)) (y - x) = fdot M (fill N y - fill N x).
  rewrite fillB fill_fdot; apply: eq_bigr => i _; apply: eq_bigr => j _.
  by rewrite mxE; case: ifP => _; rewrite ?mul0r.
move: ht; rewrite /M fdotBl !fdotBr.
move: (fdot C (fill N x) : R) => a; move: (fdot C (fill N y) : R) => b.
move: (logdet (fill N x) : R) => c; move: (logdet (fill N y) : R) => d.
move: (fdot (invmx (fill N x)) (fill N y) : R) => e; move: (fdot (invmx (fill N x)) (fill N x) : R) => f h.
mclra.
Qed.
End Covsel.

Lemma fill_scalar p (N : 'M[bool]_p) (c : R) : (forall i, N i i) -> fill N c%:M = c%:M.
Proof.
move=> hN; apply/matrixP => i j; rewrite fillE !mxE [j == i]eq_sym.
case: (eqVneq i j) => [->|hij]; first by rewrite hN ltnn /= addr0.
by rewrite !mulr0n; case: ifP; case: ifP; rewrite addr0.
Qed.
Lemma covsel_unbounded p (pinvh : 'M[R]_p -> 'M[R]_p) (N : 'M[bool]_p) (C : 'M[R]_p) (B : R) :
  ~~ odd p -> (forall i, N i i) -> 0 < \tr C ->
  exists (t v : R), [/\ 0 < t, (covsel pinvh N C (- t)%:M).1 = Fin v & v < B].
Proof.
move=> hp hN hC; pose t : R := 1 + `|B| / \tr C.
have t1 : 1 <= t by rewrite ler_addl divr_ge0 ?normr_ge0 // ltW.
have t0 : 0 < t by apply: lt_le_trans t1; rewrite ltr01.
have tp : 1 <= t ^+ p by exact: exprn_ege1.
have hd : \det ((- t)%:M : 'M[R]_p) = t ^+ p by rewrite det_scalar exprNn -signr_odd (negbTE hp) expr0 mul1r.
exists t, (- ln (t ^+ p) + np_sum_mul C (- t)%:M); split=> //.
  by rewrite /covsel /fast_logdet fill_scalar // hd (lt_le_trans _ tp) ?ltr01.
have l0 : (0 : R) <= ln (t ^+ p).
  move: tp; rewrite le_eqVlt => /orP [/eqP <-|tp]; first by rewrite ln_1.
  by apply/RleP; left; rewrite -[X in Rlt X _]ln_1; apply: ln_increasing; [exact: Rlt_0_1 | exact/RltP].
have -> : np_sum_mul C (- t)%:M = - (t * \tr C).
  rewrite -[np_sum_mul _ _]/(fdot C (- t)%:M) fdotE -scalemx1 -scalemxAr mulmx1 mxtraceZ mxtrace_tr.
  by rewrite mulNr.
have -> : t * \tr C = \tr C + `|B| by rewrite /t mulrDl mul1r divfK ?gt_eqF.
have hB : - `|B| <= B by rewrite ler_oppl -normrN; exact: ler_norm.
move: (ln _ : R) l0 => z z0; move: (\tr C : R) hC => c c0; move: (`|B| : R) hB => w hB; mclra.
Qed.

(** ** Laplace approximation *)
Section Laplace.
Variables (p : nat) (K : 'M[R]_p) (dn : R) (dof : nat) (V : 'I_dof -> 'I_p * 'I_p).
Definition edge_mx (e : 'I_dof) : 'M[R]_p := delta_mx (V e).1 (V e).2 + delta_mx (V e).2 (V e).1.
Lemma diag_lap e : laplace_diag K dn V e = laplace_H K dn V e e.
Proof.
rewrite /laplace_diag [laplace_H _ _ _ _ _]mxE leqnn /laplace_tmp2; set i := (V e).1; set j := (V e).2; set M1 := laplace_M1 _ _ _.
have M1E a b : M1 a b = if b == j then K a i else if b == i then K a j else 0 by rewrite mxE.
rewrite !M1E !eqxx; case: (eqVneq i j) => [->|hij] //.
Qed.
Lemma tmp2_tr e f : laplace_tmp2 K V e f = \tr (K *m edge_mx e *m K *m edge_mx f).
Proof.
rewrite /laplace_tmp2 /edge_mx; case: (V e) => i j; case: (V f) => l m /=.
have tr1 (A : 'M[R]_p) a b : \tr (A *m delta_mx a b) = A b a.
  rewrite /mxtrace (bigD1 b) //= big1 ?addr0; last first.
    by move=> k hk; rewrite mxE big1 // => q _; rewrite mxE (negbTE hk) andbF mulr0.
  rewrite mxE (bigD1 a) //= big1 ?addr0; first by rewrite mxE !eqxx mulr1.
  by move=> q hq; rewrite mxE (negbTE hq) mulr0.
have e1 (a b c d : 'I_p) : (K *m delta_mx a b *m K) c d = K c a * K b d.
  rewrite mxE (bigD1 b) //= big1 ?addr0; last first.
    move=> k hk; rewrite mxE big1 ?mul0r // => q _; rewrite mxE (negbTE hk) andbF mulr0 //.
  rewrite mxE (bigD1 a) //= big1 ?addr0; first by rewrite mxE !eqxx mulr1.
  by move=> q hq; rewrite mxE (negbTE hq) mulr0.
have T (a b c d : 'I_p) : \tr (K *m delta_mx a b *m K *m delta_mx c d) = K d a * K b c by rewrite tr1 e1.
rewrite [K *m (_ + _)]mulmxDr [(_ + _) *m K]mulmxDl mulmxDr !mulmxDl !mxtraceD !T.
rewrite addrC; congr (_ + _); rewrite addrC //.
Qed.
Lemma lapHE e f : laplace_H K dn V e f = - ((dn - 2%:R) / 2%:R) * \tr (K *m edge_mx e *m K *m edge_mx f).
Proof.
rewrite [laplace_H _ _ _ _ _]mxE !tmp2_tr.
have -> : \tr (K *m edge_mx f *m K *m edge_mx e) = \tr (K *m edge_mx e *m K *m edge_mx f).
  by rewrite -mulmxA mxtrace_mulC mulmxA.
by rewrite if_same mulrAC -mulNr.
Qed.
Lemma lapH_sym : sym (laplace_H K dn V).
Proof.
apply/matrixP=> e f; rewrite mxE !lapHE; congr (_ * _).
by rewrite -mulmxA mxtrace_mulC mulmxA.
Qed.
Definition dir_mx (v : 'cV[R]_dof) : 'M[R]_p := \sum_e v e 0 *: edge_mx e.
Lemma lapH_quad v : quad (laplace_H K dn V) v = - ((dn - 2%:R) / 2%:R) * \tr (K *m dir_mx v *m K *m dir_mx v).
Proof.
rewrite /quad mxE (eq_bigr (fun f => \sum_e v e 0 * laplace_H K dn V e f * v f 0)); last first.
  by move=> f _; rewrite mxE mulr_suml; apply: eq_bigr => e _; rewrite [v^T _ _]mxE.
rewrite {2}/dir_mx mulmx_sumr raddf_sum mulr_sumr /=; apply: eq_bigr => f _.
rewrite -scalemxAr mxtraceZ {1}/dir_mx mulmx_sumr !mulmx_suml raddf_sum !mulr_sumr /=; apply: eq_bigr => e _.
rewrite lapHE -scalemxAr -!scalemxAl mxtraceZ.
by rewrite mulrC; rewrite !mulrA; congr (_ * _); rewrite -!mulrA [in RHS]mulrCA; congr (_ * _); rewrite mulrC.
Qed.
Lemma edge_sym e : sym (edge_mx e). Proof. by rewrite /edge_mx /sym [(_ + _)^T]linearD /= !trmx_delta addrC. Qed.
Lemma dir_sym v : sym (dir_mx v).
Proof. by rewrite /dir_mx /sym raddf_sum /=; apply: eq_bigr => e _; rewrite [(_ *: _)^T]linearZ /= edge_sym. Qed.
Lemma dir_entry v e : injective V -> (forall f, ((V f).1 <= (V f).2)%N) ->
  dir_mx v (V e).1 (V e).2 = v e 0 * (if (V e).1 == (V e).2 then 2%:R else 1).
Proof.
move=> inj ord; rewrite /dir_mx summxE (bigD1 e) //= big1 ?addr0.
  rewrite !mxE !eqxx [(V e).2 == (V e).1]eq_sym /= andbb; case: ((V e).1 == (V e).2) => /=; last by rewrite addr0.
  by congr (_ * _); rewrite -natrD.
move=> f hf; rewrite !mxE.
have h1 : ((V e).1 == (V f).1) && ((V e).2 == (V f).2) = false.
  apply/negbTE/negP=> /andP [/eqP a /eqP b]; move/eqP: hf; apply; apply: inj.
  by rewrite (surjective_pairing (V f)) (surjective_pairing (V e)) a b.
have h2 : ((V e).1 == (V f).2) && ((V e).2 == (V f).1) = false.
  apply/negbTE/negP=> /andP [/eqP a /eqP b]; move: (ord e) (ord f); rewrite a b => o1 o2.
  have q : (V f).1 = (V f).2 by apply/val_inj/eqP; rewrite eqn_leq o1 o2.
  by move: h1; rewrite a b q !eqxx.
by rewrite h1 h2 addr0 mulr0.
Qed.
Lemma lapH_nd : pd K -> 2%:R < dn -> injective V -> (forall f, ((V f).1 <= (V f).2)%N) -> pd (- laplace_H K dn V).
Proof.
move=> hK hd inj ord; split; first by rewrite /sym [(- _)^T]linearN /= lapH_sym.
move=> v v0; have -> : quad (- laplace_H K dn V) v = - quad (laplace_H K dn V) v.
  by rewrite /quad mulmxN mulNmx mxE.
have [S [hS hSS]] := pd_sqrt hK; have Ss : S^T = S by case: hS.
rewrite lapH_quad mulNr opprK; set M := dir_mx v.
have -> : \tr (K *m M *m K *m M) = fdot (S *m M *m S) (S *m M *m S).
  rewrite fdotE !trmx_mul Ss dir_sym -hSS -!mulmxA [in LHS]mxtrace_mulC -!mulmxA //.
apply: mulr_gt0; first by apply: divr_gt0; rewrite ?subr_gt0 ?ltr0n.
rewrite lt_def fdotAA_ge0 andbT; apply/eqP=> /fdotAA_eq0 h0; move/eqP: v0; apply.
have uS : S \in unitmx by exact: pd_unit.
have M0 : M = 0.
  have <- : invmx S *m (S *m M *m S) *m invmx S = M by rewrite !mulmxA mulVmx // mul1mx mulmxK.
  by rewrite h0 mulmx0 mul0mx.
apply/matrixP=> e k; rewrite (ord1 k) [RHS]mxE; have := dir_entry v e inj ord; rewrite -/M M0 mxE => /esym/eqP.
rewrite mulf_eq0 => /orP [/eqP // | /eqP]; case: ifP => _ /eqP; first by rewrite pnatr_eq0.
by rewrite oner_eq0.
Qed.
End Laplace.

(** the Hessian with respect to the entries of the precision: direction delta_ii for a diagonal parameter *)
Section Hess.
Variables (p : nat) (K : 'M[R]_p) (dn : R) (dof : nat) (V : 'I_dof -> 'I_p * 'I_p).
Definition par_mx (e : 'I_dof) : 'M[R]_p :=
  if (V e).1 == (V e).2 then delta_mx (V e).1 (V e).1 else delta_mx (V e).1 (V e).2 + delta_mx (V e).2 (V e).1.
Definition hess_true : 'M[R]_dof :=
  \matrix_(e, f) (- ((dn - 2%:R) / 2%:R) * \tr (K *m par_mx e *m K *m par_mx f)).
Definition dbl : 'rV[R]_dof := \row_e if (V e).1 == (V e).2 then 2%:R else 1.
Lemma edge_par e : edge_mx V e = dbl 0 e *: par_mx e.
Proof.
rewrite /edge_mx mxE /par_mx; case: eqP => [<-|_]; last by rewrite scale1r.
by rewrite scaler_nat mulr2n.
Qed.
Lemma lapH_hess : laplace_H K dn V = diag_mx dbl *m hess_true *m diag_mx dbl.
Proof.
apply/matrixP=> e f; rewrite lapHE !edge_par mul_mx_diag [RHS]mxE mul_diag_mx [in RHS]mxE [hess_true _ _]mxE.
rewrite -!scalemxAr -!scalemxAl -?scalemxAr !mxtraceZ !mxE.
set c := - _; set t := \tr _; set a := if _ then _ else _; set b := if _ then _ else _.
by rewrite [RHS]mulrC [LHS]mulrCA; congr (_ * _); rewrite mulrCA.
Qed.
Lemma lapH_det : \det (laplace_H K dn V) = 4%:R ^+ #|[pred e | (V e).1 == (V e).2]| * \det hess_true.
Proof.
rewrite lapH_hess !det_mulmx det_diag mulrAC; congr (_ * _).
rewrite -big_split /= (eq_bigr (fun e => if (V e).1 == (V e).2 then 4%:R else 1)); last first.
  by move=> e _; rewrite !mxE; case: ifP => _; rewrite ?mulr1 // -natrM.
by rewrite -big_mkcond /= prodr_const.
Qed.
End Hess.

(** ** the approximated log density *)
Lemma laplace_concave p (pinvh : 'M[R]_p -> 'M[R]_p) (D K L : 'M[R]_p) (delta : R) :
  pinvh_ok pinvh -> sym D -> pd K -> pd L -> 2%:R <= delta ->
  exists hK hL : R, [/\ laplace_h D K delta = Fin hK, laplace_h D L delta = Fin hL &
    hL <= hK + fdot (first_derivative_h pinvh D K delta) (L - K)].
Proof.
move=> hp hD hK hL hd; rewrite /laplace_h /fast_logdet !pd_det_gt0 //= /first_derivative_h hp ?pd_unit //; last exact: pd_sym.
do 2 eexists; split; [reflexivity | reflexivity |].
have ht := logdet_tangent hK hL; rewrite tr_fdot in ht; last by apply: sym_inv; exact: pd_sym.
move: ht; have -> : \tr (K^T *m D) = fdot D K by rewrite fdotC fdotE.
have -> : \tr (L^T *m D) = fdot D L by rewrite fdotC fdotE.
rewrite -/(logdet K) -/(logdet L) fdotZl fdotBl fdotZl !fdotBr.
move: (fdot D K : R) (fdot D L : R) (logdet K : R) (logdet L : R) => a b c d.
move: (fdot (invmx K) L : R) (fdot (invmx K) K : R) => e f h.
have : 0 <= (delta - 2%:R) * (c + (e - f) - d) by apply: mulr_ge0; rewrite subr_ge0.
move: (delta - 2%:R : R) => z h2; mcnra.
Qed.

(** ** the mean of the best *)
Lemma top_meanE p (res : seq (R * 'M[R]_p)) (k : nat) :
  exists top rest, [/\ perm_eq res (top ++ rest), size top = minn k (size res),
    (forall a b, a \in top -> b \in rest -> b.1 <= a.1) &
    top_mean res k = (size top)%:R^-1 *: \sum_(x <- top) x.2].
Proof.
pose le := fun a b : R * 'M[R]_p => a.1 <= b.1; rewrite /top_mean -/le; set s := rev (sort le res).
have tot : total le by move=> a b; exact: real_leVge (num_real _) (num_real _).
have trn : transitive le by move=> a b c; exact: le_trans.
exists (take k s), (drop k s); split=> //.
- by rewrite cat_take_drop /s perm_sym perm_rev; exact/permPl/perm_sort.
- by rewrite size_take_min /s size_rev size_sort.
move=> a b ha hb; have : sorted (fun x y => le y x) s by rewrite rev_sorted; exact: sort_sorted.
have trn' : transitive (fun x y => le y x) by move=> x y z h1 h2; exact: trn h2 h1.
rewrite (sorted_pairwise trn') -(cat_take_drop k s) pairwise_cat => /and3P [/allrelP h _ _].
exact: h.
Qed.
Lemma mean_pd p (top : seq (R * 'M[R]_p)) : (0 < size top)%N -> (forall x, x \in top -> pd x.2) ->
  pd ((size top)%:R^-1 *: \sum_(x <- top) x.2).
Proof.
move=> s0 h; apply: pdZ; first by rewrite invr_gt0 ltr0n.
elim: top s0 h => // x t IH _ h; rewrite big_cons; case: t IH h => [|y t] IH h.
  by rewrite big_nil addr0; apply: h; rewrite mem_head.
apply: pdD_psd; first by apply: h; rewrite mem_head.
by apply: pd_psd; apply: IH => // z hz; apply: h; rewrite inE hz orbT.
Qed.

(** ** Markov blankets *)
Lemma blanketsP n (graphs : seq 'M[R]_n) tol (u : option (seq 'M[bool]_n -> seq 'M[bool]_n)) B :
  (forall f, u = Some f -> forall s, f s =i s) -> 0 < tol ->
  B \in markov_blankets graphs tol u <->
  exists2 G, G \in graphs & forall i j, B i j = (i != j) && (tol <= `|G i j|).
Proof.
move=> hu ht; rewrite /markov_blankets.
have -> : (B \in match u with Some f => f [seq \matrix_(i, j) [&& j != i, ~~ (`|G i j| < tol) & G i j != 0] | G : 'M[R]_n <- graphs] | None => [seq \matrix_(i, j) [&& j != i, ~~ (`|G i j| < tol) & G i j != 0] | G : 'M[R]_n <- graphs] end) =
  (B \in [seq (\matrix_(i, j) [&& j != i, ~~ (`|G i j| < tol) & G i j != 0] : 'M[bool]_n) | G : 'M[R]_n <- graphs]).
  by case: u hu => // f /(_ f erefl) ->.
have E (G : 'M[R]_n) i j : [&& j != i, ~~ (`|G i j| < tol) & G i j != 0] = (i != j) && (tol <= `|G i j|).
  rewrite eq_sym -leNgt; case: (i != j) => //=; case hle: (tol <= `|G i j|) => //=.
  by apply/eqP => g0; move: hle; rewrite g0 normr0 leNgt ht.
split.
  by case/mapP => G hG ->; exists G => // i j; rewrite mxE E.
case=> G hG h; apply/mapP; exists G => //; apply/matrixP=> i j; rewrite h mxE E //.
Qed.
Lemma get_graphsP n (bl : seq 'M[bool]_n) idx nr g : g \in get_graphs bl idx nr ->
  exists2 r, (r < nr)%N & forall i j, g i j = (nth (const_mx false) bl (idx i r)) i j && (nth (const_mx false) bl (idx j r)) j i.
Proof. by case/mapP => r; rewrite mem_iota /= add0n => hr ->; exists r => // i j; rewrite !mxE. Qed.
Lemma scores_pos n k (s : 'M[R]_(n, k)) i j : 0 < normalized_scores s i j.
Proof.
have ep (x : R) : (0 : R) < exp x by apply/RltP; exact: exp_pos.
rewrite mxE; apply: divr_gt0; first by rewrite mxE.
by rewrite (bigD1 j) //= mxE ltr_paddr // sumr_ge0 // => l _; rewrite mxE ltW.
Qed.
Lemma scores_sum n k (s : 'M[R]_(n, k)) i : (0 < k)%N -> \sum_j normalized_scores s i j = 1.
Proof.
move=> k0; have ep (x : R) : (0 : R) < exp x by apply/RltP; exact: exp_pos.
rewrite (eq_bigr (fun j => map_mx exp s i j / \sum_l map_mx exp s i l)); last by move=> j _; rewrite mxE.
rewrite -mulr_suml divff // gt_eqF // (bigD1 (Ordinal k0)) //= mxE ltr_paddr // sumr_ge0 // => l _; rewrite mxE ltW //.
Qed.

(** ** the scores *)
Definition svd_ok p (U : 'M[R]_p) (s : 'rV[R]_p) (Vh P : 'M[R]_p) : Prop :=
  [/\ U^T *m U = 1%:M, Vh *m Vh^T = 1%:M, forall i, 0 <= s 0 i & P = U *m diag_mx s *m Vh].
Lemma svd_pos p (U : 'M[R]_p) s Vh P : svd_ok U s Vh P -> pd P -> forall i, 0 < s 0 i.
Proof.
move=> [hU hV hs eP] hP i; rewrite lt_def hs andbT; apply/eqP => s0.
have := pd_unit hP; rewrite unitmxE eP !det_mulmx det_diag (bigD1 i) //= s0 mul0r mulr0 mul0r unitr0 //.
Qed.
Lemma svd_inv p (U : 'M[R]_p) s Vh P : svd_ok U s Vh P -> pd P -> gw_invP U s Vh = invmx P.
Proof.
move=> h hP; have sp := svd_pos h hP; move: h => [hU hV hs eP].
have e : gw_invP U s Vh *m P = 1%:M.
  rewrite /gw_invP eP -!mulmxA [U^T *m _]mulmxA hU mul1mx [diag_mx _ *m (diag_mx _ *m _)]mulmxA.
  have -> : diag_mx (\row_i (1 / s 0 i)) *m diag_mx s = 1%:M.
    by apply/matrixP=> i j; rewrite mul_diag_mx !mxE div1r; case: eqP => [->|_]; rewrite ?mulr0 // mulr1n mulVf // gt_eqF.
  by rewrite mul1mx; exact: mulmx1C hV.
by rewrite -[LHS]mulmx1 -(mulmxV (pd_unit hP)) mulmxA e mul1mx.
Qed.
Lemma svd_logdet p (U : 'M[R]_p) s Vh P : svd_ok U s Vh P -> pd P -> gw_logdetP s = logdet P.
Proof.
move=> h hP; have sp := svd_pos h hP; move: h => [hU hV hs eP].
have dP := pd_det_gt0 hP; have pp : 0 < \prod_i s 0 i by apply: prodr_gt0.
have d1 : \det U * \det Vh = 1.
  have u2 : \det U * \det U = 1 by rewrite -{1}(det_tr U) -det_mulmx hU det1.
  have v2 : \det Vh * \det Vh = 1 by rewrite -{2}(det_tr Vh) -det_mulmx hV det1.
  have q : (\det U * \det Vh - 1) * (\det U * \det Vh + 1) = 0.
    by rewrite -subr_sqr expr1n expr2 mulrACA u2 v2 mulr1 subrr.
  have g0 : 0 < \det U * \det Vh.
    by move: dP; rewrite eP !det_mulmx det_diag mulrAC pmulr_lgt0.
  by move/eqP: q; rewrite mulf_eq0 subr_eq0 => /orP [/eqP // | /eqP q]; move: (addr_gt0 g0 ltr01); rewrite q ltxx.
by rewrite /logdet eP !det_mulmx det_diag mulrAC d1 mul1r ln_prod.
Qed.
Definition chol_upper n (L A : 'M[R]_n) : Prop :=
  [/\ forall i j : 'I_n, (j < i)%N -> L i j = 0, forall i, 0 < L i i & L^T *m L = A].
Lemma chol_logdet n (L A : 'M[R]_n) : chol_upper L A -> gw_logdetH L = logdet A.
Proof.
move=> [hl hp <-]; rewrite /logdet det_mulmx det_tr.
have -> : \det L = \prod_i L i i by rewrite -det_tr det_trig ?(eq_bigr _ (fun i _ => mxE _ _ _ _)) //; [apply: eq_bigr => i _; rewrite mxE | apply/is_trig_mxP => i j h; rewrite mxE hl].
have pp : 0 < \prod_i L i i by apply: prodr_gt0.
rewrite [RHS](_ : _ = ln (\prod_i L i i) + ln (\prod_i L i i)); last by apply: ln_mult; exact/RltP.
by rewrite ln_prod // -mulr2n -mulr_natl.
Qed.
Lemma logdetN_hess p (K : 'M[R]_p) dn dof (V : 'I_dof -> 'I_p * 'I_p) :
  pd K -> 2%:R < dn -> injective V -> (forall f, ((V f).1 <= (V f).2)%N) ->
  logdet (- laplace_H K dn V) = #|[pred e | (V e).1 == (V e).2]|%:R * (2%:R * ln 2%:R) + logdet (- hess_true K dn V).
Proof.
move=> hK hd inj ord; have := pd_det_gt0 (lapH_nd hK hd inj ord).
rewrite /logdet -!scaleN1r !detZ lapH_det mulrCA; set m := #|_|; set d := _ * \det _ => h.
have q : 0 < (4%:R : R) ^+ m by rewrite exprn_gt0 // ltr0n.
have d0 : 0 < d by move: h; rewrite pmulr_rgt0.
rewrite [LHS](_ : _ = ln (4%:R ^+ m) + ln d); last by apply: ln_mult; exact/RltP.
congr (_ + _); rewrite -[4%:R ^+ m]mul1r.
have -> : 2%:R * ln 2%:R = ln 4%:R :> R.
  have -> : (4%:R : R) = 2%:R * 2%:R by rewrite -natrM.
  rewrite [RHS](_ : _ = ln 2%:R + ln 2%:R); last by apply: ln_mult; apply/RltP; rewrite ltr0n.
  by rewrite -mulr2n mulr_natl.
rewrite mul1r; elim: (m) => [|k IH]; first by rewrite expr0 mul0r; exact: ln_1.
rewrite exprS [LHS](_ : _ = ln 4%:R + ln (4%:R ^+ k)); last first.
  by apply: ln_mult; apply/RltP; rewrite ?exprn_gt0 ?ltr0n.
by rewrite IH [in RHS]mulrS mulrDl mul1r.
Qed.
(** at the mode given the graph: the inverse of the precision agrees with C on the graph *)
Lemma stationary_trace p (N : 'M[bool]_p) (C x : 'M[R]_p) : upper_mask N -> sym C -> pd (fill N x) ->
  (forall i j, N i j -> invmx (fill N x) i j = C i j) -> fdot C (fill N x) = p%:R.
Proof.
move=> hN hC hp h; transitivity (fdot (invmx (fill N x)) (fill N x)).
  have sI : sym (invmx (fill N x)) by apply: sym_inv; exact: pd_sym.
  rewrite /fdot; apply: eq_bigr => i _; apply: eq_bigr => j _; rewrite fillE.
  case Nij: (N i j); first by rewrite h.
  case: ifP => [/andP [_ Nji]|_]; last by rewrite addr0 !mulr0.
  have -> : C i j = C j i by rewrite -[in LHS]hC mxE.
  by rewrite -(h _ _ Nji) -[in RHS]sI mxE.
by rewrite fdotE (sym_inv (pd_sym hp)) mulVmx ?pd_unit // mxtrace1.
Qed.
Lemma covsel_stat p (pinvh : 'M[R]_p -> 'M[R]_p) (N : 'M[bool]_p) (C x : 'M[R]_p) : pinvh_ok pinvh -> upper_mask N -> sym C -> pd (fill N x) ->
  (covsel pinvh N C x).2 = 0 <-> (forall i j, N i j -> invmx (fill N x) i j = C i j).
Proof.
move=> hv hN hC hp; rewrite covselE // [_.2]/=; have sI : sym (invmx (fill N x)) by apply: sym_inv; exact: pd_sym.
have E i j : N i j -> (C - invmx (fill N x) + (trilm1 (C - invmx (fill N x)))^T) i j =
    (if (i < j)%N then 2%:R else 1) * (C i j - invmx (fill N x) i j).
  move=> hn; rewrite !mxE; have -> : C j i = C i j by rewrite -[in RHS]hC mxE.
  have -> : invmx (fill N x) j i = invmx (fill N x) i j by rewrite -[in RHS]sI mxE.
  by case: ifP => _; rewrite ?mul1r ?addr0 // mulr_natl mulr2n.
split=> [h i j hn|h].
  have := congr1 (fun A : 'M[R]_p => A i j) h; rewrite !mxE hn => h'; move: (E i j hn); rewrite !mxE h' => /esym/eqP.
  rewrite mulf_eq0 => /orP [|]; first by case: ifP => _; rewrite ?oner_eq0 ?pnatr_eq0.
  by rewrite subr_eq0 => /eqP ->.
by apply/matrixP=> i j; rewrite [LHS]mxE [RHS]mxE; case: ifP => hn //; rewrite E // h // subrr mulr0.
Qed.
Lemma fill_pattern p (N : 'M[bool]_p) (P : 'M[R]_p) : upper_mask N -> sym P ->
  (forall i j, ~~ (N i j || N j i) -> P i j = 0) -> fill N P = P.
Proof.
move=> hN hP h0; apply/matrixP=> i j; rewrite fillE.
case Nij: (N i j).
  by case: ifP => [/andP [hji _]|_]; rewrite ?addr0 //; move: (hN _ _ Nij); rewrite leqNgt hji.
case Nji: (N j i); rewrite ?andbF ?andbT.
  have -> : (j < i)%N by rewrite ltn_neqAle (hN _ _ Nji) andbT; apply/eqP => /val_inj e; move: Nij Nji; rewrite e => ->.
  by rewrite add0r -[in RHS]hP mxE.
by rewrite addr0 h0 // Nij Nji.
Qed.
