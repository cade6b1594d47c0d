(** Proofs about data_Meinshausen_Yuan_sparse_latent. *)
From Coq Require Import Reals String.
From mathcomp Require Import all_ssreflect all_algebra.
From Verif Require Import RStruct RTac LinTac NP Str S_Mat RMx S_Utils M_Utils P_Utils2 M_Ising M_Gauss P_Gauss P_Gauss2 P_Gauss3 P_Gauss6 P_GLM.
From Verif Require Import M_MYLatent.
Import Order.TTheory GRing.Theory Num.Theory.

Set Implicit Arguments.
Unset Strict Implicit.
Unset Printing Implicit Defensive.
Local Open Scope ring_scope.

(** * the indices that are picked *)
Lemma lat_pick_ok m i budget steps (ix : seq 'I_m) : (steps <= size ix)%N ->
  exists l, [/\ lat_pick i budget steps ix = LOk l, (size l <= budget)%N, (size l <= steps)%N
              & forall j, j \in l -> (i <= j)%N /\ j \in ix].
Proof.
elim: ix budget steps => [|j ix IH] [|b] [|s] //=; try by move=> _; exists [::].
move=> h; case: ltnP => ij.
  have [l [-> h1 h2 h3]] := IH b.+1 s h; exists l; split=> //; first exact: leqW.
  by move=> k /h3 [h4 h5]; rewrite inE h5 orbT.
have [l [-> h1 h2 h3]] := IH b s h; exists (j :: l); split=> //.
by move=> k; rewrite !inE => /orP[/eqP ->|/h3 [h4 h5]]; rewrite ?eqxx ?h5 ?orbT.
Qed.

(** * the first array *)
Section Start.
Variables (h p : nat) (ix : 'I_h -> seq 'I_(h + p)) (nzp : 'I_h -> nat).
Hypothesis six : forall i, size (ix i) = (h + p)%N.
Hypothesis hp : (h <= p)%N.
Let value := lat_value h p.
Definition lat_sym (A : 'M[R]_(h, h + p)) : Prop := forall a b, A a (lshift p b) = A b (lshift p a).
Definition lat_two (A : 'M[R]_(h, h + p)) : Prop := forall a b, A a b = 0 \/ A a b = value.
Definition right_nnz (A : 'M[R]_(h, h + p)) a : nat := #|[set b : 'I_p | A a (rshift h b) != 0]|.

Lemma lr_neq (i : 'I_h) (b : 'I_p) : (rshift h b == lshift p i) = false.
Proof. by apply/eqP => e; have := congr1 split e; rewrite -/(unsplit (inl i)) -/(unsplit (inr b)) !unsplitK. Qed.

Lemma lat_set_sym A i l : lat_sym A -> lat_sym (lat_set A i l value).
Proof.
move=> s a b; rewrite !mxE !(inj_eq (@lshift_inj _ _)).
have := s a b; case: (eqVneq a i) => [->|ai]; case: (eqVneq b i) => [->|bi] //=.
- by move=> e; case: (lshift p b \in l).
- by move=> e; case: (lshift p a \in l).
Qed.
Lemma lat_set_two A i l : lat_two A -> lat_two (lat_set A i l value).
Proof. by move=> t a b; rewrite mxE; case: ifP => _; [right | case: ifP => _; [right | exact: t]]. Qed.
Lemma lat_set_nnz A i l a : (right_nnz (lat_set A i l value) a <= right_nnz A a + (a == i) * size l)%N.
Proof.
rewrite /right_nnz; have [->|ai] := eqVneq a i; last first.
  rewrite mul0n addn0; apply: subset_leq_card; apply/subsetP => b; rewrite !inE mxE (negbTE ai) lr_neq //.
rewrite mul1n -(size_map (fun j : 'I_(h + p) => j) l).
pose r := pmap (fun j : 'I_(h + p) => if split j is inr b then Some b else None) l.
apply: (@leq_trans #|[set b : 'I_p | A i (rshift h b) != 0] :|: [set b in r]|).
  apply: subset_leq_card; apply/subsetP => b; rewrite !inE mxE eqxx lr_neq /=; case: ifP => [bl _|_ ->] //.
  by apply/orP; right; rewrite mem_pmap; apply/mapP; exists (rshift h b); rewrite // -/(unsplit (inr b)) unsplitK.
apply: leq_trans (leq_card_setU _ _) _; rewrite leq_add2l cardsE; apply: leq_trans (card_size _) _.
by rewrite size_pmap size_map count_size.
Qed.
Lemma lat_start_ok : exists A, [/\ lat_start ix nzp = LOk A, lat_sym A, lat_two A & forall a, (right_nnz A a <= h + h)%N].
Proof.
rewrite /lat_start; set f := (X in foldl X _ _).
have H (l : seq 'I_h) A : lat_sym A -> lat_two A -> exists B, [/\ foldl f (LOk A) l = LOk B, lat_sym B, lat_two B &
    forall a, (right_nnz B a <= right_nnz A a + count_mem a l * (h + h))%N].
  elim: l A => [|i l IH] A s t /=; first by exists A; split=> // a; rewrite addn0.
  have st : (h + h <= size (ix i))%N by rewrite six leq_add2l.
  have [l' [-> _ sz _]] := lat_pick_ok i (minn ((h + p)./2 - lat_nnz A i) (nzp i)) st.
  have [B [e sB tB nB]] := IH _ (lat_set_sym i l' s) (lat_set_two i l' t); exists B; split=> // a.
  apply: leq_trans (nB a) _; rewrite mulnDl addnA leq_add2r; apply: leq_trans (lat_set_nnz _ _ _ _) _.
  by rewrite leq_add2l eq_sym leq_mul.
have s0 : lat_sym 0 by move=> a b; rewrite !mxE.
have t0 : lat_two 0 by move=> a b; left; rewrite mxE.
have [B [e s t n]] := H (enum 'I_h) 0 s0 t0.
exists B; split=> // a; apply: leq_trans (n a) _.
have -> : right_nnz 0 a = 0%N by apply/eqP; rewrite cards_eq0; apply/eqP/setP => b; rewrite !inE mxE eqxx.
by rewrite add0n count_uniq_mem ?enum_uniq // mem_enum mul1n.
Qed.
End Start.

(** * the blocks of the latent variables *)
Definition lat_shape h (value : R) (H : 'M[R]_h) : Prop :=
  [/\ sym H, forall i, H i i = 1 & forall i j, i != j -> H i j = 0 \/ H i j = value].
Lemma start_shape h p (A : 'M[R]_(h, h + p)) : lat_sym A -> lat_two A -> lat_shape (lat_value h p) (lsubmx (unit_diag A)).
Proof.
move=> s t; split=> [|i|i j ij].
- apply/symP => i j; rewrite !mxE !(inj_eq (@lshift_inj _ _)) eq_sym; case: eqP => // _; exact: s.
- by rewrite !mxE eqxx.
- by rewrite !mxE (inj_eq (@lshift_inj _ _)) eq_sym (negbTE ij).
Qed.
Lemma next_shape h (prev : 'M[R]_h) value ix shuffle : lat_shape value (lat_next prev value ix shuffle).
Proof.
rewrite /lat_next; set tp := fun i => _; have [s t] : sym (lat_fill tp ix value) /\ two_valued value (lat_fill tp ix value).
  rewrite /lat_fill; set f := (X in foldl X _ _).
  have H (l : seq 'I_h) (A : 'M[R]_h) : sym A -> two_valued value A -> sym (foldl f A l) /\ two_valued value (foldl f A l).
    elim: l A => [|i l IH] A s t //=; apply: IH; first exact: cross_sym.
    by apply: cross_two => //; right.
  by apply: H; [exact: sym0 | move=> i j; left; rewrite mxE].
have {s t} [s t] : sym (lat_prune tp shuffle (lat_fill tp ix value)) /\ two_valued value (lat_prune tp shuffle (lat_fill tp ix value)).
  rewrite /lat_prune; move: (filter _ _) => l; move: (lat_fill tp ix value) s t => B s t; elim: l B s t => [|i l IH] A s t //=; apply: IH; first exact: cross_sym.
  by apply: cross_two => //; left.
split=> [|i|i j ij]; first exact: fill_sym.
- by rewrite mxE eqxx.
- by rewrite mxE (negbTE ij).
Qed.

(** * the margins *)
(** a block with at least p = 20 h observed variables keeps an eigenvalue above 9/10 *)
Lemma value_gt0 h p : (0 < h + p)%N -> 0 < lat_value h p.
Proof.
move=> hp; rewrite /lat_value !divr_gt0 ?ltr0n // mulr_gt0 ?divr_gt0 ?ltr01 ?ltr0n // addnC //.
Qed.
Lemma value_h h p : (0 < h)%N -> (20 * h <= p)%N -> h%:R * lat_value h p <= 7%:R / 75%:R.
Proof.
move=> h0 hp; have : (21 * h)%:R <= (p + h)%:R :> R by rewrite ler_nat -[21%N]/(20 + 1)%N mulnDl mul1n leq_add2r.
rewrite natrM /lat_value; have : 0 < h%:R :> R by rewrite ltr0n.
have : 0 < (p + h)%:R :> R by rewrite ltr0n addn_gt0 h0 orbT.
move: (h%:R : R) ((p + h)%:R : R) => x y y0 x0 xy.
have -> : x * (98%:R / 100%:R / (y * (1 / 2%:R))) = (196%:R / 100%:R * x) / y.
  have yn : y <> 0 by apply/eqP; rewrite gt_eqF.
  by mcfield.
by rewrite ler_pdivr_mulr //; mclra.
Qed.
Lemma shape_margin h value (H : 'M[R]_h) : lat_shape value H -> 0 <= value -> h%:R * value < 1 / 10%:R ->
  pd H /\ pd (H - (9%:R / 10%:R)%:M).
Proof.
case=> s d t v0 hv.
have row i : \sum_(j | j != i) `|H i j| <= h%:R * value.
  apply: (@le_trans _ _ (\sum_(j : 'I_h) value)); last by rewrite sumr_const card_ord mulr_natl.
  rewrite big_mkcond; apply: ler_sum => j _; case: eqP => //= /eqP ji.
  by case: (t i j); rewrite 1?eq_sym // => ->; rewrite ?normr0 // ger0_norm.
split; apply: diag_dom_pd.
- exact: s.
- move=> i; rewrite d; apply: le_lt_trans (row i) _; have num (x : R) : x < 1 / 10%:R -> x < 1 by move=> hx; mclra.
  exact: num.
- by apply: symB => //; rewrite /sym tr_scalar_mx.
- move=> i; rewrite [X in _ < X]mxE [X in _ < _ + X]mxE d [X in _ < _ - X]mxE eqxx mulr1n.
  rewrite (eq_bigr (fun j => `|H i j|)); last by move=> j ji; rewrite !mxE eq_sym (negbTE ji) mulr0n subr0.
  apply: le_lt_trans (row i) _; have num (x : R) : x < 1 / 10%:R -> x < 1 - 9%:R / 10%:R by move=> hx; mclra.
  exact: num.
Qed.
Lemma fnorm2_cauchy m n (C : 'M[R]_(m, n)) (x : 'cV[R]_n) : fnorm2 (C *m x) <= fnorm2 C * fnorm2 x.
Proof.
rewrite /fnorm2 mulr_suml; apply: ler_sum => i _; rewrite big_ord1 mxE.
have -> : \sum_k \sum_j x k j ^+ 2 = \sum_k x k 0 ^+ 2 by apply: eq_bigr => k _; rewrite big_ord1.
exact: sum_cauchy.
Qed.

Lemma quad_one n (v : 'cV[R]_n) : quad 1%:M v = fnorm2 v.
Proof.
rewrite /quad mulmx1 mxE /fnorm2; apply: eq_bigr => i _; by rewrite mxE big_ord1 expr2.
Qed.
Lemma inv_bound n (H : 'M[R]_n) (m : R) (z : 'cV[R]_n) : 0 < m -> pd H -> pd (H - m%:M) -> quad (invmx H) z <= fnorm2 z / m.
Proof.
move=> m0 dH dm; have uH := pd_unit dH; set y := invmx H *m z.
have ez : z = H *m y by rewrite /y mulKVmx.
have q1 : quad (invmx H) z = quad H y.
  by rewrite /quad {1 2}ez trmx_mul (pd_sym dH) -!mulmxA (mulmxA (invmx H)) mulVmx // mul1mx.
have q2 : m * fnorm2 y <= quad H y.
  have [_ ge] := pd_psd dm; have := ge y; rewrite quadD -scalemx1 -scaleNr quadZ quad_one; clear.
  by move: (quad H y) (fnorm2 y) => a b; rewrite mulNr subr_ge0.
have q3 : 2%:R * quad H y <= m * fnorm2 y + fnorm2 z / m.
  have : 0 <= fnorm2 (m *: y - z) by apply: sumr_ge0 => i _; apply: sumr_ge0 => j _; exact: sqr_ge0.
  have -> : fnorm2 (m *: y - z) = m ^+ 2 * fnorm2 y - 2%:R * m * quad H y + fnorm2 z.
    have -> : quad H y = \sum_i y i 0 * z i 0 by rewrite /quad -mulmxA -ez mxE; apply: eq_bigr => i _; rewrite mxE.
    rewrite /fnorm2 !mulr_sumr -sumrB -big_split; apply: eq_bigr => i _ /=; rewrite !big_ord1 !mxE.
    by move: (y i 0) (z i 0) => a b; mcring.
  move: (quad H y) (fnorm2 y) (fnorm2 z) => a b c h.
  have -> : m * b + c / m = (m ^+ 2 * b + c) / m by have mn : m <> 0 by [apply/eqP; rewrite gt_eqF]; mcfield.
  by rewrite ler_pdivl_mulr //; mclra.
rewrite q1; move: q2 q3; move: (quad H y) (m * fnorm2 y) (fnorm2 z / m) => a b c; clear => h1 h2; mclra.
Qed.

Lemma conn_bound h p (A : 'M[R]_(h, h + p)) : lat_two A -> (forall a, (right_nnz A a <= h + h)%N) ->
  fnorm2 (rsubmx (unit_diag A)) <= (h * (h + h))%:R * lat_value h p ^+ 2.
Proof.
move=> t n; apply: (@le_trans _ _ (\sum_(i < h) (h + h)%:R * lat_value h p ^+ 2)); last first.
  by rewrite sumr_const card_ord -mulr_natl natrM mulrA.
apply: ler_sum => i _; rewrite (eq_bigr (fun b => (A i (rshift h b) != 0)%:R * lat_value h p ^+ 2)); last first.
  move=> b _; rewrite !mxE lr_neq; case: (t i (rshift h b)) => ->; first by rewrite eqxx mul0r expr0n.
  by case: eqP => [->|_]; rewrite ?mul1r // expr0n mulr0.
rewrite -mulr_suml; apply: ler_wpmul2r; first exact: sqr_ge0.
rewrite -natr_sum ler_nat; apply: leq_trans (n i); rewrite /right_nnz cardsE -sum1_card [X in (_ <= X)%N]big_mkcond.
by apply: leq_sum => b _; rewrite unfold_in /=; case: (_ != _).
Qed.

Lemma theta_margin p (theta : 'M[R]_p) : my_shape theta -> pd (theta - (39%:R / 2000%:R)%:M).
Proof.
move=> sh; have [s d _ _] := sh; apply: diag_dom_pd; first by apply: symB => //; rewrite /sym tr_scalar_mx.
move=> i; rewrite [X in _ < X]mxE [X in _ < _ + X]mxE d [X in _ < _ - X]mxE eqxx mulr1n.
rewrite (eq_bigr (fun j => `|theta i j|)); last by move=> j ji; rewrite !mxE eq_sym (negbTE ji) mulr0n subr0.
by apply: le_lt_trans (my_row i sh) _; mclra.
Qed.

Lemma obs_pd h p (theta : 'M[R]_p) (H : 'M[R]_h) (C : 'M[R]_(h, p)) : my_shape theta -> pd H -> pd (H - (9%:R / 10%:R)%:M) ->
  fnorm2 C <= 2%:R * (7%:R / 75%:R) ^+ 2 -> pd (theta - C^T *m invmx H *m C).
Proof.
move=> sh dH dm cb; have [st _ _ _] := sh; have dt := theta_margin sh; split.
  by apply: symB => //; rewrite /sym !trmx_mul trmxK (sym_inv (pd_sym dH)) mulmxA.
move=> x x0; rewrite quadD -[- (C^T *m _ *m _)]scaleN1r quadZ mulN1r subr_gt0.
have -> : quad (C^T *m invmx H *m C) x = quad (invmx H) (C *m x) by rewrite /quad trmx_mul !mulmxA.
have m0 : 0 < 9%:R / 10%:R :> R by mclra.
apply: le_lt_trans (inv_bound (C *m x) m0 dH dm) _.
have f0 : 0 < fnorm2 x by rewrite -quad_one quad1_gt0.
have [_ /(_ x x0)] := dt; rewrite quadD -scalemx1 -scaleNr quadZ quad_one mulNr subr_gt0.
have := fnorm2_cauchy C x; have : fnorm2 C * fnorm2 x <= 2%:R * (7%:R / 75%:R) ^+ 2 * fnorm2 x by rewrite ler_pmul2r.
move: (fnorm2 C * fnorm2 x) (fnorm2 (C *m x)) (quad theta x) (fnorm2 x) f0 => a b q f f0 h1 h2 h3.
apply: le_lt_trans h3; rewrite ler_pdivr_mulr //; apply: le_trans h2 (le_trans h1 _).
by rewrite expr2; mclra.
Qed.
