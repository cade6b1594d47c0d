(** Proofs about make_cluster_representative: the weights, positive definiteness, and a graph with six nodes. *)
From Coq Require Import Reals.
From mathcomp Require Import all_ssreflect all_algebra.
From Verif Require Import RStruct RTac NP S_Mat P_Utils2 M_ClusterRep P_ClusterRep P_ClusterRep2.
Import Order.TTheory GRing.Theory Num.Theory.

Set Implicit Arguments.
Unset Strict Implicit.
Unset Printing Implicit Defensive.
Local Open Scope ring_scope.

Section Weights.
Variables (n : nat) (edge : rel 'I_n) (w : nat -> R).
Hypotheses (es : symmetric edge) (ei : irreflexive edge) (w0 : forall k, 0 < w k < 1).
Let A := rep_matrix edge w.
Lemma rep_supp i j : supp A i j = (i == j) || edge i j.
Proof.
rewrite /supp mxE; case: (i =P j) => //= _; first by rewrite oner_neq0.
case: (edge i j); last by rewrite eqxx.
by rewrite mulf_neq0 ?lt0r_neq0 // ?divr_gt0 ?ltr0n //; case/andP: (w0 (weight_ix edge i j)).
Qed.
Lemma rep_supp_sym : supp_sym A.
Proof. by move=> i j; rewrite !rep_supp eq_sym es. Qed.
Lemma weight_ix_inj i j i' j' : edge i j -> edge i' j' -> weight_ix edge i j = weight_ix edge i' j' -> (i, j) = (i', j').
Proof.
move=> e e'; rewrite /weight_ix => /(congr1 (nth (i, j) [seq x <- entries n | edge x.1 x.2])).
by rewrite !nth_index // mem_filter mem_entries /= ?e ?e'.
Qed.
Lemma rep_not_sym : injective w -> forall i j, edge i j -> A i j <> A j i.
Proof.
move=> wi i j e; have e' : edge j i by rewrite es.
have ij : i != j by apply: contraTneq e => ->; rewrite ei.
rewrite !mxE (negbTE ij) eq_sym (negbTE ij) e e' => /mulIf h.
have c0 : 45%:R / 100%:R != 0 :> R by rewrite lt0r_neq0 // divr_gt0 ?ltr0n.
have := weight_ix_inj e e' (wi _ _ (h c0)) => -[x _].
by rewrite x eqxx in ij.
Qed.
Lemma lower_sym_sym (B : 'M[R]_n) : sym (lower_sym B).
Proof.
apply/matrixP => i j; rewrite !mxE; case: (ltngtP i j) => // ij.
by have -> : i = j by exact: val_inj.
Qed.
Lemma rep_pd : (forall i, #|[set j | edge i j]| <= 2)%N -> pd (lower_sym A).
Proof.
move=> deg; apply: diag_dom_pd; first exact: lower_sym_sym.
move=> i; have -> : lower_sym A i i = 1 by rewrite !mxE leqnn eqxx.
have b j : j != i -> `|lower_sym A i j| <= if edge i j then 45%:R / 100%:R else 0.
  move=> ji; rewrite !mxE (es j i) (negbTE ji) (eq_sym i j) (negbTE ji).
  have num (r : R) : 0 < r -> r < 1 -> `|r * (45%:R / 100%:R)| <= 45%:R / 100%:R.
    by move=> h1 h2; rewrite ger0_norm; mclra.
  by case: ifP => _; case: (edge i j); rewrite ?normr0 //; apply: num; case/andP: (w0 (weight_ix edge i j)); case/andP: (w0 (weight_ix edge j i)).
apply: le_lt_trans (ler_sum _ b) _; rewrite -big_mkcondr /=.
rewrite (eq_bigl (fun j => j \in [set j | edge i j])); last first.
  by move=> j; rewrite inE; case: eqP => //= ->; rewrite ei.
rewrite sumr_const -[_ *+ #|_|]mulr_natr.
have : #|[set j | edge i j]|%:R <= 2%:R :> R by rewrite ler_nat.
have num (c : R) : c <= 2%:R -> 45%:R / 100%:R * c < 1 by move=> h; mclra.
exact: num.
Qed.
End Weights.

Lemma size_differs n (A B : 'M[R]_n) : size (differs A B) = #|[set x : 'I_n * 'I_n | (A x.1 x.2 != 0) != (B x.1 x.2 != 0)]|.
Proof.
rewrite cardE; apply/eqP; rewrite -uniq_size_uniq ?enum_uniq ?uniq_differs // => x.
by rewrite mem_enum inE mem_differs.
Qed.

(** * six nodes *)
Definition bip (i j : 'I_6) : bool := (i < 3)%N != (j < 3)%N.
Definition m1 (i j : 'I_6) : bool := (j == i + 3 :> nat)%N || (i == j + 3 :> nat)%N.
Definition m2 (i j : 'I_6) : bool :=
  ((i < 3) && (j == 3 + (i + 1) %% 3 :> nat))%N || ((j < 3) && (i == 3 + (j + 1) %% 3 :> nat))%N.
Definition e1 (i j : 'I_6) : bool := bip i j && ~~ m1 i j.
Definition e2 (i j : 'I_6) : bool := bip i j && ~~ m2 i j.
Definition first (x : 'I_6 * 'I_6) : bool := (x.1 < 3)%N && (x.2 == x.1 + 3 :> nat)%N.
Definition c99 : R := 99%:R / 100%:R.

Definition sh6 (l : seq ('I_6 * 'I_6)) : seq ('I_6 * 'I_6) := filter first l ++ filter (predC first) l.
Definition A6 : 'M[R]_6 := rep_matrix e1 (fun=> c99).
Definition B6 : 'M[R]_6 := rep_matrix e2 (fun=> c99).
Lemma sh6P l : perm_eq (sh6 l) l.
Proof. by rewrite /sh6 perm_filterC. Qed.
Lemma c99_range : 0 < c99 < 1.
Proof. by apply/andP; split; rewrite /c99; mclra. Qed.
Lemma count_entries n (a : pred ('I_n * 'I_n)) : count a (entries n) = (\sum_(i < n) \sum_(j < n) a (i, j))%N.
Proof.
rewrite -sum1_count /entries big_mkcond big_allpairs_dep /= big_enum /=; apply: eq_bigr => i _.
by rewrite big_enum /=; apply: eq_bigr => j _; case: (a _).
Qed.
Lemma all6 (P : 'I_6 -> 'I_6 -> bool) : all (fun a => all (fun b => P (inord a) (inord b)) (iota 0 6)) (iota 0 6) -> forall i j, P i j.
Proof.
move=> h i j; have /allP/(_ (val i)) := h; rewrite mem_iota ltn_ord => /(_ isT) /allP/(_ (val j)).
by rewrite mem_iota ltn_ord !inord_val => /(_ isT).
Qed.
Lemma e1_sym : symmetric e1. Proof. by move=> i j; rewrite /e1 /bip /m1 eq_sym orbC. Qed.
Lemma e2_sym : symmetric e2. Proof. by move=> i j; rewrite /e2 /bip /m2 eq_sym orbC. Qed.
Ltac ord6 i := let h := fresh in case: i => [[|[|[|[|[|[|?]]]]]] h] //.
Lemma e12 (i j : 'I_6) : (((i == j) || e1 i j) != ((i == j) || e2 i j)) = m1 i j || m2 i j.
Proof. by ord6 i; ord6 j. Qed.
Lemma first_m1 (i j : 'I_6) : first (i, j) || first (j, i) = m1 i j.
Proof. by ord6 i; ord6 j. Qed.
Lemma m1_e (i j : 'I_6) : m1 i j -> [/\ i == j = false, e1 i j = false, e2 i j & bip i j].
Proof. by ord6 i; ord6 j. Qed.
Lemma differs6 : differs A6 B6 = [seq x <- entries 6 | m1 x.1 x.2 || m2 x.1 x.2].
Proof.
apply: eq_filter => -[i j] /=; rewrite -!/(supp _ _ _) !(rep_supp _ (fun=> c99_range)); exact: e12.
Qed.
Lemma size6 : size (differs A6 B6) = 12%N.
Proof.
by rewrite differs6 size_filter count_entries; rewrite !big_ord_recl !big_ord0 /m1 /m2 /=; vm_compute.
Qed.
Lemma picks6 : take 3 (sh6 (differs A6 B6)) = [seq x <- entries 6 | first x].
Proof.
have -> : [seq x <- entries 6 | first x] = [seq x <- differs A6 B6 | first x].
  rewrite differs6 -filter_predI; apply: eq_filter => -[i j] /=.
  by case f: (first (i, j)) => //=; rewrite -first_m1 f.
rewrite /sh6 take_cat.
have -> : size [seq x <- differs A6 B6 | first x] = 3%N.
  rewrite differs6 -filter_predI size_filter count_entries; rewrite !big_ord_recl !big_ord0 /first /m1 /m2 /=; by vm_compute.
by rewrite ltnn subnn take0 cats0.
Qed.
Definition mid6 : 'M[R]_6 := one_step 3 sh6 (fun=> c99) B6 A6.
Lemma mid6E i j : mid6 i j = if i == j then 1 else if bip i j then (if m1 i j then c99 * (20%:R / 100%:R) else c99 * (45%:R / 100%:R)) else 0.
Proof.
rewrite /mid6 /one_step picks6; set P := [seq x <- entries 6 | first x].
have u1 : unzip1 (zip P (iota 0 (size P))) = P by rewrite unzip1_zip // size_iota.
have t : touches (zip P (iota 0 (size P))) i j = m1 i j.
  by rewrite /touches u1 !mem_filter !mem_entries !andbT first_m1.
case m: (m1 i j); rewrite m in t.
  have [k [xy xe [-> _]]] := fold_in A6 B6 (fun=> c99) A6 t.
  have [-> a b ->] := m1_e m; have m' : m1 j i by rewrite -first_m1 orbC first_m1.
  have [c' a' b' _] := m1_e m'; rewrite /newval.
  have [c'' _ _ _] := m1_e m.
  case: xe => -> /=; rewrite -/(supp B6 _ _) (rep_supp _ (fun=> c99_range)) /A6 mxE ?c' ?c'' ?a ?a' ?b ?b' eqxx //.
rewrite (fold_out A6 B6 (fun=> c99) A6 (negbT t)) mxE /e1 m andbT //.
Qed.
Lemma mid6_not_psd : exists v, quad (lower_sym mid6) v < 0.
Proof.
exists (\col_i (if (i < 3)%N then 1 else -1)).
have e i j : lower_sym mid6 i j = mid6 i j.
  rewrite mxE; case: ifP => // _; rewrite !mid6E eq_sym; have -> : bip j i = bip i j by rewrite /bip eq_sym.
  by have -> : m1 j i = m1 i j by rewrite /m1 orbC.
rewrite quadE.
under eq_bigr => i _ do under eq_bigr => j _ do rewrite e mid6E !mxE.
rewrite !big_ord_recl !big_ord0 /bip /m1 /=.
rewrite /c99; mclra.
Qed.
Lemma deg6 (e : rel 'I_6) i : #|[set j | e i j]| = (\sum_(j < 6) e i j)%N.
Proof. by rewrite -sum1dep_card big_mkcond; apply: eq_bigr => j _; case: (e i j). Qed.
Lemma e1_deg i : #|[set j | e1 i j]| = 2%N.
Proof. by rewrite deg6; ord6 i; rewrite !big_ord_recl big_ord0; vm_compute. Qed.
Lemma e2_deg i : #|[set j | e2 i j]| = 2%N.
Proof. by rewrite deg6; ord6 i; rewrite !big_ord_recl big_ord0; vm_compute. Qed.
Lemma bip_deg i : #|[set j | bip i j]| = 3%N.
Proof. by rewrite deg6; ord6 i; rewrite !big_ord_recl big_ord0; vm_compute. Qed.
Lemma e1_irr : irreflexive e1. Proof. by move=> i; ord6 i. Qed.
Lemma e2_irr : irreflexive e2. Proof. by move=> i; ord6 i. Qed.
Lemma bip_irr : irreflexive bip. Proof. by move=> i; rewrite /bip eqxx. Qed.
Lemma bip_sym : symmetric bip. Proof. by move=> i j; rewrite /bip eq_sym. Qed.
Lemma bip_not_psd : exists v, quad (lower_sym (rep_matrix bip (fun=> c99))) v < 0.
Proof.
exists (\col_i (if (i < 3)%N then 1 else -1)).
have e i j : lower_sym (rep_matrix bip (fun=> c99)) i j = if i == j then 1 else if bip i j then c99 * (45%:R / 100%:R) else 0.
  by rewrite !mxE (eq_sym j) bip_sym; case: ifP.
rewrite quadE.
under eq_bigr => i _ do under eq_bigr => j _ do rewrite e !mxE.
rewrite !big_ord_recl !big_ord0 /bip /=.
rewrite /c99; mclra.
Qed.
