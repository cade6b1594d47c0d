(** Proofs about graphlet_instability. *)
From Coq Require Import Reals String.
From mathcomp Require Import all_ssreflect all_algebra.
From Verif Require Import RStruct RTac NP Str M_Utils M_Stab M_StabFit.
Import Order.TTheory GRing.Theory Num.Theory.

Set Implicit Arguments.
Unset Strict Implicit.
Unset Printing Implicit Defensive.
Local Open Scope ring_scope.

Section Pairs.
Variables (A : Type) (d : A -> A -> R) (x0 : A).
Implicit Types (x y : A) (l : seq A).
Definition pairs_sum l : R := \sum_(z <- pair_distances d x0 l) z.

Lemma pair_distances_cons x l :
  pair_distances d x0 (x :: l) = [seq d x y | y <- l] ++ pair_distances d x0 l.
Proof.
rewrite /pair_distances /= subn1 /=; congr (_ ++ flatten _).
  rewrite -[X in _ = map _ X](mkseq_nth x0) /mkseq -map_comp.
  rewrite [iota 1 _](iotaDl 1 0) -map_comp; exact: eq_map.
rewrite [iota 1 _](iotaDl 1 0) -map_comp; apply: eq_map => i /=.
rewrite add1n subSS /= [iota i.+2 _](iotaDl 1 i.+1) -map_comp; exact: eq_map.
Qed.

Lemma pairs_sum_cons x l : pairs_sum (x :: l) = \sum_(y <- l) d x y + pairs_sum l.
Proof. by rewrite /pairs_sum pair_distances_cons big_cat big_map. Qed.
Lemma pairs_sum_nil : pairs_sum [::] = 0.
Proof. by rewrite /pairs_sum big_nil. Qed.

Lemma pairs_sum_ord l :
  pairs_sum l = \sum_(i < size l) \sum_(j < size l | (i < j)%N) d (nth x0 l i) (nth x0 l j).
Proof.
elim: l => [|x l IH]; first by rewrite pairs_sum_nil big_ord0.
rewrite pairs_sum_cons /= big_ord_recl /=; congr (_ + _).
  by rewrite [RHS]big_mkcond big_ord_recl /= add0r (big_nth x0) big_mkord.
rewrite IH; apply: eq_bigr => i _.
by rewrite [RHS]big_mkcond big_ord_recl /= add0r [LHS]big_mkcond.
Qed.

Lemma size_pair_distances l : size (pair_distances d x0 l) = 'C(size l, 2).
Proof.
by elim: l => [|x l IH] //; rewrite pair_distances_cons size_cat size_map IH /= binS bin1 addnC.
Qed.

Lemma pairs_sum_sym l : (forall x y, d x y = d y x) ->
  2%:R * pairs_sum l = \sum_(x <- l) \sum_(y <- l) d x y - \sum_(x <- l) d x x.
Proof.
move=> sy; elim: l => [|x l IH]; first by rewrite pairs_sum_nil !big_nil mulr0 subr0.
rewrite pairs_sum_cons mulrDr IH !big_cons.
under [X in _ = _ + X - _]eq_bigr do rewrite big_cons.
rewrite big_split /=; have -> : \sum_(i <- l) d i x = \sum_(y <- l) d x y by apply: eq_bigr => y _; exact: sy.
have num (a b c e : R) : 2%:R * a + (b - c) = e + a + (a + b) - (e + c) by mclra.
exact: num.
Qed.

End Pairs.

Lemma pairs_count n : \sum_(i < n) \sum_(j < n | (i < j)%N) (1 : R) = 'C(n, 2)%:R.
Proof.
have := pairs_sum_ord (fun _ _ : nat => 1) 0%N (nseq n 0%N); rewrite size_nseq => <-.
rewrite /pairs_sum -[n in RHS](size_nseq n 0%N) -(size_pair_distances (fun _ _ => 1) 0%N).
have : all (fun z : R => z == 1) (pair_distances (fun _ _ : nat => 1) 0%N (nseq n 0%N)).
  by elim: (n) => [|k IH] //=; rewrite pair_distances_cons all_cat IH andbT all_map; apply/allP => x _ /=; rewrite eqxx.
elim: (pair_distances _ _ _) => [|z l IH] /=; first by rewrite big_nil.
by case/andP=> /eqP -> /IH e; rewrite big_cons e -[in RHS]add1n natrD.
Qed.

Section Bounds.
Variables (A : Type) (d : A -> A -> R) (x0 : A) (l : seq A).
Let n := size l.
Lemma pairs_ge (m : R) : (forall i j, (i < j < n)%N -> m <= d (nth x0 l i) (nth x0 l j)) ->
  'C(n, 2)%:R * m <= pairs_sum d x0 l.
Proof.
move=> h; rewrite pairs_sum_ord -pairs_count mulr_suml; apply: ler_sum => i _.
rewrite mulr_suml; apply: ler_sum => j ij; rewrite mul1r; apply: h; by rewrite ij /=.
Qed.
Lemma pairs_le (m : R) : (forall i j, (i < j < n)%N -> d (nth x0 l i) (nth x0 l j) <= m) ->
  pairs_sum d x0 l <= 'C(n, 2)%:R * m.
Proof.
move=> h; rewrite pairs_sum_ord -pairs_count mulr_suml; apply: ler_sum => i _.
rewrite mulr_suml; apply: ler_sum => j ij; rewrite mul1r; apply: h; by rewrite ij /=.
Qed.
End Bounds.

Lemma two_bin n : (1 < n)%N -> (2%:R : R) / (n * (n - 1))%N%:R = ('C(n, 2)%:R)^-1.
Proof.
move=> n1; have e : (n * (n - 1) = 2 * 'C(n, 2))%N by have := bin_ffact n 2; rewrite ffactnS ffactn1 mulnC subn1 => <-; rewrite mulnC.
by rewrite e natrM invfM mulrA divff ?mul1r // pnatr_eq0.
Qed.
Lemma pair_meanE n distances : (1 < n)%N -> pair_mean n distances = Val ((\sum_(x <- distances) x) / 'C(n, 2)%:R).
Proof.
move=> n1; rewrite /pair_mean two_bin // mulrC ifF // muln_eq0 subn_eq0.
by apply/negbTE; rewrite negb_or -ltnNge n1 -lt0n (ltn_trans _ n1).
Qed.

(** two precisions with the same edges off the diagonal *)
Lemma graph_edgesE n (p q : 'M[R]_n) :
  (forall i j, i != j -> (p i j != 0) || (p j i != 0) = (q i j != 0) || (q j i != 0)) -> graph_edges p = graph_edges q.
Proof.
move=> h; apply: eq_filter => -[i j] /=; case: ltnP => //= ij.
have nij : i != j by apply: contraTneq ij => ->; rewrite ltnn.
have nji : j != i by rewrite eq_sym.
by rewrite !mxE (negbTE nij) (negbTE nji) !mulr0n !subr0 h.
Qed.
Lemma graph_edgesP n (p : 'M[R]_n) (i j : 'I_n) :
  ((i, j) \in graph_edges p) = (i < j)%N && ((p i j != 0) || (p j i != 0)).
Proof.
rewrite mem_filter mem_enum andbT /=; case: ltnP => //= ij.
have nij : i != j by apply: contraTneq ij => ->; rewrite ltnn.
have nji : j != i by rewrite eq_sym.
by rewrite !mxE (negbTE nij) (negbTE nji) !mulr0n !subr0.
Qed.
