(** How the Meinshausen-Yuan generator chooses the neighbours of a node. *)
From Coq Require Import Reals.
From mathcomp Require Import all_ssreflect all_algebra.
From Verif Require Import RStruct NP M_Utils M_Ising M_Gauss.
Import Order.TTheory GRing.Theory Num.Theory.

Set Implicit Arguments.
Unset Strict Implicit.
Unset Printing Implicit Defensive.
Local Open Scope ring_scope.

Section Fill.
Variables (p : nat) (ix : 'I_p -> seq 'I_p) (value : R).

Let f := fun (theta : 'M[R]_p) (i : 'I_p) => set_cross theta i (my_pick i (4 - nnz theta i) (ix i)) value.

Lemma my_pick_ge (i : 'I_p) b l : all (fun j : 'I_p => i <= j)%N (my_pick i b l).
Proof. elim: l b => [|j l IH] [|b] //=; case: ltnP => [_|h]; first exact: IH; rewrite /= h; exact: IH. Qed.
Lemma my_pick_size (i : 'I_p) b l : (size (my_pick i b l) <= b)%N.
Proof. by elim: l b => [|j l IH] [|b] //=; case: ltnP => [_|h]; apply: IH. Qed.
Lemma fill_later (l : seq 'I_p) A (i b : 'I_p) : all (fun k : 'I_p => i < k)%N l -> foldl f A l i b = A i b.
Proof.
elim: l A => [|k l IH] A //= /andP [ik al]; rewrite IH // mxE (negbTE (_ : i != k)) ?(ltn_eqF ik) //=; last by rewrite -val_eqE /= (ltn_eqF ik).
case: (i \in _) (allP (my_pick_ge k (4 - nnz A k) (ix k)) i) => [/(_ isT)|_]; last by rewrite andbF.
by rewrite leqNgt ik.
Qed.
Lemma fill_earlier (l : seq 'I_p) A (i b : 'I_p) : all (fun k : 'I_p => k < i)%N l -> (i <= b)%N -> foldl f A l i b = A i b.
Proof.
move=> al ib; elim: l A al => [|k l IH] A //= /andP [ik al]; rewrite IH // mxE (negbTE (_ : i != k)) /=; last by rewrite -val_eqE /= (gtn_eqF ik).
by rewrite (negbTE (_ : b != k)) //= -val_eqE /= gtn_eqF // (leq_trans ik).
Qed.
Lemma enum_split (i : 'I_p) : exists l l', [/\ enum 'I_p = l ++ i :: l', all (fun k : 'I_p => k < i)%N l & all (fun k : 'I_p => i < k)%N l'].
Proof.
exists (take i (enum 'I_p)), (drop i.+1 (enum 'I_p)).
have e : enum 'I_p = take i (enum 'I_p) ++ i :: drop i.+1 (enum 'I_p).
  by rewrite -[LHS](cat_take_drop i) (drop_nth i) ?size_enum_ord // nth_ord_enum.
split=> //.
  by apply/allP => k; rewrite in_take ?mem_enum // index_enum_ord.
apply/allP => k kd; rewrite ltnNge; apply/negP => ki.
have kt : k \in take i.+1 (enum 'I_p) by rewrite in_take ?mem_enum // index_enum_ord ltnS.
have := enum_uniq 'I_p; rewrite -(cat_take_drop i.+1 (enum 'I_p)) cat_uniq => /and3P [_ /hasPn /(_ k kd) /= + _]; by rewrite kt.
Qed.

(** before the pruning: the number of neighbours chosen by a node, and by a node that is its own first choice *)
Lemma fill_row (i : 'I_p) : let A := my_fill ix value in
  let earlier := #|[set j : 'I_p | (j < i)%N && (A i j != 0)]| in
  (#|[set j : 'I_p | (i <= j)%N && (A i j != 0%R)]| <= 4 - earlier)%N /\
  (ohead (ix i) = Some i -> (#|[set j : 'I_p | (i < j)%N && (A i j != 0%R)]| <= 3 - earlier)%N).
Proof.
move=> A earlier; have [l [l' [e al al']]] := enum_split i.
pose B := foldl f 0 l; pose pk := my_pick i (4 - nnz B i) (ix i).
have rowA b : A i b = f B i i b by rewrite /A /my_fill e foldl_cat /= -/f -/B fill_later.
have rowB (b : 'I_p) : (i <= b)%N -> B i b = 0 by move=> ib; rewrite /B fill_earlier // mxE.
have lo (b : 'I_p) : (b < i)%N -> A i b = B i b.
  move=> bi; rewrite rowA mxE eqxx /= (negbTE (_ : b != i)) ?orbF //=; last by rewrite -val_eqE /= (ltn_eqF bi).
  by case: ifP => // /(allP (my_pick_ge _ _ _)); rewrite leqNgt bi.
have hi (b : 'I_p) : (i <= b)%N -> A i b != 0 -> b \in pk.
  move=> ib; rewrite rowA mxE eqxx /= -/pk; case: ifP => [/orP [|/andP [/eqP ->]] //|_]; by rewrite rowB // eqxx.
have ne : nnz B i = earlier.
  apply: eq_card => b; rewrite !inE; case: (ltnP b i) => bi /=; [by rewrite lo|by rewrite rowB // eqxx].
have card_sub (P : pred 'I_p) (s : seq 'I_p) : (forall b, P b -> b \in s) -> (#|[set b | P b]| <= size s)%N.
  by move=> h; apply: leq_trans (card_size s); apply: subset_leq_card; apply/subsetP => b; rewrite inE => /h.
split.
  by rewrite -ne; apply: leq_trans (my_pick_size i _ (ix i)); apply: card_sub => b /andP [ib]; exact: hi.
case ei : (ix i) => [|i0 t] //= [e0]; rewrite {i0}e0 in ei; rewrite -ne.
case eb : (4 - nnz B i)%N => [|bud].
  rewrite (_ : (3 - nnz B i)%N = 0%N); last by apply/eqP; rewrite subn_eq0 ltnW // -subn_eq0 eb.
  by rewrite -[X in (_ <= X)%N]/(size (Nil 'I_p)); apply: card_sub => b /andP [ib /(hi b (ltnW ib))]; rewrite /pk eb ei.
have -> : (3 - nnz B i = bud)%N by have := congr1 predn eb; rewrite -subnS /= subSS.
apply: leq_trans (my_pick_size i bud t); apply: card_sub => b /andP [ib /(hi b (ltnW ib))].
by rewrite /pk eb ei /= ltnn inE (negbTE (_ : b != i)) //= -val_eqE /= (gtn_eqF ib).
Qed.
End Fill.

(** pruning and filling the diagonal only remove edges *)
Lemma prune_sub p shuffle (A : 'M[R]_p) i j : A i j = 0 -> my_prune shuffle A i j = 0.
Proof.
rewrite /my_prune; move: [seq i <- _ | _] => l; elim: l A => [|k l IH] A //= h; apply: IH; by rewrite mxE; case: ifP.
Qed.
