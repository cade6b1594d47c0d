(** Proofs about the labels and the blocks of the TICC data sets. *)
From Coq Require Import Reals.
From mathcomp Require Import all_ssreflect all_algebra.
From Verif Require Import RStruct RTac NP S_Mat M_Utils M_Ising M_Gauss M_Ticc.
Import Order.TTheory GRing.Theory Num.Theory.

Set Implicit Arguments.
Unset Strict Implicit.
Unset Printing Implicit Defensive.
Local Open Scope ring_scope.

Lemma size_np_repeat A (xs : seq A) m : size (np_repeat xs m) = (size xs * m)%N.
Proof. by elim: xs => [|x xs IH] //; rewrite /np_repeat /= size_cat size_nseq -/(np_repeat xs m) IH mulSn. Qed.
Lemma nth_np_repeat A (x0 : A) xs m i : (i < size xs * m)%N -> nth x0 (np_repeat xs m) i = nth x0 xs (i %/ m).
Proof.
elim: xs i => [|x xs IH] i /=; first by rewrite mul0n.
rewrite mulSn /np_repeat /= nth_cat size_nseq nth_nseq -/(np_repeat xs m).
have [im _|mi il] := ltnP i m; first by rewrite divn_small.
have m0 : (0 < m)%N by case: m mi il IH => // _; rewrite add0n muln0.
rewrite IH; last by rewrite -(ltn_add2l m) subnKC.
by rewrite -{2}(subnK mi) divnDr ?dvdnn // divnn m0 addn1.
Qed.

Definition cluster_ixs (y : seq nat) c := [seq i <- iota 0 (size y) | nth 0%N y i == c].
Lemma groupsE id y cs : groups id y cs =
  if all (fun c => size (undup [seq nth 0%N id i | i <- cluster_ixs y c]) == 1%N) cs
  then IOk [seq head 0%N [seq nth 0%N id i | i <- cluster_ixs y c] | c <- cs] else IRaise IAssertionError.
Proof.
elim: cs => [|c cs IH] //=; rewrite -/(cluster_ixs y c) IH.
by case: (size _ == 1%N) => //=; case: (all _ _).
Qed.
Lemma undup1 (l : seq nat) x : x \in l -> (size (undup l) == 1%N) = all (fun z => z == x) l.
Proof.
move=> xl; apply/idP/idP => h.
  apply/allP => z zl; move: h; case e: (undup l) => [|u [|]] // _.
  have : z \in [:: u] by rewrite -e mem_undup.
  have : x \in [:: u] by rewrite -e mem_undup.
  by rewrite !inE => /eqP -> /eqP ->.
have sub : {subset undup l <= [:: x]} by move=> z; rewrite mem_undup inE => zl; exact: (allP h).
have := uniq_leq_size (undup_uniq l) sub; rewrite /= => le1.
have : (0 < size (undup l))%N by rewrite -has_predT; apply/hasP; exists x; rewrite ?mem_undup.
by case: (size _) le1 => [|[|]].
Qed.

Section Labels.
Variables (T q : nat).
Hypothesis q0 : (0 < q)%N.
Let y := np_repeat (iota 0 T) q.
Lemma size_y : size y = (T * q)%N. Proof. by rewrite size_np_repeat size_iota. Qed.
Lemma divq i : (i < T * q)%N -> (i %/ q < T)%N. Proof. by move=> il; rewrite ltn_divLR. Qed.
Lemma nth_y i : (i < T * q)%N -> nth 0%N y i = (i %/ q)%N.
Proof. by move=> il; rewrite nth_np_repeat ?size_iota // nth_iota // divq. Qed.
Lemma uniq_y : sort leq (undup y) = iota 0 T.
Proof.
apply: (sorted_eq leq_trans anti_leq); [exact: sort_sorted leq_total _ | exact: iota_sorted |].
rewrite perm_sort; apply: uniq_perm; rewrite ?undup_uniq ?iota_uniq // => t.
rewrite mem_undup mem_iota add0n leq0n; apply/(nthP 0%N)/idP => [[i il <-]|tT].
  by rewrite size_y in il; rewrite nth_y // divq.
exists (t * q)%N; first by rewrite size_y ltn_mul2r q0.
by rewrite nth_y ?mulnK // ltn_mul2r q0.
Qed.
Lemma mem_ixs i c : (i \in cluster_ixs y c) = (i < T * q)%N && (i %/ q == c)%N.
Proof.
rewrite mem_filter mem_iota add0n leq0n size_y andbC; case il: (i < T * q)%N => //=.
by rewrite nth_y.
Qed.
Lemma head_ixs id c : (c < T)%N -> head 0%N [seq nth 0%N id i | i <- cluster_ixs y c] \in [seq nth 0%N id i | i <- cluster_ixs y c].
Proof.
move=> cT; have : (c * q)%N \in cluster_ixs y c by rewrite mem_ixs ltn_mul2r q0 cT mulnK ?eqxx.
by case: (cluster_ixs y c) => // a l _; rewrite /= mem_head.
Qed.
Lemma group_labelsE id : group_labels id y =
  if all (fun c => all (fun i => nth 0%N id i == head 0%N [seq nth 0%N id i | i <- cluster_ixs y c]) (cluster_ixs y c)) (iota 0 T)
  then IOk [seq head 0%N [seq nth 0%N id i | i <- cluster_ixs y c] | c <- iota 0 T] else IRaise IAssertionError.
Proof.
rewrite /group_labels uniq_y groupsE; congr (if _ then _ else _); apply: eq_in_all => c.
by rewrite mem_iota add0n => /andP[_ cT]; rewrite (undup1 (head_ixs id cT)) all_map.
Qed.
Lemma group_ok id g : group_labels id y = IOk g ->
  size g = T /\ forall i, (i < T * q)%N -> nth 0%N g (i %/ q) = nth 0%N id i.
Proof.
rewrite group_labelsE; case: ifP => // h [<-]; split; first by rewrite size_map size_iota.
move=> i il; rewrite (nth_map 0%N) ?size_iota ?divq // nth_iota ?divq // add0n.
have ct : (i %/ q)%N \in iota 0 T by rewrite mem_iota divq.
have ii : i \in cluster_ixs y (i %/ q)%N by rewrite mem_ixs il eqxx.
by have /eqP := allP (allP h _ ct) _ ii.
Qed.
Lemma group_iff id : (exists g, group_labels id y = IOk g) <->
  (forall i j, (i < T * q)%N -> (j < T * q)%N -> (i %/ q = j %/ q)%N -> nth 0%N id i = nth 0%N id j).
Proof.
split=> [[g e] i j il jl ij|h]; first by have [_ f] := group_ok e; rewrite -!f // ij.
eexists; rewrite group_labelsE ifT //; apply/allP => c; rewrite mem_iota add0n => /andP[_ cT].
apply/allP => i ii; apply/eqP.
have /mapP[j jj ->] := head_ixs id cT.
by move: ii jj; rewrite !mem_ixs => /andP[il /eqP ic] /andP[jl /eqP jc]; apply: h => //; rewrite ic jc.
Qed.
Lemma group_fail id : ~ (exists g, group_labels id y = IOk g) -> group_labels id y = IRaise IAssertionError.
Proof. by rewrite group_labelsE; case: ifP => // _ h; case: h; eexists. Qed.
End Labels.

(** * the random blocks *)
Section Blocks.
Variable n : nat.
Lemma genInvCov_sym edges v : sym (@genInvCov n edges v true).
Proof. by rewrite /genInvCov /sym linearD /= trmxK addrC. Qed.
Variables (edges : seq ('I_n * 'I_n)) (v : 'I_n * 'I_n -> R).
Hypotheses (eu : uniq edges) (eo : forall i j, (i, j) \in edges -> (j, i) \notin edges) (v0 : forall x, v x != 0).
Let S := genInvCov edges v true.
Lemma gen_noloop i : (i, i) \notin edges.
Proof. by apply/negP => h; have := eo h; rewrite h. Qed.
Lemma genE i j : S i j = if (i, j) \in edges then v (i, j) else if (j, i) \in edges then v (j, i) else 0.
Proof.
rewrite !mxE; case e: ((i, j) \in edges); first by rewrite (negbTE (eo e)) addr0.
by rewrite add0r; case: ifP.
Qed.
Lemma gen_nnz : #|[set x : 'I_n * 'I_n | S x.1 x.2 != 0]| = (2 * size edges)%N.
Proof.
have -> : [set x : 'I_n * 'I_n | S x.1 x.2 != 0] = [set x | x \in edges] :|: [set x | (x.2, x.1) \in edges].
  apply/setP => -[i j]; rewrite !inE genE /=.
  by case: ((i, j) \in edges); [rewrite v0 | case: ((j, i) \in edges); [rewrite v0 | rewrite eqxx]].
have ce : #|[set x | x \in edges]| = size edges by rewrite cardsE; move/card_uniqP: eu.
have sw : [set x : 'I_n * 'I_n | (x.2, x.1) \in edges] = (fun x => (x.2, x.1)) @: [set x | x \in edges].
  apply/setP => -[i j]; rewrite inE; apply/idP/imsetP => [h|[[a b]]]; first by exists (j, i); rewrite ?inE.
  by rewrite inE => h [-> ->].
rewrite cardsU sw card_imset; last by move=> [a b] [c d] [-> ->].
rewrite ce -sw; have -> : [set x | x \in edges] :&: [set x : 'I_n * 'I_n | (x.2, x.1) \in edges] = set0.
  by apply/setP => -[i j]; rewrite !inE /=; case e: ((i, j) \in edges) => //=; rewrite (negbTE (eo e)).
by rewrite cards0 subn0 addnn mul2n.
Qed.
End Blocks.
Lemma entry_range low upper bit u : 0 < low -> low <= upper -> 0 <= u -> u < 1 ->
  let e := entry_value low upper bit u in low <= `|e| /\ `|e| <= upper.
Proof.
move=> h1 h2 h3 h4 e.
have ee : `|e| = low + (upper - low) * u.
  have num (b : bool) (z : R) : 0 <= z -> `|((if b then 1 else 0) - 1 / 2%:R) * 2%:R * z| = z.
    move=> z0; case: b.
      have -> : (1 - 1 / 2%:R) * 2%:R * z = z :> R by mclra.
      exact: ger0_norm.
    have -> : (0 - 1 / 2%:R) * 2%:R * z = - z :> R by mclra.
    by rewrite normrN ger0_norm.
  apply: num; have num' (l' u' r : R) : 0 < l' -> l' <= u' -> 0 <= r -> 0 <= l' + (u' - l') * r.
    by move=> a b c; rewrite addr_ge0 ?(ltW a) // mulr_ge0 // subr_ge0.
  exact: num'.
rewrite ee; split.
  by rewrite ler_addl mulr_ge0 // subr_ge0.
have num (l' u' r : R) : l' <= u' -> r < 1 -> l' + (u' - l') * r <= u'.
  move=> a c; have : (u' - l') * r <= (u' - l') * 1 by apply: ler_wpmul2l; [rewrite subr_ge0 | exact: ltW].
  by rewrite mulr1; set z := (u' - l') * r => h; mclra.
exact: num.
Qed.
