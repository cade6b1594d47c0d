(** Proofs about parameter ordering and StARS / G-StARS selection. *)
From Coq Require Import Reals Lra Lia String.
From mathcomp Require Import all_ssreflect all_algebra.
From Verif Require Import RStruct RTac NP Str M_Utils M_Stab P_Scores.
Import Order.TTheory GRing.Theory Num.Theory.

Set Implicit Arguments.
Unset Strict Implicit.
Unset Printing Implicit Defensive.
Local Open Scope ring_scope.

(** * dictionaries *)
Definition dict_get V (d : pydict V) (k : string) : option V :=
  ohead [seq kv.2 | kv <- d & kv.1 == k].
Section Dict.
Variable V : Type.
Implicit Types d : pydict V.
Lemma dict_get_set d k v k' : dict_get (dict_set d k v) k' = if k == k' then Some v else dict_get d k'.
Proof.
rewrite /dict_get; elim: d => [|[k0 v0] d IH] /=; first by case: eqP.
case: (altP (k0 =P k)) => [->|h] /=; first by case: eqP.
case: (altP (k0 =P k')) => [<-|h'] //=; by rewrite eq_sym (negbTE h).
Qed.
Lemma dict_get_cat d1 d2 k : dict_get (d1 ++ d2) k = if dict_get d1 k is Some v then Some v else dict_get d2 k.
Proof. by rewrite /dict_get filter_cat map_cat; case: [seq _ | _ <- d1 & _]. Qed.
Lemma dict_get_of (pairs : seq (string * V)) k : dict_get (dict_of pairs) k = dict_get (rev pairs) k.
Proof.
elim/last_ind: pairs => [|ps [k0 v0] IH] //.
rewrite /dict_of -cats1 foldl_cat /= -/(dict_of ps) dict_get_set IH rev_cat /=.
by rewrite -cat1s dict_get_cat {2}/dict_get /=; case: eqP.
Qed.
Lemma dict_set_new d k v : k \notin [seq kv.1 | kv <- d] -> dict_set d k v = rcons d (k, v).
Proof.
elim: d => [|[k0 v0] d IH] //=; rewrite inE negb_or => /andP[h1 h2].
by rewrite eq_sym (negbTE h1) IH.
Qed.
Lemma dict_of_uniq (pairs : seq (string * V)) : uniq [seq kv.1 | kv <- pairs] -> dict_of pairs = pairs.
Proof.
elim/last_ind: pairs => [|ps [k0 v0] IH] //.
rewrite map_rcons rcons_uniq => /andP[h1 h2].
by rewrite /dict_of -cats1 foldl_cat /= -/(dict_of ps) IH // dict_set_new // cats1.
Qed.
End Dict.

Lemma sort_desc_perm v : perm_eq (sort_desc v) v.
Proof. by rewrite /sort_desc perm_rev perm_sort. Qed.
Lemma sort_desc_sorted v : sorted (fun x y : R => x >= y) (sort_desc v).
Proof.
rewrite /sort_desc rev_sorted; apply: sort_sorted => x y; exact: le_total.
Qed.
Lemma param_order_one g : uniq [seq nv.1 | nv <- g] ->
  check_param_order (OneGrid g) = [seq (nv.1, sort_desc nv.2) | nv <- g].
Proof.
move=> h; rewrite /check_param_order /= cats0 dict_of_uniq // -map_comp.
by rewrite (eq_map (_ : _ =1 fst)).
Qed.
Lemma param_order_last gs g k v : dict_get (rev g) k = Some v ->
  dict_get (check_param_order (Grids (gs ++ [:: g]))) k = Some (sort_desc v).
Proof.
move=> h; rewrite /check_param_order dict_get_of map_cat flatten_cat /= cats0 rev_cat dict_get_cat.
have -> : dict_get (rev [seq (nv.1, sort_desc nv.2) | nv <- g]) k = omap sort_desc (dict_get (rev g) k).
  rewrite -map_rev /dict_get; elim: (rev g) => [|[k0 v0] l IH] //=.
  by case: (k0 == k).
by rewrite h.
Qed.

(** * ranks and argmin *)

Lemma dict_set_keys V (d : pydict V) k v : uniq [seq kv.1 | kv <- d] -> uniq [seq kv.1 | kv <- dict_set d k v].
Proof.
have mem d' x : (x \in [seq kv.1 | kv <- dict_set d' k v]) = (x == k) || (x \in [seq kv.1 | kv <- d']).
  elim: d' => [|kv d' IH] /=; first by rewrite !inE orbF.
  case: (kv.1 =P k) => [<-|_] /=; rewrite !inE; first by rewrite orbA orbb.
  by rewrite IH !orbA [_ || (x == k)]orbC.
elim: d => [|kv d IH] //= /andP[h1 h2]; case: (kv.1 =P k) => [<-|ne] /=; first by rewrite h1.
by rewrite IH // mem negb_or h1 !andbT; apply/eqP.
Qed.
Lemma dict_of_keys V (pairs : seq (string * V)) : uniq [seq kv.1 | kv <- dict_of pairs].
Proof.
rewrite /dict_of; have : uniq [seq kv.1 | kv <- ([::] : pydict V)] by [].
elim: pairs [::] => [|kv p IH] d hd //=; apply: IH; exact: dict_set_keys.
Qed.
Lemma dict_get_in (V : eqType) (d : pydict V) k v : uniq [seq kv.1 | kv <- d] -> (k, v) \in d -> dict_get d k = Some v.
Proof.
elim: d => [|[k' v'] d IH] //= /andP[h1 h2]; rewrite inE /dict_get /= => /orP[/eqP[-> ->]|hin].
  by rewrite eqxx.
case: (k' =P k) => [e|_]; last exact: IH.
by case/negP: h1; rewrite e; apply/mapP; exists (k, v).
Qed.
Lemma merged_last (g1 g2 : pydict (seq R)) k v1 v2 :
  uniq [seq nv.1 | nv <- g1] -> uniq [seq nv.1 | nv <- g2] ->
  (k, v1) \in g1 -> (k, v2) \in g2 ->
  forall v, (k, v) \in check_param_order (Grids [:: g1; g2]) -> v = sort_desc v2.
Proof.
move=> _ u2 _ h2 v hv.
have := @param_order_last [:: g1] g2 k v2; rewrite (dict_get_in (d := rev g2) (v := v2)).
- by move=> /(_ erefl); rewrite (dict_get_in (dict_of_keys _) hv) => -[].
- by rewrite map_rev rev_uniq.
- by rewrite mem_rev.
Qed.

Lemma argmin_fromP best besti i l d :
  let r := argmin_from best besti i l in
  let val j := if (j < i)%N then d j else nth 0%N l (j - i) in
  (besti < i)%N -> d besti = best -> (forall j, (j < i)%N -> (best <= d j)%N) ->
  (forall j, (j < besti)%N -> (best < d j)%N) ->
  [/\ (r < i + size l)%N, forall j, (j < i + size l)%N -> (val r <= val j)%N
    & forall j, (j < r)%N -> (val r < val j)%N].
Proof.
elim: l best besti i d => [|x l IH] best besti i d /= hb hd hm hf.
  rewrite addn0 hb hd; split=> // j hj; first by rewrite hj; apply: hm.
  by rewrite (ltn_trans hj hb); apply: hf.
pose d' j := if (j < i)%N then d j else x.
have valE j : (if (j < i.+1)%N then d' j else nth 0%N l (j - i.+1)) =
   (if (j < i)%N then d j else nth 0%N (x :: l) (j - i)).
  rewrite /d' ltnS; case: (ltngtP j i) => h //; last by rewrite h subnn.
  by rewrite -[(j - i)%N]prednK ?subn_gt0 // -subnS.
case: (ltnP x best) => hx.
- have := IH x i i.+1 d'.
  rewrite addSnnS => H; case: H => //.
  + by rewrite /d' ltnn.
  + move=> j; rewrite ltnS /d'; case: (ltngtP j i) => // h _.
    exact: leq_trans (ltnW hx) (hm j h).
  + by move=> j h; rewrite /d' h; apply: leq_trans hx (hm j h).
  move=> h1 h2 h3; split=> // j hj; rewrite -!valE; [exact: h2 | exact: h3].
- have := IH best besti i.+1 d'.
  rewrite addSnnS => H; case: H => //.
  + exact: ltnW.
  + by rewrite /d' hb.
  + by move=> j _; rewrite /d'; case: (ltnP j i) => // h; apply: hm.
  + by move=> j h; rewrite /d' (ltn_trans h hb); apply: hf.
  move=> h1 h2 h3; split=> // j hj; rewrite -!valE; [exact: h2 | exact: h3].
Qed.
Lemma argminP l : l <> [::] ->
  [/\ (argmin l < size l)%N, forall j, (j < size l)%N -> (nth 0 l (argmin l) <= nth 0 l j)%N
    & forall j, (j < argmin l)%N -> (nth 0 l (argmin l) < nth 0 l j)%N].
Proof.
case: l => // x l _; rewrite /argmin /=.
have := @argmin_fromP x 0 1 l (fun=> x); case=> //.
have E j : (if (j < 1)%N then x else nth 0%N l (j - 1)) = nth 0%N (x :: l) j.
  by case: j => //= j; rewrite subn1.
move=> h1 h2 h3; split=> // j hj; rewrite -!E; [exact: h2 | exact: h3].
Qed.

Definition notnan (x : xR) : bool := if x is NaN then false else true.
Lemma xltb_le_trans a b c : notnan b -> notnan c -> xltb a b -> ~~ xltb c b -> xltb a c.
Proof.
case: a b c => [a|||] [b|||] [c|||] //= _ _; rewrite -leNgt; exact: lt_le_trans.
Qed.
Lemma xltb_irr a : xltb a a = false. Proof. by case: a => //= a; rewrite ltxx. Qed.
Section Rank.
Variable xs : seq xR.
Hypothesis nn : all notnan xs.
Let x j := nth NaN xs j.
Let xnn j : (j < size xs)%N -> notnan (x j). Proof. by move=> h; apply: (all_nthP NaN nn). Qed.
Lemma rank_lt i j : (i < size xs)%N -> (j < size xs)%N ->
  (nth 0 (rank_min xs) i < nth 0 (rank_min xs) j)%N = xltb (x i) (x j).
Proof.
move=> hi hj; rewrite !(nth_map NaN) // ltnS; apply/idP/idP => [|h].
  apply: contraLR => h; rewrite -leqNgt; apply: sub_count => y hy.
  by apply: (xltb_le_trans _ _ hy) => //; exact: xnn.
have sub : subpred (fun y => xltb y (x i)) (fun y => xltb y (x j)).
  move=> y hy; apply: (@xltb_le_trans y (x i) (x j)) => //; try exact: xnn.
  by case: (x i) (x j) h => [a|||] [b|||] //= h; rewrite -leNgt ltW.
have ce (P : pred xR) : count P xs = (count P (take i xs) + (P (x i) + count P (drop i.+1 xs)))%N.
  by rewrite -[in LHS](cat_take_drop i xs) (drop_nth NaN hi) count_cat.
rewrite !ce h xltb_irr.
by rewrite add0n add1n addnS ltnS; apply: leq_add; apply: sub_count.
Qed.
Lemma argmin_rank : xs <> [::] -> let k := argmin (rank_min xs) in
  [/\ (k < size xs)%N, forall j, (j < size xs)%N -> ~~ xltb (x j) (x k)
    & forall j, (j < k)%N -> xltb (x k) (x j)].
Proof.
move=> h k; have : rank_min xs <> [::] by case: xs h.
move/argminP; rewrite size_map -/k => -[h1 h2 h3]; split=> // j hj.
  by rewrite -rank_lt // -leqNgt; apply: h2.
by rewrite -rank_lt //; [exact: h3 | exact: ltn_trans hj h1].
Qed.
End Rank.

(** * StARS *)
Lemma size_monotonize raw : raw <> [::] -> size (monotonize raw) = size raw.
Proof. by case: raw => // x raw _; rewrite /= size_map size_iota. Qed.
Lemma nth_monotonize raw i : (0 < i < size raw)%N ->
  nth 0 (monotonize raw) i = np_amax (head 0 raw) (take i raw).
Proof.
case: raw i => [|x raw] [|i] //= hi; rewrite (nth_map 0%N) ?size_iota // nth_iota //.
Qed.
Lemma monotonize0 raw : nth 0 (monotonize raw) 0 = head 0 raw. Proof. by []. Qed.
(** entry i > 0 is the largest of the first i raw values *)
Lemma monotonize_max raw i : (0 < i < size raw)%N ->
  (forall j, (j < i)%N -> nth 0 raw j <= nth 0 (monotonize raw) i) /\
  (exists2 j, (j < i)%N & nth 0 (monotonize raw) i = nth 0 raw j).
Proof.
move=> hi; rewrite nth_monotonize //; case/andP: hi => i0 hi.
have hs : size (take i raw) = i by rewrite size_takel // ltnW.
rewrite /np_amax; have [_ h2] := np_max_lub (take i raw) (head 0 raw).
have h3 := np_max_in (take i raw) (head 0 raw).
split=> [j hj|].
  by apply: h2; rewrite -(nth_take 0 hj) mem_nth // hs.
have : foldl np_max (head 0 raw) (take i raw) \in take i raw.
  move: h3; rewrite inE => /orP[/eqP ->|//].
  by move: hi {hs h2}; case: (raw) i0; case: (i) => [|i'] //= x r _ _; rewrite in_cons eqxx.
by case/(nthP 0) => j; rewrite hs => hj <-; exists j => //; rewrite nth_take.
Qed.
Lemma monotonize_nondecr raw i j : (i <= j < size raw)%N -> nth 0 (monotonize raw) i <= nth 0 (monotonize raw) j.
Proof.
case/andP=> hij hj; case: i hij => [|i] hij.
  case: j hij hj => [|j] _ hj //; rewrite monotonize0 -nth0.
  have hj' : (0 < j.+1 < size raw)%N by [].
  by have [h _] := monotonize_max hj'; apply: h.
have hi' : (0 < i.+1 < size raw)%N by rewrite (leq_ltn_trans hij).
have hj' : (0 < j < size raw)%N by rewrite hj (leq_trans _ hij).
have [_ [a ha ->]] := monotonize_max hi'; have [h _] := monotonize_max hj'.
by apply: h; apply: leq_trans hij.
Qed.
Section Stars.
Variable raw : seq R.
Hypothesis raw0 : raw <> [::].
Let m := monotonize raw.
Let k := (stars_select raw).1.
Let c20 : R := 1 / 20%:R.
Let xs := [seq xneg y | y <- [seq discard y | y <- m]].
Let sx : size xs = size raw. Proof. by rewrite !size_map size_monotonize. Qed.
Let xE j : (j < size raw)%N -> nth NaN xs j = xneg (discard (nth 0 m j)).
Proof.
move=> h; rewrite (nth_map NaN); last by rewrite size_map size_monotonize.
by rewrite (nth_map 0) // size_monotonize.
Qed.
Let nnx : all notnan xs.
Proof.
apply/(all_nthP NaN) => j; rewrite sx => h; rewrite xE // /discard; by case: ifP.
Qed.
Let xs0 : xs <> [::]. Proof. by move=> h; have := sx; rewrite h; case: raw raw0. Qed.
Lemma stars_score : (stars_select raw).2 = discard (nth 0 m k).
Proof.
have -> : (stars_select raw).2 = nth NaN [seq discard y | y <- m] k by [].
rewrite (nth_map 0) // size_monotonize // -sx.
by have [] := argmin_rank nnx xs0.
Qed.
Lemma stars_low : head 0 raw <= c20 ->
  [/\ (k < size raw)%N, nth 0 m k <= c20,
      forall j, (j < size raw)%N -> nth 0 m j <= c20 -> nth 0 m j <= nth 0 m k,
      forall j, (j < k)%N -> nth 0 m j < nth 0 m k
    & (stars_select raw).2 = Fin (nth 0 m k)].
Proof.
move=> h; rewrite stars_score; have [h1 h2 h3] := argmin_rank nnx xs0.
rewrite -/k sx in h1 h2 h3.
have s0 : (0 < size raw)%N by case: raw raw0.
have ok j : (nth 0 m j <= c20) -> discard (nth 0 m j) = Fin (nth 0 m j) by rewrite /discard leNgt => /negbTE ->.
have h4 : nth 0 m k <= c20.
  rewrite leNgt; apply/negP => h5; have := h2 0%N s0; rewrite !xE // ok; last by rewrite /m monotonize0.
  by rewrite /discard h5.
split=> //; last exact: ok.
  move=> j hj h5; have := h2 j hj; rewrite !xE // !ok //= -leNgt ler_opp2 //.
move=> j hj; have hj' := ltn_trans hj h1; have := h3 j hj; rewrite !xE // (ok k) // /discard.
case: ifP => [h5 _|_ /=]; last by rewrite ltr_opp2.
have : nth 0 m j <= nth 0 m k by apply: monotonize_nondecr; rewrite h1 (ltnW hj).
by move=> h6; have := le_trans h6 h4; rewrite leNgt h5.
Qed.
Lemma stars_high : c20 < head 0 raw -> k = 0%N /\ (stars_select raw).2 = NInf.
Proof.
move=> h; have [h1 h2 h3] := argmin_rank nnx xs0; rewrite sx -/k in h1 h2 h3.
have all_bad j : (j < size raw)%N -> discard (nth 0 m j) = NInf.
  move=> hj; rewrite /discard; case: ifP => // /negbT; rewrite -leNgt => h4.
  have : nth 0 m 0 <= nth 0 m j by apply: monotonize_nondecr.
  by rewrite /m monotonize0 => h5; have := le_trans h5 h4; rewrite leNgt h.
rewrite stars_score all_bad //; split=> //.
have s0 : (0 < size raw)%N by case: raw raw0.
apply/eqP; rewrite -leqn0 leqNgt; apply/negP => k0; have := h3 0%N k0.
by rewrite !xE // !all_bad.
Qed.
End Stars.
