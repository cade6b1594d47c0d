(** C201: display_topics. C202: the graph plots. *)
From Coq Require Import Reals.
From mathcomp Require Import all_ssreflect all_algebra.
From Verif Require Import RStruct RTac M_Utils M_Display.
Import Order.TTheory GRing.Theory Num.Theory.

Set Implicit Arguments.
Unset Strict Implicit.
Unset Printing Implicit Defensive.
Local Open Scope ring_scope.

(** specification: argsort lists the indices by increasing value *)
Definition argsort_ok (argsort : seq R -> seq nat) : Prop :=
  forall l, perm_eq (argsort l) (iota 0 (size l)) /\ sorted (fun i j => nth 0 l i <= nth 0 l j) (argsort l).
(** [ws] are [k] names of largest weight, by decreasing weight: each comes from a position of its own, and no other position has a larger weight *)
Definition top_words Name (names : seq Name) (weights : seq R) (k : nat) (ws : seq (Name * R)) : Prop :=
  exists idx : seq nat, [/\ uniq idx, (forall i, i \in idx -> (i < size weights)%N),
    size idx = k /\ ws = [seq (x.1, nth 0 weights x.2) | x <- zip (unzip1 ws) idx],
    (forall d m, (m < k)%N -> nth d (unzip1 ws) m = nth d names (nth 0%N idx m)) &
    sorted >=%O (unzip2 ws) /\ forall i j, i \in idx -> (j < size weights)%N -> j \notin idx -> nth 0 weights j <= nth 0 weights i].

Lemma slice_backE T (l : seq T) (n : nat) : slice_back l (- n%:Z - 1) = take n (rev l).
Proof.
rewrite /slice_back; have -> : (- n%:Z - 1 < 0 :> int) = true by rewrite -opprD oppr_lt0; apply/idP; rewrite -PoszD ltz_nat addn1.
case: (leqP (size l) n) => h.
  rewrite max_l; last by rewrite addrA ger_addr subr_le0 lez_nat.
  by rewrite opprK subrK absz_nat !take_oversize // size_rev.
rewrite max_r; last by rewrite addrA ler_addr subr_ge0 lez_nat ltnW.
by congr take; rewrite -[RHS]absz_nat; congr absz; apply/eqP; rewrite subr_eq addrCA [n%:Z + _]addrA subrr add0r.
Qed.

Lemma words_spec Name (names : seq Name) (topic : seq R) l ws :
  (fix go (l : seq nat) : res (seq (Name * R)) :=
    if l is i :: l' then
      if drop i names is w :: _ then match go l' with Val r => Val ((w, nth 0 topic i) :: r) | Raise e => Raise e end else Raise IndexError
    else Val [::]) l = Val ws ->
  [/\ size ws = size l, unzip2 ws = [seq nth 0 topic i | i <- l] & forall d m, (m < size l)%N -> nth d (unzip1 ws) m = nth d names (nth 0%N l m)].
Proof.
elim: l ws => [|i l IH] ws; first by case=> <-.
case e: (drop i names) => [|w r] //; case e2: ((fix go (l : seq nat) := _) l) => [r'|] // [<-].
have [h1 h2 h3] := IH _ e2; split=> [||d [|m] hm] /=; rewrite ?h1 ?h2 //; last exact: h3.
by rewrite -[i]addn0 -nth_drop e.
Qed.
Lemma topic_words_top Name (names : seq Name) argsort n topic ws : argsort_ok argsort ->
  topic_words argsort names (Posz n) topic = Val ws -> top_words names topic (minn n (size topic)) ws.
Proof.
move=> /(_ topic) [pe so]; rewrite /topic_words slice_backE => /words_spec [s1 s2 s3].
set idx := take n _ in s1 s2 s3; have sz : size (argsort topic) = size topic by rewrite (perm_size pe) size_iota.
have si : size idx = minn n (size topic) by rewrite size_take_min size_rev sz.
have ua : uniq (argsort topic) by rewrite (perm_uniq pe) iota_uniq.
have uI : uniq idx by apply: take_uniq; rewrite rev_uniq.
exists idx; split=> //.
- by move=> i /mem_take; rewrite mem_rev (perm_mem pe) mem_iota.
- split=> //; move: s1 s2; clear; elim: ws idx => [|[w x] ws IH] [|i idx] //= [h1] [-> h2]; by rewrite -IH.
- by move=> d m hm; apply: s3; rewrite si.
have tr : transitive (fun i j : nat => nth 0 topic i <= nth 0 topic j) by move=> a b c; exact: le_trans.
have sr : sorted (fun i j : nat => nth 0 topic j <= nth 0 topic i) (rev (argsort topic)) by rewrite rev_sorted.
split.
  rewrite s2 sorted_map; apply: (@take_sorted _ _ n); exact: sr.
move=> i j hi hj nj; have tr' : transitive (fun i j : nat => nth 0 topic j <= nth 0 topic i) by move=> a b c h1 h2; exact: le_trans h2 h1.
have hj' : j \in drop n (rev (argsort topic)).
  have : j \in rev (argsort topic) by rewrite mem_rev (perm_mem pe) mem_iota.
  by rewrite -{1}(cat_take_drop n (rev (argsort topic))) mem_cat (negbTE nj).
move: sr; rewrite -{1}(cat_take_drop n (rev (argsort topic))) sorted_pairwise // pairwise_cat => /andP[/allrelP h _]; exact: h.
Qed.
(** the documents printed under a topic *)
Definition top_docs Doc (documents : seq Doc) (weights : seq R) (k : nat) (ds : seq Doc) : Prop :=
  exists idx : seq nat, [/\ uniq idx /\ size idx = k, (forall i, i \in idx -> (i < size weights)%N), size ds = k,
    (forall d m, (m < k)%N -> nth d ds m = nth d documents (nth 0%N idx m)) &
    sorted >=%O [seq nth 0 weights i | i <- idx] /\ forall i j, i \in idx -> (j < size weights)%N -> j \notin idx -> nth 0 weights j <= nth 0 weights i].
Lemma docs_spec Doc (documents : seq Doc) l ds :
  (fix go (l : seq nat) : res (seq Doc) :=
    if l is i :: l' then
      if drop i documents is d :: _ then match go l' with Val r => Val (d :: r) | Raise e => Raise e end else Raise IndexError
    else Val [::]) l = Val ds ->
  size ds = size l /\ forall d m, (m < size l)%N -> nth d ds m = nth d documents (nth 0%N l m).
Proof.
elim: l ds => [|i l IH] ds; first by case=> <-.
case e: (drop i documents) => [|w r] //; case e2: ((fix go (l : seq nat) := _) l) => [r'|] // [<-].
have [h1 h3] := IH _ e2; split=> [|d [|m] hm] /=; rewrite ?h1 //; last exact: h3.
by rewrite -[i]addn0 -nth_drop e.
Qed.
Lemma docs_top Doc (documents : seq Doc) argsort W n k ds : argsort_ok argsort -> top_documents argsort W documents (Posz n) true k = Val ds ->
  (k < size W)%N /\ top_docs documents (nth [::] W k) (minn n (size (nth [::] W k))) ds.
Proof.
rewrite /top_documents; case: leqP => // hk /(_ (nth [::] W k)) [pe so] /docs_spec; set w := nth [::] W k in pe so *; set idx := take n _ => -[s1 s3].
split=> //; have sz : size (argsort w) = size w by rewrite (perm_size pe) size_iota.
have si : size idx = minn n (size w) by rewrite size_take_min size_rev sz.
have ua : uniq (argsort w) by rewrite (perm_uniq pe) iota_uniq.
have sr : sorted (fun i j : nat => nth 0 w j <= nth 0 w i) (rev (argsort w)) by rewrite rev_sorted.
exists idx; split; rewrite ?s1 //; try by split=> //; apply: take_uniq; rewrite rev_uniq.
- by move=> i /mem_take; rewrite mem_rev (perm_mem pe) mem_iota.
- by move=> d m hm; apply: s3; rewrite si.
split; first by rewrite sorted_map; apply: (@take_sorted _ _ n); exact: sr.
move=> i j hi hj nj; have tr' : transitive (fun i j : nat => nth 0 w j <= nth 0 w i) by move=> a b c h1 h2; exact: le_trans h2 h1.
have hj' : j \in drop n (rev (argsort w)).
  have : j \in rev (argsort w) by rewrite mem_rev (perm_mem pe) mem_iota.
  by rewrite -{1}(cat_take_drop n (rev (argsort w))) mem_cat (negbTE nj).
move: sr; rewrite -{1}(cat_take_drop n (rev (argsort w))) sorted_pairwise // pairwise_cat => /andP[/allrelP h _]; exact: h.
Qed.

(** C201: each topic lists its n_top_words names of largest weight by decreasing weight (all of them when there are fewer), and with print_docs the
    documents of largest weight in its column are printed *)
Theorem C201_topics Name Doc (argsort : seq R -> seq nat) H W (names : seq Name) (documents : seq Doc) n m print_docs r : argsort_ok argsort ->
  display_topics argsort H W names documents (Posz n) (Posz m) print_docs = Val r ->
  size r = size H /\ forall k x, (k < size H)%N ->
    top_words names (nth [::] H k) (minn n (size (nth [::] H k))) (nth x r k).1 /\
    (if print_docs then top_docs documents (nth [::] W k) (minn m (size (nth [::] W k))) (nth x r k).2 else (nth x r k).2 = [::]).
Proof.
move=> ok; suff gen i : topics_from argsort i H W names documents (Posz n) (Posz m) print_docs = Val r ->
  size r = size H /\ forall k x, (k < size H)%N ->
    top_words names (nth [::] H k) (minn n (size (nth [::] H k))) (nth x r k).1 /\
    (if print_docs then top_docs documents (nth [::] W (i + k)) (minn m (size (nth [::] W (i + k)))) (nth x r k).2 else (nth x r k).2 = [::]) by exact: gen.
elim: H i r => [|t H IH] i r /=; first by case=> <-.
case e1: (topic_words _ _ _ _) => [ws|] //; case e2: (top_documents _ _ _ _ _ _) => [ds|] //; case e3: (topics_from _ _ _ _ _ _ _ _ _) => [r'|] // [<-].
have [s h] := IH _ _ e3; split=> [|[|k] x hk] /=; first by rewrite s.
  rewrite addn0; split; first exact: topic_words_top e1.
  case: (print_docs) e2 => [/docs_top []|] //; rewrite /top_documents; case: ifP => // _ [<-] //.
by rewrite addnS -addSn; exact: h.
Qed.
Print Assumptions C201_topics.
(** it raises nothing when there is a name for every word, a column for every topic and, if they are printed, a document for every row *)
Theorem C201_total Name Doc (argsort : seq R -> seq nat) H W (names : seq Name) (documents : seq Doc) n m (print_docs : bool) : argsort_ok argsort ->
  (forall t, t \in H -> (size t <= size names)%N) -> (size H <= size W)%N -> (print_docs -> forall w, w \in W -> (size w <= size documents)%N) ->
  exists r, display_topics argsort H W names documents n m print_docs = Val r.
Proof.
move=> ok hn; suff gen i : (i + size H <= size W)%N -> (print_docs -> forall w, w \in W -> (size w <= size documents)%N) ->
  exists r, topics_from argsort i H W names documents n m print_docs = Val r by move=> hw hd; exact: (gen 0%N hw hd).
have mem_as l i0 : i0 \in argsort l -> (i0 < size l)%N by have [pe _] := ok l; rewrite (perm_mem pe) mem_iota.
elim: H i hn => [|t H IH] i hn hw hd /=; first by exists [::].
have [ws ->] : exists ws, topic_words argsort names n t = Val ws.
  rewrite /topic_words; have : {in slice_back (argsort t) (- n - 1), forall j, (j < size names)%N}.
    by move=> j /mem_take; rewrite mem_rev => /mem_as h; apply: leq_trans h (hn _ (mem_head _ _)).
  elim: (slice_back _ _) => [|j l IHl] hl; first by eexists.
  have [|r ->] := IHl; first by move=> x hx; apply: hl; rewrite inE hx orbT.
  have := hl j (mem_head _ _); case e: (drop j names) => [|w r0]; last by eexists.
  by move/(congr1 size): e; rewrite size_drop => /eqP; rewrite subn_eq0 leqNgt => /negbTE ->.
have hi : (i < size W)%N by apply: leq_trans hw; rewrite /= addnS ltnS leq_addr.
have [ds ->] : exists ds, top_documents argsort W documents m print_docs i = Val ds.
  rewrite /top_documents leqNgt hi /=; case: (print_docs) hd => [/(_ isT) hd|_]; last by eexists.
  set idx := take _ _; have : {in idx, forall j, (j < size documents)%N}.
    by move=> j /mem_take; rewrite mem_rev => /mem_as h; apply: leq_trans h (hd _ (mem_nth _ hi)).
  elim: idx => [|j l IHl] hl; first by eexists.
  have [|r ->] := IHl; first by move=> x hx; apply: hl; rewrite inE hx orbT.
  have := hl j (mem_head _ _); case e: (drop j documents) => [|w r0]; last by eexists.
  by move/(congr1 size): e; rewrite size_drop => /eqP; rewrite subn_eq0 leqNgt => /negbTE ->.
have hn' : forall x, x \in H -> (size x <= size names)%N by move=> x hx; apply: hn; rewrite inE hx orbT.
have hw' : (i.+1 + size H <= size W)%N by rewrite addSnnS.
by have [r ->] := IH i.+1 hn' hw' hd; eexists.
Qed.
Print Assumptions C201_total.
(** and there is no result without a column for every topic *)
Theorem C201_columns Name Doc (argsort : seq R -> seq nat) H W (names : seq Name) (documents : seq Doc) n m (print_docs : bool) r :
  display_topics argsort H W names documents n m print_docs = Val r -> (size H <= size W)%N.
Proof.
suff gen i : topics_from argsort i H W names documents n m print_docs = Val r -> (i <= size W)%N -> (i + size H <= size W)%N by move=> h; exact: (gen 0%N h).
elim: H i r => [|t H IH] i r /=; first by rewrite addn0.
case: (topic_words _ _ _ _) => // ws; rewrite /top_documents; case: (leqP (size W) i) => // hi.
set ds := (if print_docs then _ else _); case: ds => // ds; case e: (topics_from _ _ _ _ _ _ _ _ _) => [r'|] // _ _.
by rewrite addnS -addSn; exact: IH e hi.
Qed.
Print Assumptions C201_columns.
(** a case: numpy's argsort exists (a sort of the indices), and two topics over three words *)
Example C201_case : exists argsort r, argsort_ok argsort /\
  display_topics argsort [:: [:: 1; 3%:R; 2%:R]; [:: 0; 1; 0]] [:: [:: 1; 2%:R]; [:: 2%:R; 1]] [:: 10; 11; 12]%N [:: true; false] 2 1 true = Val r.
Proof.
exists (fun l => sort (fun i j => nth 0 l i <= nth 0 l j) (iota 0 (size l))).
have ok : argsort_ok (fun l => sort (fun i j => nth 0 l i <= nth 0 l j) (iota 0 (size l))).
  by move=> l; split; [rewrite perm_sort | apply: sort_sorted => i j; exact: le_total].
have [|||r e] := @C201_total nat bool _ [:: [:: 1; 3%:R; 2%:R]; [:: 0; 1; 0]] [:: [:: 1; 2%:R]; [:: 2%:R; 1]] [:: 10; 11; 12]%N [:: true; false] 2 1 true ok.
- by move=> t; rewrite !inE => /orP[] /eqP ->.
- by [].
- by move=> _ t; rewrite !inE => /orP[] /eqP ->.
by exists r.
Qed.

(** * C202 *)
(** the colour seen at a node: that of the last disc drawn there *)
Definition seen (p : graph_plot) (v : nat) : option colour := if [seq d.2 | d <- rev (discs p) & d.1 == v] is c :: _ then Some c else None.
(** Refuted: latent variables are drawn in red, but every node is drawn over it in blue: what is seen does not depend on n_latents (nor on n_observed) *)
Theorem C202_latents_hidden_refuted n (A : 'M[R]_n) n_observed n_latents : (n_latents <= n)%N ->
  exists p, plot_graph A n_observed n_latents = Val p /\ forall v, seen p v = if (v < n)%N then Some Blue else None.
Proof.
move=> h; rewrite /plot_graph ltnNge h /=; eexists; split; first reflexivity.
move=> v; rewrite /seen /= rev_cat filter_cat map_cat -!map_rev.
have one m c : [seq d.2 | d <- [seq (v0, c) | v0 <- rev (iota 0 m)] & d.1 == v] = if (v < m)%N then [:: c : colour] else [::].
  rewrite filter_map -map_comp /=; have u : uniq (rev (iota 0 m)) by rewrite rev_uniq iota_uniq.
  have -> : [seq x <- rev (iota 0 m) | preim (fun v0 => (v0, c)) (fun d : nat * colour => d.1 == v) x] = [seq x <- rev (iota 0 m) | pred1 v x] by [].
  case: ifP => hv; first by rewrite (filter_pred1_uniq u) // mem_rev mem_iota.
  rewrite (_ : [seq x <- _ | _] = [::]) //; apply/eqP; rewrite -[_ == _]negbK -has_filter; apply/hasPn => x.
  by rewrite mem_rev mem_iota /= => hx; apply: contraFN hv => /eqP <-.
rewrite !one; case: ifP => // hv; case: ifP => // hv'.
by move: (leq_trans hv' h); rewrite hv.
Qed.
Print Assumptions C202_latents_hidden_refuted.
(** the lines are the edges: one for each pair with a nonzero entry on either side *)
Theorem C202_edges n (A : 'M[R]_n) n_observed n_latents p : plot_graph A n_observed n_latents = Val p ->
  uniq (lines p) /\ forall i j : 'I_n, (i <= j)%N -> ((nat_of_ord i, nat_of_ord j) \in lines p) = (A i j != 0) || (A j i != 0).
Proof.
rewrite /plot_graph; case: ifP => // _ [<-] /=.
have inj : injective (fun ij : 'I_n * 'I_n => (nat_of_ord ij.1, nat_of_ord ij.2)) by move=> [a b] [c d] [] /val_inj -> /val_inj ->.
split=> [|i j h]; first by rewrite map_inj_uniq // filter_uniq // enum_uniq.
by rewrite (mem_map inj _ (i, j)) mem_filter mem_enum /= h andbT.
Qed.
Print Assumptions C202_edges.
Theorem C202_too_many n (A : 'M[R]_n) n_observed n_latents : (n < n_latents)%N -> plot_graph A n_observed n_latents = Raise ValueError.
Proof. by move=> h; rewrite /plot_graph h. Qed.
Print Assumptions C202_too_many.
(** plot_meinshausen_yuan draws a segment for every nonzero entry: an edge of a symmetric matrix twice, and a point for every nonzero diagonal entry *)
Theorem C202_segments n locations (theta : 'M[R]_n) : (n <= size locations)%N ->
  plot_meinshausen locations theta =
    Val [seq (nth (0, 0) locations ij.1, nth (0, 0) locations ij.2) | ij : 'I_n * 'I_n <- enum {: 'I_n * 'I_n} & theta ij.1 ij.2 != 0].
Proof.
move=> h; have li (i : 'I_n) : (size locations <= i)%N = false by rewrite leqNgt (leq_trans (ltn_ord i) h).
rewrite /plot_meinshausen; elim: [seq ij <- enum _ | _] => [|[i j] l IH]; first by [].
by rewrite [fst _]/= [snd _]/= !li [false || false]/= IH.
Qed.
Print Assumptions C202_segments.
Example C202_case : exists p, plot_graph (const_mx 1 : 'M[R]_3) 2 1 = Val p /\ seen p 0 = Some Blue /\ discs p = [:: (0, Red); (0, Blue); (1, Blue); (2, Blue)]%N.
Proof. by have [p [e h]] := @C202_latents_hidden_refuted 3 (const_mx 1) 2 1 isT; exists p; rewrite h; move: e; rewrite /plot_graph => -[<-]. Qed.
