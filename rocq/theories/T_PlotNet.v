(** Property theorem C191 (the data of plot_network). *)
From Coq Require Import Reals.
From mathcomp Require Import all_ssreflect all_algebra.
From Verif Require Import RStruct M_PlotNet.
Import Order.TTheory GRing.Theory Num.Theory.

Set Implicit Arguments.
Unset Strict Implicit.
Unset Printing Implicit Defensive.
Local Open Scope ring_scope.

(** * specification: what a trace draws *)
(** its points, [None] where a coordinate is missing *)
Definition point2 (x y : option R) : option (seq R) := match x, y with Some a, Some b => Some [:: a; b] | _, _ => None end.
Definition point3 (x y z : option R) : option (seq R) := match x, y, z with Some a, Some b, Some c => Some [:: a; b; c] | _, _, _ => None end.
Definition points (t : trace) : seq (option (seq R)) :=
  match tr_z t with
  | None => [seq point2 xy.1 xy.2 | xy <- zip (tr_x t) (tr_y t)]
  | Some zs => [seq point3 xyz.1.1 xyz.1.2 xyz.2 | xyz <- zip (zip (tr_x t) (tr_y t)) zs]
  end.
(** mode="lines": every point is joined to the next one, unless one of them is a gap *)
Fixpoint segments (l : seq (option (seq R))) : seq (seq R * seq R) :=
  match l with
  | Some p :: ((Some q :: _) as l') => (p, q) :: segments l'
  | _ :: l' => segments l'
  | [::] => [::]
  end.
Definition drawn (ts : seq trace) : seq (seq R * seq R) := flatten [seq segments (points t) | t <- ts].

(** * proofs *)
Lemma points2_gapped w (pqs : seq (seq R * seq R)) : (forall pq, pq \in pqs -> size pq.1 = 2 /\ size pq.2 = 2)%N ->
  segments (points (Trace (gapped 0 pqs) (gapped 1 pqs) None w)) = pqs.
Proof.
rewrite /points /=; elim: pqs => [|[p q] l IH] h //=.
have := h (p, q) (mem_head _ _); case: p {h} (h) => [|a [|b [|? ?]]] h [] //= _; case: q h => [|c [|e [|? ?]]] h //= _.
by rewrite -/(gapped 0 l) -/(gapped 1 l) IH // => pq m; apply: h; rewrite inE m orbT.
Qed.
Lemma points3_gapped w (pqs : seq (seq R * seq R)) : (forall pq, pq \in pqs -> size pq.1 = 3 /\ size pq.2 = 3)%N ->
  segments (points (Trace (gapped 0 pqs) (gapped 1 pqs) (Some (gapped 2 pqs)) w)) = pqs.
Proof.
rewrite /points /=; elim: pqs => [|[p q] l IH] h //=.
have := h (p, q) (mem_head _ _); case: p {h} (h) => [|a [|b [|a' [|? ?]]]] h [] //= _; case: q h => [|c [|e [|c' [|? ?]]]] h //= _.
by rewrite -/(gapped 0 l) -/(gapped 1 l) -/(gapped 2 l) IH // => pq m; apply: h; rewrite inE m orbT.
Qed.
Lemma endsE (V : eqType) (pos : V -> seq R) k e : size (pos e.1) = k -> size (pos e.2) = k -> ends pos k e = POk (pos e.1, pos e.2).
Proof. by move=> h1 h2; rewrite /ends /unpack h1 h2 eqxx. Qed.
Lemma all_endsE (V : eqType) (pos : V -> seq R) k es : (forall e, e \in es -> size (pos e.1) = k /\ size (pos e.2) = k) ->
  all_ends pos k es = POk [seq (pos e.1, pos e.2) | e <- es].
Proof.
elim: es => [|e es IH] h //=; have [h1 h2] := h e (mem_head _ _).
by rewrite endsE //= IH // => e' m; apply: h; rewrite inE m orbT.
Qed.

(** C191: in two and three dimensions, without weights, one trace draws exactly the edges, in their order *)
Theorem C191_lines (V : eqType) (es : seq (V * V)) (pos : V -> seq R) dim width :
  dim = 2%N \/ dim = 3%N -> (forall e, e \in es -> size (pos e.1) = dim /\ size (pos e.2) = dim) ->
  exists t, [/\ lines_straight es pos None dim width = POk [:: t], drawn [:: t] = [seq (pos e.1, pos e.2) | e <- es] & tr_width t = width].
Proof.
move=> hd h; have e := all_endsE h.
have hm pq : pq \in [seq (pos e.1, pos e.2) | e <- es] -> size pq.1 = dim /\ size pq.2 = dim by move=> /mapP[e' m ->]; exact: h.
case: hd => hd; rewrite /lines_straight hd /=; rewrite hd in e hm; rewrite e /=.
  eexists; split; first by []; last by [].
  by rewrite /drawn /= cats0 points2_gapped.
eexists; split; first by []; last by [].
by rewrite /drawn /= cats0 points3_gapped.
Qed.
Print Assumptions C191_lines.

(** with a nonnegative weight for every edge, one trace for each edge, twice as wide as its weight *)
Theorem C191_weighted (V : eqType) (es : seq (V * V)) (pos : V -> seq R) ws dim width :
  dim = 2%N \/ dim = 3%N -> (forall e, e \in es -> size (pos e.1) = dim /\ size (pos e.2) = dim) ->
  (size es <= size ws)%N -> (forall j, (j < size es)%N -> 0 <= nth 0 ws j) ->
  exists ts, [/\ lines_straight es pos (Some ws) dim width = POk ts,
    [seq segments (points t) | t <- ts] = [seq [:: (pos e.1, pos e.2)] | e <- es] & [seq tr_width t | t <- ts] = [seq 2%:R * w | w <- take (size es) ws]].
Proof.
move=> hd h; rewrite /lines_straight => sz wp.
suff gen j0 : (forall j, (j < size es)%N -> (j0 + j < size ws)%N /\ 0 <= nth 0 ws (j0 + j)) ->
    exists ts, [/\ weighted_lines pos ws dim j0 es = POk ts,
    [seq segments (points t) | t <- ts] = [seq [:: (pos e.1, pos e.2)] | e <- es] & [seq tr_width t | t <- ts] = [seq 2%:R * w | w <- take (size es) (drop j0 ws)]].
  by rewrite -[ws in take _ ws](drop0 ws); apply: gen => j hj; split; [exact: leq_trans hj sz|exact: wp].
move=> {sz wp} hw.
elim: es j0 h hw => [|e es IH] j0 h hw; first by exists [::]; rewrite /= take0.
have [p1 p2] := h e (mem_head _ _).
have [s0 w0] := hw 0%N isT; rewrite addn0 in s0 w0.
have h' e' : e' \in es -> size (pos e'.1) = dim /\ size (pos e'.2) = dim by move=> m; apply: h; rewrite inE m orbT.
have [j hj|ts [e1 e2 e3]] := IH j0.+1 h'.
  by rewrite addSnnS; exact: (hw j.+1 hj).
rewrite /=; have -> : (if dim == 2%N then 2%N else 3%N) = dim by case: hd => ->.
rewrite endsE //= leqNgt s0 /= ltNge mulr_ge0 ?ler0n //= e1 /=.
eexists; split; first by [].
  rewrite /= e2; congr (_ :: _); case: hd => hd; rewrite hd /= in p1 p2 *.
    by case: (pos e.1) p1 => [|a [|b [|? ?]]] //; case: (pos e.2) p2 => [|a' [|b' [|? ?]]].
  by case: (pos e.1) p1 => [|a [|b [|c [|? ?]]]] //; case: (pos e.2) p2 => [|a' [|b' [|c' [|? ?]]]].
by rewrite /= e3 (drop_nth 0 s0).
Qed.
Print Assumptions C191_weighted.

(** Refuted: a graph with a negative weight (a precision matrix with a negative entry, a negative correlation) cannot be drawn *)
Theorem C191_negative_refuted (V : eqType) (es : seq (V * V)) (pos : V -> seq R) ws dim width :
  dim = 2%N \/ dim = 3%N -> (forall e, e \in es -> size (pos e.1) = dim /\ size (pos e.2) = dim) ->
  (size es <= size ws)%N -> (exists2 j, (j < size es)%N & nth 0 ws j < 0) -> lines_straight es pos (Some ws) dim width = PRaise PValueError.
Proof.
move=> hd h; rewrite /lines_straight => sz [j hj wj].
suff gen j0 : nth 0 ws (j0 + j) < 0 -> (j0 + size es <= size ws)%N -> weighted_lines pos ws dim j0 es = PRaise PValueError by exact: gen.
clear wj sz; elim: es j0 j h hj => [|e es IH] j0 j h hj // wj sz.
have [p1 p2] := h e (mem_head _ _).
rewrite /=; have -> : (if dim == 2%N then 2%N else 3%N) = dim by case: hd => ->.
have s0 : (j0 < size ws)%N by apply: leq_trans sz; rewrite /= addnS ltnS leq_addr.
rewrite endsE //= leqNgt s0 /=.
case: ifP => // w0; case: j hj wj => [|j] hj wj; first by rewrite pmulr_rlt0 ?ltr0n // -[j0]addn0 wj in w0.
by rewrite (IH j0.+1 j) //; [move=> e' m; apply: h; rewrite inE m orbT | rewrite addSnnS | rewrite addSnnS].
Qed.
Print Assumptions C191_negative_refuted.

Lemma pbind_ok T U (v : T) (f : T -> pres U) : pbind (POk v) f = f v. Proof. by []. Qed.
Lemma edge_weights_some (w : seq R) : edge_weights [seq Some x | x <- w] = POk w.
Proof. by elim: w => //= x w ->. Qed.
Lemma sum_degree (V : eqType) (nodes : seq V) (es : seq (V * V)) : uniq nodes -> (forall e, e \in es -> e.1 \in nodes /\ e.2 \in nodes) ->
  (\sum_(v <- nodes) degree es v)%N = (2 * size es)%N.
Proof.
move=> u h; rewrite /degree exchange_big /= -sum1_size big_distrr /= !(big_seq_cond (fun=> true)).
apply: eq_bigr => e; rewrite andbT => /h[m1 m2]; rewrite big_split /=.
have one x : x \in nodes -> (\sum_(i <- nodes) (x == i) = 1)%N.
  move=> m; rewrite (bigD1_seq x) //= eqxx big1_seq ?addn0 // => i /andP[ix _]; by rewrite eq_sym (negbTE ix).
by rewrite !one.
Qed.

(** plot_network: every node is a point with its label and the number of ends of edges at it; the degrees add up to twice the number of edges; the edges
    are drawn as above. Nodes beyond the labels get no text *)
Theorem C191_network (V : eqType) (L : Type) (nodes : seq V) (es : seq (V * V)) (ws : seq R) (pos : V -> seq R) (labels : seq L) with_weights dim width :
  dim = 2%N \/ dim = 3%N -> nodes <> [::] -> uniq nodes -> (forall e, e \in es -> e.1 \in nodes /\ e.2 \in nodes) ->
  (forall v, v \in nodes -> size (pos v) = dim) -> size ws = size es -> (forall w, w \in ws -> 0 <= w) ->
  exists texts ts, [/\ plot_network nodes es [seq Some w | w <- ws] pos labels with_weights dim width = POk ([seq pos v | v <- nodes], texts, ts),
    drawn ts = [seq (pos e.1, pos e.2) | e <- es],
    [seq t.1 | t <- texts] = take (size nodes) labels,
    (\sum_(v <- nodes) degree es v)%N = (2 * size es)%N &
    forall k x l, (k < size nodes)%N -> (k < size labels)%N -> nth (l, 0%N) texts k = (nth l labels k, degree es (nth x nodes k))].
Proof.
move=> hd ne u h hp sw wp.
have he e : e \in es -> size (pos e.1) = dim /\ size (pos e.2) = dim by move=> /h[m1 m2]; rewrite !hp.
have nn : (nodes == [::]) = false by exact/eqP.
have kn : (dim == 2%N) || (dim == 3%N) by case: hd => ->.
have txt : [seq t.1 | t <- zip labels [seq degree es v | v <- nodes]] = take (size nodes) labels.
  by elim: (labels) (nodes) => [|x l IH] [|v s] //=; rewrite IH.
have nt k x l : (k < size nodes)%N -> (k < size labels)%N ->
    nth (l, 0%N) (zip labels [seq degree es v | v <- nodes]) k = (nth l labels k, degree es (nth x nodes k)).
  by elim: (labels) (nodes) k => [|y l' IH] [|v s] // [|k] //=; exact: IH.
exists (zip labels [seq degree es v | v <- nodes]).
rewrite /plot_network nn kn andbF; case: with_weights; last first.
  have [t [e1 e2 _]] := C191_lines width hd he.
  by exists [:: t]; split; rewrite ?pbind_ok ?e1 // sum_degree.
have [||ts [e1 e2 _]] := @C191_weighted V es pos ws dim width hd he; first by rewrite sw.
  by move=> j hj; apply/wp/mem_nth; rewrite sw.
exists ts; split; rewrite ?sum_degree // ?edge_weights_some ?pbind_ok ?e1 //.
by rewrite /drawn e2; elim: (es) => //= e l ->.
Qed.
Print Assumptions C191_network.

(** any other dimension raises, whatever the layout *)
Theorem C191_dim (V : eqType) (L : Type) (nodes : seq V) (es : seq (V * V)) ws (pos : V -> seq R) (labels : seq L) with_weights dim width :
  dim <> 2%N -> dim <> 3%N -> exists e, plot_network nodes es ws pos labels with_weights dim width = PRaise e.
Proof.
move=> /eqP/negbTE d2 /eqP/negbTE d3; rewrite /plot_network d2 d3 /=.
case: with_weights => /=; last by case: ifP => _; [exists PIndexError | rewrite /lines_straight d2 d3; exists PValueError].
case: (edge_weights ws) => [w|e] /=; last by exists e.
by case: ifP => _; [exists PIndexError | case: (weighted_lines _ _ _ _ _) => [r|e] /=; [exists PNameError | exists e]].
Qed.
Print Assumptions C191_dim.

(** lines_straight itself, with weights and another dimension, drops the third coordinate and draws in two *)
Theorem C191_third_dropped (V : eqType) (es : seq (V * V)) (pos : V -> seq R) ws dim width ts :
  dim <> 2%N -> dim <> 3%N -> lines_straight es pos (Some ws) dim width = POk ts ->
  (forall e, e \in es -> size (pos e.1) = 3%N /\ size (pos e.2) = 3%N) /\ drawn ts = [seq (take 2 (pos e.1), take 2 (pos e.2)) | e <- es].
Proof.
move=> /eqP/negbTE d2 /eqP/negbTE d3; rewrite /lines_straight.
suff gen j : weighted_lines pos ws dim j es = POk ts ->
    (forall e, e \in es -> size (pos e.1) = 3%N /\ size (pos e.2) = 3%N) /\ drawn ts = [seq (take 2 (pos e.1), take 2 (pos e.2)) | e <- es] by exact: gen.
elim: es j ts => [|e es IH] j ts /=; first by move=> [<-].
rewrite d2 d3 /ends /unpack; case: eqP => //= s1; case: eqP => //= s2; case: ifP => // _; case: ifP => // _.
case r: (weighted_lines _ _ _ _ _) => [ts'|] //= [<-]; have [h dr] := IH _ _ r; split.
  by move=> e'; rewrite inE => /orP[/eqP ->|/h].
rewrite /drawn /= -/(drawn ts') dr.
by case: (pos e.1) s1 => [|a [|b [|c [|? ?]]]] //; case: (pos e.2) s2 => [|a' [|b' [|c' [|? ?]]]].
Qed.
Print Assumptions C191_third_dropped.

(** a triangle meets the hypotheses; with a negative weight it cannot be drawn *)
Definition tri_pos (v : nat) : seq R := [:: v%:R; (v ^ 2)%:R].
Example C191_case : exists texts ts,
  plot_network [:: 0; 1; 2]%N [:: (0, 1); (1, 2); (0, 2)]%N [:: Some 1; Some 0; Some 2%:R] tri_pos [:: true; false] true 2 1 =
    POk ([:: tri_pos 0; tri_pos 1; tri_pos 2], texts, ts) /\ texts = [:: (true, 2%N); (false, 2%N)] /\
  lines_straight [:: (0, 1); (1, 2)]%N tri_pos (Some [:: 1; - 1]) 2 1 = PRaise PValueError.
Proof.
have [||||||texts [ts [e1 _ e2 _ e3]]] := @C191_network nat_eqType bool [:: 0; 1; 2]%N [:: (0, 1); (1, 2); (0, 2)]%N [:: 1; 0; 2%:R] tri_pos [:: true; false] true 2 1 (or_introl erefl).
- by [].
- by [].
- by move=> e; rewrite !inE => /or3P[] /eqP ->.
- by move=> v; rewrite !inE => /or3P[] /eqP ->.
- by [].
- by move=> w; rewrite !inE => /or3P[] /eqP ->; rewrite ?ler01 ?lexx ?ler0n.
exists texts, ts; split; first exact: e1.
split; last first.
  apply: C191_negative_refuted => //; first by left.
  by exists 1%N => //=; rewrite ltrN10.
have sz : size texts = 2%N by rewrite -(size_map fst) e2.
have n0 := e3 0%N 0%N true isT isT; have n1 := e3 1%N 0%N true isT isT.
case: texts sz n0 n1 {e1 e2 e3} => [|a [|b [|? ?]]] //= _ -> ->.
by rewrite /degree !big_cons !big_nil.
Qed.
