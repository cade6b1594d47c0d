(** Poisson graphs and samples: lemmas. *)
From Coq Require Import Reals String.
From mathcomp Require Import all_ssreflect all_algebra.
From Verif Require Import RStruct RTac NP Str M_Ising M_Poisson P_Ising7.
Import Order.TTheory GRing.Theory Num.Theory.

Set Implicit Arguments.
Unset Strict Implicit.
Unset Printing Implicit Defensive.
Local Open Scope ring_scope.

Section Gen.
Variable p : nat.
Implicit Types G H : 'M[R]_p.
Definition thinned G H : Prop := forall i j, H i j = 0 \/ H i j = G i j.
Lemma thinned_refl G : thinned G G. Proof. by right. Qed.
Lemma thinned_trans G H K : thinned G H -> thinned H K -> thinned G K.
Proof. by move=> a b i j; case: (b i j) => [->|->]; [left | exact: a]. Qed.

Lemma pchanges_ok G pairs keep : G = G^T -> let H := poisson_changes G pairs keep in
  H = H^T /\ thinned G H.
Proof.
rewrite /poisson_changes; move: 0%N => k; elim: pairs G k => [|[r c] l IH] G k s /=; first by split=> //; exact: thinned_refl.
have [] := IH (set_sym G r c (if keep k then G r c else 0)) k.+1 (set_sym_sym _ _ _ s).
move=> s2 t2; split=> //; apply: thinned_trans t2 => i j; rewrite set_symE.
case: ifP => [|_]; last by right.
case: (keep k); last by left.
by case/orP=> /andP [/eqP -> /eqP ->]; right; rewrite // {1}s mxE.
Qed.
Lemma ploop_ok G pairs keep fuel k H : G = G^T ->
  poisson_update_loop pairs keep fuel k G = Some H -> H = H^T /\ thinned G H.
Proof.
elim: fuel k G => [|fuel IH] k G s //=; have [s1 t1] := pchanges_ok (pairs k) (keep k) s.
case: ifP => _; last by case=> <-.
by move=> /(IH _ _ s1) [s2 t2]; split=> //; exact: thinned_trans t1 t2.
Qed.
Lemma pupdate_ok G n pairs keep fuel o : G = G^T -> update_l1 G n pairs keep fuel = Some o ->
  exists H, [/\ o = IOk H, H = H^T & thinned G H].
Proof.
move=> s; rewrite /update_l1; case: n => [|n].
  by case=> <-; exists G; rewrite -s eqxx; split=> //; exact: thinned_refl.
case e: (poisson_update_loop _ _ _ _ _) => [H|] // [<-]; have [s' t] := ploop_ok s e.
by exists H; rewrite {1}s' eqxx.
Qed.
(** it ends as soon as a pass draws no pair (r, r) *)
Lemma ploop_ends pairs keep K G : (forall k, has (fun rc : 'I_p * 'I_p => rc.1 == rc.2) (pairs k) = (k < K)%N) ->
  exists H, forall fuel, (K < fuel)%N -> poisson_update_loop pairs keep fuel 0 G = Some H.
Proof.
move=> h.
have gen : forall d k G, (k + d = K)%N -> exists H, forall fuel, (d < fuel)%N -> poisson_update_loop pairs keep fuel k G = Some H.
  elim=> [|d IH] k G'; rewrite ?addn0 => e.
    by exists (poisson_changes G' (pairs k) (keep k)); case=> //= fuel _; rewrite h e ltnn.
  have [|H hH] := IH k.+1 (poisson_changes G' (pairs k) (keep k)); first by rewrite addSn -addnS.
  by exists H; case=> //= fuel df; rewrite h -e -{1}(addn0 k) ltn_add2l /=; apply: hH.
exact: gen.
Qed.

Definition zero_diag G : Prop := forall i, G i i = 0.
Lemma zd_zero G : zero_diag (zero_diagonal G).
Proof. by move=> i; rewrite mxE eqxx. Qed.
Lemma zd_sym G : G = G^T -> zero_diagonal G = (zero_diagonal G)^T.
Proof. by move=> s; apply/matrixP => i j; rewrite !mxE eq_sym; case: ifP => // _; rewrite {1}s mxE. Qed.
Lemma zd_thin G : thinned G (zero_diagonal G).
Proof. by move=> i j; rewrite mxE; case: ifP => _; [left|right]. Qed.

Definition chain (l : seq 'M[R]_p) : Prop := forall t, (t.+1 < size l)%N -> thinned (nth 0 l t) (nth 0 l t.+1).
Lemma pgen_ok (graph : 'M[R]_p) T mode n pairs keep fuel o : graph = graph^T ->
  poisson_theta_generator graph T mode n pairs keep fuel = Some o ->
  ((1 < T)%N /\ mode = "reshuffle"%string /\ o = IRaise IValueError) \/
  exists l, o = IOk l /\ size l = maxn 1 T /\ (forall G, G \in l -> G = G^T /\ zero_diag G) /\
    thinned graph (nth 0 l 0) /\ chain l.
Proof.
move=> s; rewrite /poisson_theta_generator; set g0 := zero_diagonal graph; set step := fun acc t => _.
have IH : forall ts l, l != [::] -> (forall G, G \in l -> G = G^T /\ zero_diag G) -> chain l ->
   foldl step (Some (IOk l)) ts = Some o ->
   ((0 < size ts)%N /\ mode = "reshuffle"%string /\ o = IRaise IValueError) \/
   exists l', o = IOk l' /\ size l' = (size l + size ts)%N /\ (forall G, G \in l' -> G = G^T /\ zero_diag G) /\
     nth 0 l' 0 = nth 0 l 0 /\ chain l'.
  elim=> [|t ts IH] l ln ls ch /=.
    by case=> <-; right; exists l; rewrite addn0.
  case: eqP => [em|_].
    have -> : forall ts, foldl step (Some (IRaise IValueError)) ts = Some (IRaise IValueError) by elim.
    by case=> <-; left.
  have lst : last g0 l \in l by case: (l) ln => // a b _ /=; exact: mem_last.
  case e: update_l1 => [[H|er]|].
  - have [H' [[eH] sH tH]] := pupdate_ok (proj1 (ls _ lst)) e; subst H'.
    move=> f; have := IH (rcons l (zero_diagonal H)) _ _ _ f.
    case=> //; first by rewrite -size_eq0 size_rcons.
    + by move=> G; rewrite mem_rcons inE => /orP [/eqP ->|/ls //]; split; [exact: zd_sym | exact: zd_zero].
    + move=> u; rewrite size_rcons ltnS => ul; rewrite !nth_rcons ul.
      case: (ltnP u.+1 (size l)) => [|ge]; first exact: ch.
      have -> : u.+1 = size l by apply/eqP; rewrite eqn_leq ul ge.
      rewrite eqxx; apply: thinned_trans (zd_thin H).
      have -> : nth 0 l u = last g0 l; last exact: tH.
      have -> : u = (size l).-1 by have -> : size l = u.+1 by apply/eqP; rewrite eqn_leq ul ge.
      by rewrite nth_last; case: (l) ln.
    + by case=> _ [m1 m2]; left.
    + case=> l' [m1 [m2 [m3 [m4 m5]]]]; right; exists l'; split=> //; split; first by rewrite m2 size_rcons addSn addnS.
      by split=> //; split=> //; rewrite m4 nth_rcons; case: (l) ln.
  - by have [H' [//]] := pupdate_ok (proj1 (ls _ lst)) e.
  - by have -> : forall ts, foldl step None ts = None by elim.
move=> f; have := IH (iota 1 T.-1) [:: g0] isT _ _ f; case.
- by move=> G; rewrite inE => /eqP ->; split; [exact: zd_sym | exact: zd_zero].
- by [].
- by rewrite size_iota => -[a b]; left; split=> //; case: (T) a.
case=> l [m1 [m2 [m3 [m4 m5]]]]; right; exists l; split=> //; split.
  by rewrite m2 size_iota /= add1n; case: (T) => [|[|T']] //; rewrite /maxn /=.
by split=> //; rewrite m4; split=> //; exact: zd_thin.
Qed.
End Gen.

(** * the local Poisson sampler *)
Section Lpgm.
Variables (p : nat) (theta : 'M[R]_p).
Definition lp_row (i : 'I_p) : seq 'I_p := [seq j : 'I_p <- enum 'I_p | (i < j)%N && (theta i j == 1)].
Definition lp_edges : seq ('I_p * 'I_p) := [seq (i, j) | i <- enum 'I_p, j <- lp_row i].
Lemma lp_edges_uniq : uniq lp_edges.
Proof.
apply: allpairs_uniq_dep; first exact: enum_uniq.
- by move=> i _; apply: filter_uniq; exact: enum_uniq.
- by move=> [a b] [c d] _ _ /= [-> ->].
Qed.
Lemma lp_edges_mem i j : ((i, j) \in lp_edges) = (i < j)%N && (theta i j == 1).
Proof.
apply/allpairsPdep/idP => [[a [b [_ bb [-> ->]]]]|h]; first by move: bb; rewrite mem_filter => /andP [].
by exists i, j; split=> //; [rewrite mem_enum | rewrite mem_filter h mem_enum].
Qed.
Definition lp_col (e : 'I_p * 'I_p) : 'I_p -> R := fun k => ((k == e.1) || (k == e.2))%:R.
Lemma adjE : adjacency_to_A theta false = [seq (fun k => (k == i)%:R) | i <- enum 'I_p] ++ map lp_col lp_edges.
Proof.
rewrite /adjacency_to_A /lp_edges; congr (_ ++ _).
rewrite map_allpairs /=; congr flatten; apply: eq_map => i; rewrite -map_comp; by apply: eq_map.
Qed.

(** the number of the call that draws the count shared by i and j *)
Definition slot (i j : 'I_p) : nat := (p + index (if (i < j)%N then (i, j) else (j, i)) lp_edges)%N.
Lemma slotC i j : slot i j = slot j i.
Proof. by rewrite /slot; case: ltngtP => // /val_inj ->. Qed.
Lemma slot_ge i j : (p <= slot i j)%N. Proof. exact: leq_addr. Qed.
Hypothesis sy : theta = theta^T.
Lemma thC i j : theta i j = theta j i. Proof. by rewrite {1}sy mxE. Qed.
Lemma slot_inj (i j k l : 'I_p) : i != j -> theta i j = 1 -> k != l -> theta k l = 1 -> slot i j = slot k l ->
  (i = k /\ j = l) \/ (i = l /\ j = k).
Proof.
have main (i' j' k' l' : 'I_p) : (i' < j')%N -> theta i' j' = 1 -> (k' < l')%N -> theta k' l' = 1 ->
    slot i' j' = slot k' l' -> (i' = k' /\ j' = l').
  move=> ij tij kl tkl; rewrite /slot ij kl => /addnI e.
  have m1 : (i', j') \in lp_edges by rewrite lp_edges_mem ij tij eqxx.
  have m2 : (k', l') \in lp_edges by rewrite lp_edges_mem kl tkl eqxx.
  by have := nth_index (i', j') m1; rewrite e nth_index // => -[-> ->].
move=> ij tij kl tkl.
case: (ltngtP i j) => [h1|h1|/val_inj e]; last by rewrite e eqxx in ij.
  case: (ltngtP k l) => [h2|h2|/val_inj e]; last by rewrite e eqxx in kl.
    by move=> e; left; apply: main.
  by rewrite (slotC k) => e; right; apply: main => //; rewrite thC.
case: (ltngtP k l) => [h2|h2|/val_inj e]; last by rewrite e eqxx in kl.
  by rewrite (slotC i) => e; right; have [] : j = k /\ i = l by apply: main => //; rewrite thC.
by rewrite (slotC i) (slotC k) => e; left; have [] : j = l /\ i = k by apply: main => //; rewrite thC.
Qed.

(** the rates *)
Definition lo_row (i : 'I_p) : seq 'I_p := [seq j : 'I_p <- enum 'I_p | (j < i)%N].
Definition lo_pairs : seq ('I_p * 'I_p) := [seq (i, j) | i <- enum 'I_p, j <- lo_row i].
Lemma lo_uniq : uniq lo_pairs.
Proof.
apply: allpairs_uniq_dep; first exact: enum_uniq.
- by move=> i _; apply: filter_uniq; exact: enum_uniq.
- by move=> [a b] [c d] _ _ /= [-> ->].
Qed.
Lemma lo_mem i j : ((i, j) \in lo_pairs) = (j < i)%N.
Proof.
apply/allpairsPdep/idP => [[a [b [_ bb [-> ->]]]]|h]; first by move: bb; rewrite mem_filter => /andP [].
by exists i, j; split=> //; [rewrite mem_enum | rewrite mem_filter h mem_enum].
Qed.
Definition lo_nz (lam : R) : seq ('I_p * 'I_p) := [seq e <- lo_pairs | lam * theta e.1 e.2 != 0].
Lemma rateE lam : [seq x <- flatten [seq [seq (lam *: theta) i j | j <- [seq j : 'I_p <- enum 'I_p | (j < i)%N]]
    | i : 'I_p <- enum 'I_p] | x != 0] = [seq lam * theta e.1 e.2 | e <- lo_nz lam].
Proof.
rewrite /lo_nz -(filter_map (fun e : 'I_p * 'I_p => lam * theta e.1 e.2) (fun x => x != 0)); congr filter.
rewrite /lo_pairs map_allpairs; congr flatten; apply: eq_map => i; apply: eq_map => j; by rewrite mxE.
Qed.
(** the number of pairs of weight not 0, and of weight 1 *)
Lemma lo_nz_up lam : size (lo_nz lam) = #|[set e : 'I_p * 'I_p | (e.1 < e.2)%N && (lam * theta e.1 e.2 != 0)]|.
Proof.
pose sw (e : 'I_p * 'I_p) := (e.2, e.1).
rewrite cardE -(size_map sw); apply: perm_size; apply: uniq_perm; first 1 last.
- exact: enum_uniq.
- move=> [a b]; rewrite mem_enum inE /=; apply/mapP/idP => [[[c d]]|/andP [ab nz]].
    by rewrite mem_filter lo_mem /= => /andP [nz dc] [-> ->]; rewrite dc thC nz.
  by exists (b, a); rewrite // mem_filter lo_mem /= ab thC nz.
- by rewrite map_inj_uniq ?filter_uniq ?lo_uniq // => -[a b] [c d] [-> ->].
Qed.
Lemma up_card : size lp_edges = #|[set e : 'I_p * 'I_p | (e.1 < e.2)%N && (theta e.1 e.2 == 1)]|.
Proof.
rewrite cardE; apply: perm_size; apply: uniq_perm; rewrite ?lp_edges_uniq ?enum_uniq //.
by move=> [a b]; rewrite mem_enum inE lp_edges_mem.
Qed.
Lemma adj_size : size (adjacency_to_A theta false) = (p + size lp_edges)%N.
Proof. by rewrite adjE size_cat 2!size_map size_enum_ord. Qed.
Lemma lp_sizes lam : lam != 0 -> (size (lo_nz lam) == size lp_edges) =
  [forall i, forall j, (i != j) ==> ((theta i j == 0) || (theta i j == 1))].
Proof.
move=> l0; rewrite lo_nz_up up_card.
set A := [set e | _]; set B := [set e | _].
have BA : B \subset A.
  by apply/subsetP => -[a b]; rewrite !inE /= => /andP [-> /eqP ->]; rewrite mulr1.
rewrite eq_sym; apply/eqP/forallP => [e i|h].
  have eAB : B = A by apply/eqP; rewrite eqEcard BA e leqnn.
  have main (a b : 'I_p) : (a < b)%N -> (theta a b == 0) || (theta a b == 1).
    move=> ab; have : ((a, b) \in B) = ((a, b) \in A) by rewrite eAB.
    by rewrite !inE /= ab /= mulf_eq0 (negbTE l0) /= => ->; case: eqP.
  apply/forallP => j; apply/implyP => ij; case: (ltngtP i j) => [h|h|/val_inj h]; first exact: main.
    by rewrite thC; apply: main.
  by rewrite h eqxx in ij.
suff -> : B = A by [].
apply/setP => -[a b]; rewrite !inE /=; case: (ltnP a b) => //= ab.
have /implyP := forallP (h a) b; have -> : a != b by apply: contraL ab => /eqP ->; rewrite ltnn.
by case/(_ isT)/orP=> /eqP ->; rewrite ?mulr0 ?mulr1 ?eqxx ?l0 // eq_sym oner_eq0.
Qed.

Lemma lp_sum (F : nat -> R) i :
  \sum_(k < size (adjacency_to_A theta false)) F k * nth (fun=> 0) (adjacency_to_A theta false) k i =
  F i + \sum_(j | (j != i) && (theta i j == 1)) F (slot i j).
Proof.
have sz : size (adjacency_to_A theta false) = (p + size lp_edges)%N by rewrite adjE size_cat 2!size_map size_enum_ord.
rewrite sz big_split_ord /=; congr (_ + _).
  rewrite (bigD1 i) //= [X in _ + X]big1 ?addr0 => [|k ki].
    by rewrite adjE nth_cat size_map size_enum_ord ltn_ord (nth_map i) ?size_enum_ord // nth_ord_enum eqxx mulr1.
  by rewrite adjE nth_cat size_map size_enum_ord ltn_ord (nth_map i) ?size_enum_ord // nth_ord_enum eq_sym (negbTE ki) mulr0.
transitivity (\sum_(e <- lp_edges) F (p + index e lp_edges)%N * lp_col e i).
  rewrite (big_nth (i, i)) big_mkord; apply: eq_bigr => m _.
  rewrite adjE nth_cat size_map size_enum_ord ltnNge leq_addr /= addKn (nth_map (i, i)) //.
  by rewrite index_uniq // lp_edges_uniq.
rewrite big_uniq ?lp_edges_uniq //=.
transitivity (\sum_(a < p) \sum_(b : 'I_p | (a < b)%N && (theta a b == 1)) F (p + index (a, b) lp_edges)%N * lp_col (a, b) i).
  by rewrite pair_big_dep /=; apply: eq_big => [[a b]|[a b] _] //=; rewrite lp_edges_mem.
transitivity (\sum_(a < p) \sum_(b : 'I_p | (a < b)%N && (theta a b == 1)) F (p + index (a, b) lp_edges)%N * (i == a)%:R +
              \sum_(a < p) \sum_(b : 'I_p | (a < b)%N && (theta a b == 1)) F (p + index (a, b) lp_edges)%N * (i == b)%:R).
  rewrite -big_split; apply: eq_bigr => a _ /=; rewrite -big_split; apply: eq_bigr => b /andP [ab _] /=.
  rewrite -mulrDr; congr (_ * _); rewrite /lp_col /=; case: eqP => [->|] /=; case: eqP => [e|] /=; rewrite ?addr0 ?add0r //.
  by rewrite e ltnn in ab.
rewrite [RHS](bigID (fun j : 'I_p => (i < j)%N)) /=; congr (_ + _).
  rewrite (bigD1 i) //= [X in _ + X]big1 ?addr0 => [|a ai].
    apply: eq_big => [j|j /andP [ij _]]; last by rewrite eqxx mulr1 /slot ij.
    case: (ltnP i j) => ij; rewrite ?andbF // andbT; have -> // : j != i by apply: contraL ij => /eqP ->; rewrite ltnn.
  by rewrite big1 // => b _; rewrite eq_sym (negbTE ai) mulr0.
rewrite (exchange_big_dep predT) //= (bigD1 i) //= [X in _ + X]big1 ?addr0 => [|b bi].
  apply: eq_big => [j|j /andP [ij _]].
    rewrite (thC j i); case: (ltngtP i j) => [ij|ij|/val_inj ->]; rewrite ?andbF ?eqxx // andbT.
    by have -> // : j != i by apply: contraL ij => /eqP ->; rewrite ltnn.
  by rewrite eqxx mulr1 slotC /slot ij.
by rewrite big1 // => a _; rewrite eq_sym (negbTE bi) mulr0.
Qed.
End Lpgm.

(** * the Gibbs sampler *)
Section Gibbs.
Variables (p : nat) (theta : 'M[R]_p) (v : 'I_p -> R) (draw : 'I_p -> R -> nat).
Let step (x : {ffun 'I_p -> R}) (i : 'I_p) : {ffun 'I_p -> R} :=
  put x i (draw i (exp (v i + \sum_(j | j != i) x j * theta j i)))%:R.
Lemma fold_out l x j : j \notin l -> foldl step x l j = x j.
Proof.
elim: l x => [|i l IH] x //=; rewrite inE negb_or => /andP [ji jl]; rewrite IH // ffunE (negbTE ji) //.
Qed.
Lemma sweep_ok (x : {ffun 'I_p -> R}) i : gibbs_sweep theta v draw x i =
  (draw i (exp (v i + (\sum_(j : 'I_p | (j < i)%N) gibbs_sweep theta v draw x j * theta j i +
                       \sum_(j : 'I_p | (i < j)%N) x j * theta j i))))%:R.
Proof.
rewrite /gibbs_sweep -/step.
have [l1' [l2 [e lo hi]]] : exists l1' l2, [/\ enum 'I_p = l1' ++ i :: l2, forall j : 'I_p, (j \in l1') = (j < i)%N &
    forall j : 'I_p, (j \in l2) = (i < j)%N].
  exists (take i (enum 'I_p)), (drop i.+1 (enum 'I_p)).
  have ip : (i < size (enum 'I_p))%N by rewrite size_enum_ord.
  have e : enum 'I_p = take i (enum 'I_p) ++ i :: drop i.+1 (enum 'I_p).
    by rewrite -{1}(cat_take_drop i (enum 'I_p)) (drop_nth i ip) nth_ord_enum.
  split=> // j.
    apply/idP/idP => [/(nthP i) [k]|ji].
      rewrite size_take ip => ki; rewrite nth_take // => <-; rewrite -[X in nth _ _ X]/(nat_of_ord (Ordinal (ltn_trans ki (ltn_ord i)))).
      by rewrite nth_ord_enum.
    apply/(nthP i); exists (j : nat); first by rewrite size_take ip.
    by rewrite nth_take // nth_ord_enum.
  apply/idP/idP => [/(nthP i) [k]|ij].
    rewrite size_drop size_enum_ord ltn_subRL => ki; rewrite nth_drop => <-.
    by rewrite -[X in nth _ _ X]/(nat_of_ord (Ordinal ki)) nth_ord_enum /= leq_addr.
  apply/(nthP i); exists (j - i.+1)%N; first by rewrite size_drop size_enum_ord ltn_sub2r // (leq_ltn_trans ij).
  by rewrite nth_drop subnKC // nth_ord_enum.
have un := enum_uniq 'I_p.
move: un; rewrite e cat_uniq => /and3P [u1 _ /= /andP [il2 u2]].
have key (j : 'I_p) : (j < i)%N -> foldl step x (l1' ++ i :: l2) j = foldl step x l1' j.
  move=> ji; rewrite foldl_cat fold_out // inE negb_or; apply/andP; split.
    by apply: contraL ji => /eqP ->; rewrite ltnn.
  by rewrite hi -leqNgt ltnW.
rewrite {1}foldl_cat /= fold_out // /step ffunE eqxx; congr (draw i (exp (_ + _)))%:R.
rewrite (bigID (fun j : 'I_p => (j < i)%N)) /=; congr (_ + _).
  apply: eq_big => [j|j /andP [_ ji]]; last by rewrite -/step key.
  by case: (ltnP j i) => ji; rewrite ?andbF // andbT; apply: contraL ji => /eqP ->; rewrite ltnn.
apply: eq_big => [j|j /andP [_ ji]]; first by case: (ltngtP i j) => [h|h|/val_inj ->]; rewrite ?andbF ?eqxx // andbT;
  apply: contraL h => /eqP ->; rewrite ltnn.
by rewrite -/step fold_out // lo.
Qed.
End Gibbs.
