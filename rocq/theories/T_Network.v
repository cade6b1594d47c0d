(** Property theorems C149: read_network. *)
From Coq Require Import Reals ZArith Lra.
From mathcomp Require Import all_ssreflect all_algebra.
From Verif Require Import RStruct RTac M_Network P_Network.
Import Order.TTheory GRing.Theory Num.Theory.

Set Implicit Arguments.
Unset Strict Implicit.
Unset Printing Implicit Defensive.
Local Open Scope ring_scope.

(** sort_values(2, ascending=False): the same rows, the heaviest first (ties in any order) *)
Definition sorts_down (sort_values : seq row -> seq row) : Prop :=
  forall nn, perm_eq (sort_values nn) nn /\ sorted (fun r r' : row => r'.2 <= r.2) (sort_values nn).
(** the quadratic form of a frame over its genes *)
Definition form (net : seq nat * frame) (x : nat -> R) : R := \sum_(i <- net.1) \sum_(j <- net.1) net.2 i j * (x i * x j).

(** the genes in increasing order, a symmetric frame without negative entries *)
Theorem C149_shape : forall sort_values nn threshold full fill cols net, read_network sort_values nn threshold full fill = Some (cols, net) ->
  [/\ sorted ltn cols, (forall i, i \in cols <-> exists r, r \in nn /\ r.1.1 = i), (forall i j, net i j = net j i) & (forall i j, 0 <= net i j)].
Proof.
move=> sv nn th full fill cols net; rewrite /read_network; case e: (add_rows _ _ _) => [net0|//] [<- <-].
have [g1 g2] : good net0 by apply: add_rows_good e.
split; first exact: genes_sorted.
- move=> i; rewrite mem_genes; split=> [/mapP[r rn ->]|[r [rn <-]]]; first by exists r.
  by apply/mapP; exists r.
- by case: fill => // i j; rewrite /fill_diag [j == i]eq_sym; case: eqP => [->//|_].
- by case: fill => // i j; rewrite /fill_diag; case: eqP => // _; apply: sumr_ge0.
Qed.
Print Assumptions C149_shape.

(** a file that lists both directions of every edge of a symmetric table is read back, except for the negative weights, which become 0 *)
Theorem C149_full : forall sort_values g (W : frame) nn fill, sorts_down sort_values -> sorted ltn g -> (1 < size g)%N ->
  (forall i j, W i j = W j i) -> perm_eq nn [seq (i, j, W i j) | i <- g, j <- [seq j <- g | j != i]] ->
  exists net, read_network sort_values nn 1 true fill = Some (g, net) /\
    (forall i j, i \in g -> j \in g -> i <> j -> net i j = Num.max (W i j) 0) /\
    (forall i, i \in g -> net i i = if fill then \sum_(j <- g | j != i) Num.max (W i j) 0 else 0).
Proof.
move=> sv g W nn fill hs gs g2 sW pn.
have ug : uniq g by have := gs; rewrite ltn_sorted_uniq_leq => /andP[].
have mem_nn i j w : ((i, j, w) \in nn) = [&& i \in g, j \in g, j != i & w == W i j].
  rewrite (perm_mem pn); apply/idP/idP.
    by move=> /allpairsPdep[a [b [ag]]]; rewrite mem_filter => /andP[ba bg] [-> -> ->]; rewrite ag bg ba /=.
  move=> /and4P[ig jg ji /eqP ->]; apply/allpairsPdep; exists i, j; split=> //.
  by rewrite mem_filter ji jg.
have eg : genes nn = g.
  apply: (@sorted_eq _ leq leq_trans anti_leq); first by have := genes_sorted nn; rewrite ltn_sorted_uniq_leq => /andP[].
    by have := gs; rewrite ltn_sorted_uniq_leq => /andP[].
  apply: uniq_perm => //; first exact: genes_uniq.
  move=> i; rewrite mem_genes; apply/mapP/idP => [[[[a b] w] rn ->]|ig]; first by move: rn; rewrite mem_nn => /and4P[].
  have [j jg ji] : exists2 j, j \in g & j != i.
    case: g ug g2 ig {gs pn mem_nn} => [|a [|b g]] //= /andP[ab _] _ _.
    case: (eqVneq a i) ab => [->|ai ab]; last by exists a; rewrite ?mem_head.
    by rewrite inE negb_or eq_sym => /andP[bi _]; exists b; rewrite ?inE ?eqxx ?orbT.
  by exists (i, j, W i j); rewrite // mem_nn ig jg ji /=.
have ev : ~~ odd (size nn).
  rewrite (perm_size pn) size_allpairs_dep.
  have -> : sumn [seq size [seq j <- g | j != i] | i <- g] = (size g * (size g).-1)%N.
    have -> : [seq size [seq j <- g | j != i] | i <- g] = [seq (fun=> (size g).-1) i | i <- g].
      apply/eq_in_map => i ig /=; rewrite size_filter; have := count_predC (pred1 i) g.
      by rewrite (count_uniq_mem _ ug) ig => <-.
    have -> : [seq (fun=> (size g).-1) i | i <- g] = nseq (size g) (size g).-1 by elim: (g) ((size g).-1) => //= a l IH k; rewrite -IH.
    by rewrite sumn_nseq mulnC.
  by case: (size g) => // k; rewrite oddM /= andNb.
have [ps so] := hs nn.
rewrite /read_network n_kept2 // take_oversize ?(perm_size ps) // eg.
have [|net [-> hn]] := @add_rows_table g W (sv nn) sW _ (fun _ _ => 0).
  by move=> [[a b] w]; rewrite (perm_mem ps) mem_nn => /and4P[ag bg ba /eqP ->].
have mem1 a b : ((a, b) \in [seq r.1 | r <- sv nn]) = [&& a \in g, b \in g & b != a].
  rewrite (perm_mem (perm_map _ ps)); apply/mapP/idP => [[[[a' b'] w] rn [-> ->]]|/and3P[ag bg ba]].
    by move: rn; rewrite mem_nn => /and4P[-> -> -> _].
  by exists (a, b, W a b); rewrite // mem_nn ag bg ba /=.
have net_off i j : i \in g -> j \in g -> i != j -> net i j = Num.max (W i j) 0.
  by move=> ig jg ij; rewrite hn !mem1 ig jg ij /= ?orbT; case: (ltrP 0 (W i j)).
have net_diag i : net i i = 0 by rewrite hn !mem1 eqxx !andbF.
exists (if fill then fill_diag g net else net); split=> //; split.
  by move=> i j ig jg /eqP ij; case: (fill); rewrite /fill_diag ?(negbTE ij) net_off.
move=> i ig; case: (fill); rewrite /fill_diag ?eqxx ?net_diag // (bigD1_seq i) //= net_diag add0r.
rewrite big_seq_cond [RHS]big_seq_cond; apply: eq_bigr => j /andP[jg ji].
by rewrite net_off // eq_sym.
Qed.
Print Assumptions C149_full.

(** "only the top threshold edges": the rows that are dropped are not heavier than those that are kept; their number *)
Theorem C149_top : forall sort_values nn threshold full, sorts_down sort_values -> 0 <= threshold <= 1 ->
  let k := n_kept nn threshold full in
  (forall r r', r \in take k (sort_values nn) -> r' \in drop k (sort_values nn) -> r'.2 <= r.2) /\
  k%:R <= (size nn)%:R * threshold < k%:R + (if full then 2%:R else 1).
Proof.
move=> sv nn th full hs /andP[t0 t1] k; have [_ so] := hs nn; split.
  move=> r r' h h'; have tr : transitive (fun r r' : row => r'.2 <= r.2) by move=> b a c h1 h2; exact: le_trans h2 h1.
  have := so; rewrite -(cat_take_drop k (sv nn)) (sorted_pairwise tr) pairwise_cat => /and3P[/allrelP h1 _ _].
  exact: h1.
rewrite /k /n_kept; have x0 : 0 <= (size nn)%:R * th by rewrite mulr_ge0 ?ler0n.
have fl (x : R) : 0 <= x -> (Z.to_nat (Int_part x))%:R <= x < (Z.to_nat (Int_part x))%:R + 1.
  move=> /RleP y0'; have y0 : Rle (IZR 0) x := y0'; have [b1 b2] := base_Int_part x.
  have z0 : (Z.le 0 (Int_part x)).
    by apply: Zlt_succ_le; apply: lt_IZR; rewrite succ_IZR; lra.
  have b3 : Rlt x (Rplus (IZR (Int_part x)) (IZR 1)) by lra.
  by rewrite RnatE INR_IZR_INZ Z2Nat.id //; apply/andP; split; [apply/RleP|apply/RltP].
case: (full); rewrite natrM.
  have num (a b : R) : a <= b / 2%:R -> b / 2%:R < a + 1 -> 2%:R * a <= b < 2%:R * a + 2%:R.
    rewrite ler_pdivl_mulr ?ltr0n // ltr_pdivr_mulr ?ltr0n // mulrDl mul1r [a * _]mulrC => h1 h2.
    by rewrite h1 h2.
  by have /andP[h1 h2] := fl _ (divr_ge0 x0 (ler0n _ 2)); apply: num.
by rewrite divr1 mul1r; exact: fl.
Qed.
Print Assumptions C149_top.

(** the filled diagonal makes the matrix positive semidefinite ... *)
Lemma read_dominant sort_values nn threshold full cols net : read_network sort_values nn threshold full true = Some (cols, net) ->
  uniq cols /\ forall i, i \in cols -> 0 <= net i i - \sum_(j <- cols | j != i) net i j.
Proof.
rewrite /read_network; case e: (add_rows _ _ _) => [net0|//] [<- <-].
have [g1 g2] : good net0 by apply: add_rows_good e.
split=> [|i ic]; first exact: genes_uniq.
rewrite {1}/fill_diag eqxx (bigD1_seq i) ?genes_uniq //=.
rewrite [X in _ - X](eq_bigr (fun j => net0 i j)); last by move=> j; rewrite /fill_diag eq_sym => /negbTE ->.
by rewrite addrK.
Qed.
Theorem C149_psd : forall sort_values nn threshold full cols net, read_network sort_values nn threshold full true = Some (cols, net) ->
  forall x, 0 <= form (cols, net) x.
Proof.
move=> sv nn th full cols net e x; have [uc dom] := read_dominant e; have [_ _ sy ge] := C149_shape e.
have := quad_identity x uc sy; rewrite -/(form (cols, net) x) => q.
have : 0 <= 2%:R * form (cols, net) x.
  rewrite q; apply: addr_ge0; first by do 2 apply: sumr_ge0 => ? _; rewrite mulr_ge0 ?sqr_ge0.
  by rewrite mulr_ge0 ?ler0n // big_seq; apply: sumr_ge0 => i ic; rewrite mulr_ge0 ?sqr_ge0 ?dom.
by rewrite pmulr_rge0 ?ltr0n.
Qed.
Print Assumptions C149_psd.
(** ... but not definite, as documented: it is singular for every network without self-interactions whose genes can be coloured with two colours
    (every tree, every even cycle, every bipartite network) *)
Theorem C149_posdef_refuted : forall sort_values nn threshold full cols net (colour : nat -> bool),
  read_network sort_values nn threshold full true = Some (cols, net) ->
  (forall r, r \in nn -> r.1.1 <> r.1.2) -> (forall x, perm_eq (sort_values x) x) ->
  (forall i j, i <> j -> 0 < net i j -> colour i <> colour j) ->
  form (cols, net) (fun i => if colour i then 1 else - 1) = 0.
Proof.
move=> sv nn th full cols net colour e ns pv hc; have [uc _] := read_dominant e; have [_ _ sy ge] := C149_shape e.
set x := fun i => _; have := quad_identity x uc sy; rewrite -/(form (cols, net) x) => q.
apply/eqP; rewrite -(mulrI_eq0 _ (mulfI (_ : 2%:R != 0 :> R))) ?pnatr_eq0 // q big1 ?add0r; last first.
  move=> i _; rewrite big1 // => j /eqP ij; have := ge i j; rewrite le_eqVlt => /orP[/eqP <-|g0]; first by rewrite mul0r.
  have := hc i j (fun h => ij (esym h)) g0; rewrite /x; case: (colour i); case: (colour j) => // _; by rewrite ?subrr ?addNr expr0n mulr0.
rewrite big_seq big1 ?mulr0 // => i ic.
suff -> : net i i - \sum_(j <- cols | j != i) net i j = 0 by rewrite mul0r.
move: e; rewrite /read_network; case e: (add_rows _ _ _) => [net0|//] [ec <-].
have z : net0 i i = 0.
  by apply: add_rows_diag e => // r /mem_take; rewrite (perm_mem (pv nn)) => /ns.
rewrite {1}/fill_diag eqxx -ec; rewrite (bigD1_seq i) ?genes_uniq //=; last by rewrite ec.
rewrite [X in _ - X](eq_bigr (fun j => net0 i j)); last by move=> j; rewrite /fill_diag eq_sym => /negbTE ->.
by rewrite addrK z.
Qed.
Print Assumptions C149_posdef_refuted.
(** full_network=False, the upper triangle only: the last gene is never a label, so that the frame is enlarged *)
Theorem C149_upper_refuted : forall sort_values nn fill, (forall x, perm_eq (sort_values x) x) ->
  nn != [::] -> (forall r, r \in nn -> (r.1.1 < r.1.2)%N /\ 0 < r.2) -> read_network sort_values nn 1 false fill = None.
Proof.
move=> sv nn fill ps ne hu; rewrite /read_network n_kept1 take_oversize ?(perm_size (ps nn)) //.
have [r rn hr] : exists2 r, r \in nn & forall r', r' \in nn -> (r'.1.2 <= r.1.2)%N.
  elim: nn ne {hu} => // a l IH _; case: (eqVneq l [::]) => [->|/IH [r rl hr]].
    by exists a; rewrite ?mem_head // => r'; rewrite inE => /eqP ->.
  case: (leqP a.1.2 r.1.2) => h; first by exists r; [rewrite inE rl orbT|move=> r'; rewrite inE => /orP[/eqP -> //|/hr]].
  exists a; first exact: mem_head.
  by move=> r'; rewrite inE => /orP[/eqP -> //|/hr h']; apply: leq_trans h' (ltnW h).
rewrite (@add_rows_none _ _ r) ?(perm_mem (ps nn)) //; first by case: (hu r rn).
rewrite mem_genes; apply/mapP => -[r' r'n e']; have [h1 _] := hu r' r'n; have := hr r' r'n.
by rewrite -ltnS e' ltnS leqNgt h1.
Qed.
Print Assumptions C149_upper_refuted.

(** two genes that interact: read back as a singular matrix; listed once, not read at all *)
Definition stable_down (l : seq row) : seq row := sort (fun r r' : row => r'.2 <= r.2) l.
Lemma stable_down_ok : sorts_down stable_down.
Proof. by move=> nn; split; [rewrite perm_sort|apply: sort_sorted => a b; exact: le_total]. Qed.
Example C149_case : exists net, read_network stable_down [:: (1, 2, 5%:R); (2, 1, 5%:R)]%N 1 true true = Some ([:: 1; 2]%N, net) /\
  net 1%N 2%N = 5%:R /\ net 1%N 1%N = 5%:R /\ form ([:: 1; 2]%N, net) (fun i => if i == 1%N then 1 else - 1) = 0.
Proof.
have W0 : Num.max 5%:R 0 = 5%:R :> R by apply/max_idPl; rewrite ler0n.
have [||||net [e [h1 h2]]] := @C149_full stable_down [:: 1; 2]%N (fun _ _ => 5%:R) [:: (1, 2, 5%:R); (2, 1, 5%:R)]%N true stable_down_ok => //.
have e12 : net 1%N 2%N = 5%:R by rewrite h1.
have e21 : net 2%N 1%N = 5%:R by rewrite h1.
have e11 : net 1%N 1%N = 5%:R by rewrite h2 // !big_cons big_nil /= W0 addr0.
have e22 : net 2%N 2%N = 5%:R by rewrite h2 // !big_cons big_nil /= W0 addr0.
exists net; do 3 split=> //.
by rewrite /form /= !big_cons !big_nil /= e11 e12 e21 e22; mclra.
Qed.
Example C149_upper_case : read_network stable_down [:: (1, 2, 5%:R)]%N 1 false true = None.
Proof.
apply: C149_upper_refuted => // [x|r]; first by case: (stable_down_ok x).
by rewrite inE => /eqP -> /=; rewrite ltr0n.
Qed.
