(** C188: write_network and read_network. *)
From Coq Require Import Reals ZArith Lra.
From mathcomp Require Import all_ssreflect all_algebra.
From Verif Require Import RStruct RTac M_Utils M_Network P_Network T_Network M_WriteNet.
Import Order.TTheory GRing.Theory Num.Theory.

Set Implicit Arguments.
Unset Strict Implicit.
Unset Printing Implicit Defensive.
Local Open Scope ring_scope.

Lemma text_rows g h (W : frame) : pmap to_row (write_network false g h W) = [seq (i, j, W i j) | i <- g, j <- h].
Proof.
rewrite /write_network cat0s; elim: g => // i g IH /=; rewrite pmap_cat IH; congr (_ ++ _).
by elim: h {IH} => // j h IH /=; rewrite IH.
Qed.
Lemma text_all g h (W : frame) : all (fun l => to_row l != None) (write_network false g h W).
Proof. by rewrite /write_network cat0s; apply/allP=> l /allpairsP[[i j] [_ _ ->]]. Qed.

Section Rows.
Variables (g : seq nat) (W : frame).
Hypothesis gs : sorted ltn g.
Notation nn := [seq (i, j, W i j) | i <- g, j <- g].
Lemma mem_rows i j w : ((i, j, w) \in nn) = [&& i \in g, j \in g & w == W i j].
Proof.
apply/allpairsP/idP => [[[a b] [/= ag bg [-> -> ->]]]|/and3P[ig jg /eqP ->]]; first by rewrite ag bg /=.
by exists (i, j).
Qed.
Lemma genes_rows : genes nn = g.
Proof.
have ug : uniq g by have := gs; rewrite ltn_sorted_uniq_leq => /andP[].
apply: (@sorted_eq _ leq leq_trans anti_leq); first by have := genes_sorted nn; rewrite ltn_sorted_uniq_leq => /andP[].
  by have := gs; rewrite ltn_sorted_uniq_leq => /andP[].
apply: uniq_perm => //; first exact: genes_uniq.
move=> i; rewrite mem_genes; apply/mapP/idP => [[[[a b] w] rn ->]|ig]; first by move: rn; rewrite mem_rows => /and3P[].
by exists (i, i, W i i); rewrite // mem_rows ig /=.
Qed.
End Rows.

(** Without a header, a symmetric table over the genes g comes back with its negative entries replaced by zero, its diagonal included, when
    the file is not taken for a full network or the number of genes is even. *)
Theorem C188_roundtrip : forall sort_values g (W : frame) full, sorts_down sort_values -> sorted ltn g -> (forall i j, W i j = W j i) ->
  full = false \/ odd (size g) = false ->
  exists net, read_lines sort_values (write_network false g g W) 1 full false = Val (Some (g, net)) /\
    forall i j, i \in g -> j \in g -> net i j = Num.max (W i j) 0.
Proof.
move=> sv g W full hs gs sW hf; rewrite /read_lines text_all text_rows /read_network genes_rows //.
set nn := [seq _ | i <- g, j <- g]; have [ps _] := hs nn.
have -> : n_kept nn 1 full = size nn.
  case: full hf => [[//|ev]|_]; last exact: n_kept1.
  by apply: n_kept2; rewrite /nn size_allpairs oddM ev.
rewrite take_oversize ?(perm_size ps) //.
have [|net [-> hn]] := @add_rows_table g W (sv nn) sW _ (fun _ _ => 0).
  by move=> [[a b] w]; rewrite (perm_mem ps) mem_rows => /and3P[ag bg /eqP ->].
exists net; split=> // i j ig jg; rewrite hn.
have -> : (i, j) \in [seq r.1 | r <- sv nn].
  by rewrite (perm_mem (perm_map _ ps)); apply/mapP; exists (i, j, W i j); rewrite // mem_rows ig jg /=.
by rewrite /=; case: (ltrP 0 (W i j)).
Qed.
Print Assumptions C188_roundtrip.

(** With the header that pandas writes since version 1.0 no table can be read back. *)
Theorem C188_header_refuted : forall sort_values index columns (W : frame) threshold full fill,
  read_lines sort_values (write_network true index columns W) threshold full fill = Raise TypeError.
Proof. by []. Qed.
Print Assumptions C188_header_refuted.

Lemma n_kept_odd nn : odd (size nn) -> n_kept nn 1 true = (size nn).-1.
Proof.
move=> o; rewrite /n_kept mulr1; have e := odd_double_half (size nn); rewrite o add1n in e.
have -> : Int_part ((size nn)%:R / 2%:R) = Z.of_nat (size nn)./2.
  have h : (size nn)%:R / 2%:R = INR (size nn)./2 + 2%:R^-1.
    rewrite -{1}e -add1n natrD -mul2n natrM -RnatE; move: ((size nn)./2%:R) => x; mcfield.
  rewrite h /Int_part; have -> : up (INR (size nn)./2 + 2%:R^-1) = Z.add (Z.of_nat (size nn)./2) (Zpos xH).
    apply/esym/tech_up; rewrite plus_IZR -INR_IZR_INZ; move: (INR _) => x; toR; lra.
  by rewrite Z.add_simpl_r.
by rewrite Nat2Z.id -{2}e mul2n.
Qed.
(** With an odd number of genes the file of a full network loses its smallest entry: when that is on the diagonal, positive, and smaller than
    all others, it is read as zero. *)
Theorem C188_odd_refuted : forall sort_values g (W : frame) k, sorts_down sort_values -> sorted ltn g -> (forall i j, W i j = W j i) ->
  odd (size g) -> k \in g -> 0 < W k k -> (forall i j, i \in g -> j \in g -> (i, j) <> (k, k) -> W k k < W i j) ->
  exists net, read_lines sort_values (write_network false g g W) 1 true false = Val (Some (g, net)) /\ net k k = 0.
Proof.
move=> sv g W k hs gs sW og kg wk hk; rewrite /read_lines text_all text_rows /read_network genes_rows //.
set nn := [seq _ | i <- g, j <- g]; have [ps so] := hs nn.
have ug : uniq g by have := gs; rewrite ltn_sorted_uniq_leq => /andP[].
have un : uniq (sv nn).
  by rewrite (perm_uniq ps); apply: allpairs_uniq => // -[a b] [c d] _ _ /= [-> ->].
have on : odd (size nn) by rewrite /nn size_allpairs oddM og.
rewrite (n_kept_odd on).
have kn : (k, k, W k k) \in sv nn by rewrite (perm_mem ps) mem_rows kg /=.
have last_k : exists s, sv nn = rcons s (k, k, W k k).
  case/lastP E: (sv nn) => [|s r]; first by rewrite E in kn.
  exists s; congr rcons; move: kn; rewrite E mem_rcons inE => /orP[/eqP -> //|ks].
  have tr : transitive (fun r r' : row => r'.2 <= r.2) by move=> b a c h1 h2; exact: le_trans h2 h1.
  have := so; rewrite E (sorted_pairwise tr) pairwise_rcons => /andP[/allP /(_ _ ks) /= rk _].
  have rn : r \in nn by rewrite -(perm_mem ps) E mem_rcons mem_head.
  case: r rk rn E => [[a b] w] /= wle; rewrite mem_rows => /and3P[ag bg /eqP we] E.
  case: (eqVneq (a, b) (k, k)) => [[ea eb]|/eqP ne]; first by rewrite we ea eb.
  by have := hk _ _ ag bg ne; rewrite -we ltNge wle.
have [s es] := last_k; have sz : (size nn).-1 = size s by rewrite -(perm_size ps) es size_rcons.
rewrite sz es -cats1 take_size_cat //.
have mem_s r : r \in s -> r \in nn by move=> rs; rewrite -(perm_mem ps) es mem_rcons inE rs orbT.
have [|net [-> hn]] := @add_rows_table g W s sW _ (fun _ _ => 0).
  by move=> [[a b] w] /mem_s; rewrite mem_rows => /and3P[ag bg /eqP ->].
exists net; split=> //; rewrite hn; case: ifP => // /andP[]; rewrite orbb => /mapP[[[a b] w] rs /= [ea eb]].
have := mem_s _ rs; rewrite mem_rows => /and3P[_ _ /eqP we].
by move: un rs; rewrite es rcons_uniq we -ea -eb => /andP[/negbTE ->].
Qed.
Print Assumptions C188_odd_refuted.

Example C188_case : exists W : frame, [/\ forall i j, W i j = W j i, sorted ltn [:: 1; 2; 5]%N, 0 < W 2%N 2%N &
  forall i j, (i, j) <> (2, 2)%N -> W 2%N 2%N < W i j].
Proof.
exists (fun i j => if (i == 2%N) && (j == 2%N) then 1 else 2%:R); split=> [i j|//||i j ne]; rewrite ?eqxx ?ltr01 //=; first by rewrite andbC.
by case: ifP => [/andP[/eqP ei /eqP ej]|_]; [case: ne; rewrite ei ej | rewrite ltr1n].
Qed.
