(** Grids exist; two-variable computations; the direct sampler. *)
From Coq Require Import Reals.
From mathcomp Require Import all_ssreflect all_algebra.
From Verif Require Import RStruct RTac S_Prob P_Prob S_Ising M_Ising P_Ising P_Ising2 P_Ising3 P_Ising4.
Import Order.TTheory GRing.Theory Num.Theory.

Set Implicit Arguments.
Unset Strict Implicit.
Unset Printing Implicit Defensive.
Local Open Scope ring_scope.

Lemma grid_exists (l : seq R) : (forall t, t \in l -> 0 <= t <= 1) ->
  exists g, grid_ok g /\ (forall t : R, t \in l -> t \in g).
Proof.
move=> l01; pose g := sort <=%R (0 :: 1 :: l); exists g.
have mg t : (t \in g) = (t \in 0 :: 1 :: l) by rewrite mem_sort.
have sg : size g = (size l).+2 by rewrite size_sort.
have g01 t : t \in g -> 0 <= t <= 1.
  by rewrite mg !inE => /or3P [/eqP ->|/eqP ->|/l01 //]; rewrite ?lexx ?ler01.
have st : sorted <=%R g by apply: sort_sorted; exact: le_total.
have mon i j : (i <= j)%N -> (j < size g)%N -> nth 0 g i <= nth 0 g j.
  move=> ij jg; apply: (sorted_leq_nth (@le_trans _ _) (@lexx _ _)) => //; rewrite inE //; exact: leq_ltn_trans ij jg.
split; last by move=> t tl; rewrite mg !inE tl !orbT.
split; rewrite ?sg //.
  have /(nthP 0) [i ig e] : 0 \in g by rewrite mg inE eqxx.
  have h := mon 0%N i (leq0n _) ig; rewrite e in h.
  apply/eqP; rewrite eq_le h /=; have /g01 /andP [] // : nth 0 g 0 \in g by rewrite mem_nth // sg.
have /(nthP 0) [i ig e] : 1 \in g by rewrite mg !inE eqxx orbT.
have h : nth 0 g i <= nth 0 g (size l).+1 by apply: mon; [rewrite -ltnS -sg | rewrite sg].
rewrite e in h; apply/eqP; rewrite eq_le h andbT; have /g01 /andP [] // : nth 0 g (size l).+1 \in g by rewrite mem_nth // sg.
Qed.

Lemma ising_grid p (theta : 'M[R]_p) thr beta r : exists g : seq R,
  [/\ grid_ok g, 1 / 2%:R \in g & forall i c, p_plus theta thr beta r i (values r c) \in g].
Proof.
pose l := 1 / 2%:R :: [seq pp theta thr beta r ic.1 ic.2 | ic <- enum [finType of 'I_p * config p]].
have [t|g [gok gl]] := @grid_exists l.
  rewrite inE => /orP [/eqP ->|/mapP [ic _ ->]]; last by rewrite !ltW ?pp_gt0 ?pp_lt1.
  by apply/andP; split; mclra.
exists g; split=> //; first by apply: gl; rewrite mem_head.
move=> i c; apply: gl; rewrite inE; apply/orP; right; apply/mapP; exists (i, c) => //; exact: mem_enum.
Qed.
