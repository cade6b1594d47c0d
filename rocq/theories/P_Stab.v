(** Proofs about stability selection and build_adjacency_matrix. *)
From Coq Require Import Reals Lra Lia String Permutation.
From mathcomp Require Import all_ssreflect all_algebra.
From Verif Require Import RStruct RTac NP Str M_Utils S_Mat S_Utils RMx P_Rules M_Stab P_Scores.
Import Order.TTheory GRing.Theory Num.Theory.

Set Implicit Arguments.
Unset Strict Implicit.
Unset Printing Implicit Defensive.
Local Open Scope ring_scope.

(** * global instability *)
Section Instability.
Variables n T : nat.
Implicit Types ps : seq ('I_T -> 'M[R]_n).
Lemma foldl_count ps t i j (a : R) :
  foldl (fun acc (c : 'I_T -> 'M[R]_n) => acc + (if c t i j != 0 then 1 else 0)) a ps
  = a + (count (fun c : 'I_T -> 'M[R]_n => c t i j != 0) ps)%:R.
Proof.
elim: ps a => [|c ps IH] a /=; first by rewrite addr0.
by rewrite IH natrD addrA; case: (_ != 0).
Qed.
Lemma meanE ps t i j : mean_connectivity ps t i j = (count (fun c : 'I_T -> 'M[R]_n => c t i j != 0) ps)%:R / (size ps)%:R.
Proof. by rewrite /mean_connectivity foldl_count add0r. Qed.
Lemma mean01 ps t i j : 0 <= mean_connectivity ps t i j <= 1.
Proof.
rewrite meanE divr_ge0 ?ler0n //=; case: (posnP (size ps)) => [->|h]; first by rewrite invr0 mulr0 ler01.
by rewrite ler_pdivr_mulr ?ltr0n // mul1r ler_nat count_size.
Qed.
Lemma xi_le (m : R) : 2%:R * m * (1 - m) <= 1 / 2%:R.
Proof. have := sqr_ge0 (m - 1 / 2%:R); by move=> h; mcnra. Qed.
Lemma xi_ge0 (m : R) : 0 <= m <= 1 -> 0 <= 2%:R * m * (1 - m).
Proof. by case/andP=> h1 h2; rewrite !mulr_ge0 ?ler0n // subr_ge0. Qed.
Lemma xi_eq0 ps t i j : ps <> [::] ->
  2%:R * mean_connectivity ps t i j * (1 - mean_connectivity ps t i j) = 0 <->
  (forall c c', List.In c ps -> List.In c' ps -> (c t i j == 0) = (c' t i j == 0)).
Proof.
move=> h; have s0 : (0 < size ps)%N by case: ps h.
have sn : ((size ps)%:R : R) != 0 by rewrite pnatr_eq0 -lt0n.
have e2 : (1 : R) - mean_connectivity ps t i j = (count (fun c : 'I_T -> 'M[R]_n => c t i j == 0) ps)%:R / (size ps)%:R.
  rewrite meanE -{1}(divff sn) -mulrBl -{1}(count_predC (fun c : 'I_T -> 'M[R]_n => c t i j == 0) ps).
  by rewrite natrD addrK.
have key : (2%:R * mean_connectivity ps t i j * (1 - mean_connectivity ps t i j) == 0 :> R) =
    (count (fun c : 'I_T -> 'M[R]_n => c t i j != 0) ps == 0%N) || (count (fun c : 'I_T -> 'M[R]_n => c t i j == 0) ps == 0%N).
  rewrite e2 meanE !mulf_eq0 invr_eq0 !pnatr_eq0 (gtn_eqF s0) !orbF.
  by rewrite /=.
have cnt0 (P : pred ('I_T -> 'M[R]_n)) : count P ps == 0%N <-> forall c, List.In c ps -> ~~ P c.
  elim: (ps) => [|c l IH] /=; first by split.
  rewrite addn_eq0; split=> [/andP[h1 /IH h2] c' [<-|/h2] //|h1]; first by move: h1; case: (P c).
  by rewrite (negbTE (h1 c (or_introl erefl))) /=; apply/IH => c' hc'; apply: h1; right.
split=> [/eqP|h1].
  rewrite key => /orP[] /cnt0 h1 c c' /h1 hc /h1 hc'; first by rewrite (negPn hc) (negPn hc').
  by rewrite (negbTE hc) (negbTE hc').
apply/eqP; rewrite key; case: ps h s0 sn e2 key cnt0 h1 => // c ps _ _ _ _ _ cnt0 h1.
case E: (c t i j == 0); apply/orP; [left | right]; apply/cnt0 => c' hc'.
  by rewrite negbK -(h1 c c') //; left.
by rewrite -(h1 c c') ?E //; left.
Qed.
Definition pairs_sum : R := \sum_(t < T) \sum_(i < n) \sum_(j < n | (i < j)%N) 1.
Lemma pairs_sumE : pairs_sum = binom2 n * T%:R.
Proof.
rewrite /pairs_sum sumr_const card_ord -[LHS]mulr_natr; congr (_ * _); rewrite /binom2.
rewrite -triangular_sum (big_mkord predT (fun i => i)) natr_sum.
rewrite (eq_bigr (fun i : 'I_n => \sum_(j < n) (if (i < j)%N then 1 else 0))); last by move=> i _; rewrite big_mkcond.
rewrite exchange_big; apply: eq_bigr => j _; rewrite -big_mkcond sumr_const.
congr (_%:R); rewrite -[RHS](card_ord j).
rewrite -(card_imset _ (_ : injective (widen_ord (ltnW (ltn_ord j))))); last by move=> x y [] /val_inj.
apply: eq_card => i; apply/idP/imsetP => [h|[x _ ->]]; last by rewrite unfold_in; exact: (ltn_ord x).
by exists (Ordinal h) => //; apply: val_inj.
Qed.
Lemma xi_sum_bounds ps : 0 <= xi_sum ps <= 1 / 2%:R * (binom2 n * T%:R).
Proof.
rewrite -pairs_sumE /xi_sum /pairs_sum; apply/andP; split.
  by do 3 (apply: sumr_ge0 => ? _); apply: xi_ge0; apply: mean01.
rewrite mulr_sumr; apply: ler_sum => t _; rewrite mulr_sumr; apply: ler_sum => i _.
by rewrite mulr_sumr; apply: ler_sum => j _; rewrite mulr1; apply: xi_le.
Qed.
Lemma binom2_gt0 : (1 < n)%N -> (0 < T)%N -> 0 < binom2 n * T%:R.
Proof. by move=> h1 h2; rewrite mulr_gt0 // ltr0n // bin_gt0. Qed.
Lemma instability_val ps : (1 < n)%N -> (0 < T)%N -> ps <> [::] ->
  global_instability ps = Val (Fin (xi_sum ps / (binom2 n * T%:R))).
Proof.
move=> h1 h2 h3; rewrite /global_instability; case: eqP => [/size0nil //|_].
by rewrite /xdiv (gt_eqF (binom2_gt0 h1 h2)).
Qed.
Lemma xi_sum_eq0 ps : ps <> [::] -> xi_sum ps = 0 <->
  (forall c c' t (i j : 'I_n), List.In c ps -> List.In c' ps -> (i < j)%N -> (c t i j == 0) = (c' t i j == 0)).
Proof.
move=> hp; have pos t i j : 0 <= 2%:R * mean_connectivity ps t i j * (1 - mean_connectivity ps t i j).
  by apply: xi_ge0; apply: mean01.
split=> [h c c' t i j hc hc' hij|h].
  apply: (proj1 (xi_eq0 t i j hp)) => //.
  have h1 := psumr_eq0P (fun t _ => sumr_ge0 _ (fun i _ => sumr_ge0 _ (fun j _ => pos t i j))) h (isT : predT t).
  have h2 := psumr_eq0P (fun i _ => sumr_ge0 _ (fun j _ => pos t i j)) (h1 t) (isT : predT i).
  exact: (psumr_eq0P (fun j _ => pos t i j) (h2 i) hij).
by do 2 (apply: big1 => ? _); apply: big1 => j hj; apply/xi_eq0 => // c c' hc hc'; apply: h.
Qed.
Lemma instability ps : (1 < n)%N -> (0 < T)%N -> ps <> [::] ->
  exists r, [/\ global_instability ps = Val (Fin r), 0 <= r <= 1 / 2%:R &
    (r = 0 <-> forall c c' t (i j : 'I_n), List.In c ps -> List.In c' ps -> (i < j)%N ->
       (c t i j == 0) = (c' t i j == 0))].
Proof.
move=> h1 h2 h3; have B0 := binom2_gt0 h1 h2.
eexists; split; first exact: instability_val.
  case/andP: (xi_sum_bounds ps) => x0 x1; rewrite divr_ge0 //= ?ler_pdivr_mulr //; exact: ltW.
rewrite -xi_sum_eq0 //; split=> [/eqP|->]; last by rewrite mul0r.
by rewrite mulf_eq0 invr_eq0 (gt_eqF B0) orbF => /eqP.
Qed.
Lemma instability_perm ps ps' : Permutation.Permutation ps ps' ->
  global_instability ps = global_instability ps' /\ upper_bound ps = upper_bound ps'.
Proof.
move=> hp.
have hs : size ps = size ps' by apply: Permutation.Permutation_length.
have hc P : count P ps = count P ps'.
  by elim: hp {hs} => //= [x l l' _ ->|x y l|l l' l'' _ -> _ ->] //; rewrite addnCA.
have hx : xi_sum ps = xi_sum ps'.
  by do 3 (apply: eq_bigr => ? _); rewrite !meanE hc hs.
by rewrite /global_instability /upper_bound hs hx.
Qed.
Lemma upper_bound_ge ps : (1 < n)%N -> (0 < T)%N -> ps <> [::] ->
  exists r u, [/\ global_instability ps = Val (Fin r), upper_bound ps = Val (Fin u), 2%:R * r <= u & u <= 1].
Proof.
move=> h1 h2 h3; have B0 := binom2_gt0 h1 h2.
have Be : binom2 n * T%:R = T%:R * n%:R * (n%:R - 1) / 2%:R :> R.
  rewrite /binom2; have -> : ('C(n, 2)%:R : R) = n%:R * (n%:R - 1) / 2%:R; last by mcring.
  have : ('C(n, 2) * 2 = n * n.-1)%N by rewrite muln2 bin2 -[RHS]odd_double_half oddM; case: (n) => //= k; rewrite andNb.
  move/(congr1 (fun k : nat => k%:R : R)); rewrite !natrM.
  have -> : (n.-1%:R : R) = n%:R - 1 by case: (n) h1 => // k _; rewrite -[in RHS](addn1 k) natrD addrK.
  by move=> <-; mcfield.
have [r [hr /andP[r0 r1] _]] := instability h1 h2 h3.
have hr' : r = xi_sum ps / (binom2 n * T%:R) by have := instability_val h1 h2 h3; rewrite hr => -[].
exists r, (4%:R * r * (1 - r)); split=> //.
- rewrite /upper_bound; case: eqP => [/size0nil //|_].
  by rewrite /xdiv -Be (gt_eqF B0) -hr'.
- by mcnra.
- have := sqr_ge0 (2%:R * r - 1); by move=> h; mcnra.
Qed.
End Instability.
