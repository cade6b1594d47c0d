(** Proofs about scores.py and clustering.py. *)
From Coq Require Import Reals Lra Lia.
From mathcomp Require Import all_ssreflect all_algebra.
From Verif Require Import RStruct RTac NP M_Utils S_Mat S_Utils RMx P_Rules M_Prox M_Loop M_GL M_Scores P_Utils2.
Import Order.TTheory GRing.Theory Num.Theory.

Set Implicit Arguments.
Unset Strict Implicit.
Unset Printing Implicit Defensive.
Local Open Scope ring_scope.

(** * representatives and distances *)
Section Clust.
Variable n : nat.
Implicit Types (g r s : 'M[R]_n) (gs : seq 'M[R]_n).

Lemma foldl_sumE gs (s0 : 'M[int]_n) i j :
  foldl (fun s g : 'M[int]_n => s + g) s0 [seq binarise g | g <- gs] i j
  = s0 i j + Posz (count (fun g => g i j != 0) gs).
Proof.
elim: gs s0 => [|g gs IH] s0 /=; first by rewrite addr0.
by rewrite IH !mxE PoszD addrA; case: (_ != 0).
Qed.
Lemma representative gs : gs <> [::] -> exists m : 'M[int]_n, get_representative gs = Val m /\
  forall i j, ((forall g, g \in gs -> g i j <> 0) -> m i j = 1) /\
              ((exists2 g, g \in gs & g i j = 0) -> m i j = 0).
Proof.
move=> h; rewrite /get_representative; case: eqP => [/size0nil //|_]; eexists; split; first by [].
move=> i j; rewrite mxE foldl_sumE mxE add0r eqz_nat -all_count; split.
  by move=> h1; case: allP => // -[] g hg; apply/eqP/h1.
by case=> g hg h0; case: allP => // /(_ g hg); rewrite h0 eqxx.
Qed.

Definition xsupp g r : {set 'I_n * 'I_n} := [set e | (g e.1 e.2 != 0) != (r e.1 e.2 != 0)].
Lemma distanceE g r : graph_distance g r = #|xsupp g r|%:R / 2%:R.
Proof.
rewrite /graph_distance -mulrDl -natrD; congr (_%:R / _).
rewrite -cardUI [X in (_ + X)%N](_ : _ = 0%N) ?addn0; last first.
  by apply/eqP/pred0P => e; rewrite !inE /= !mxE; case: (_ != 0); case: (_ != 0).
by apply: eq_card => e; rewrite !inE /= !mxE; case: (_ != 0); case: (_ != 0).
Qed.
Lemma distance_sym g r : graph_distance g r = graph_distance r g.
Proof. by rewrite !distanceE; congr (_%:R / _); apply: eq_card => e; rewrite !inE eq_sym. Qed.
Lemma distance_ge0 g r : 0 <= graph_distance g r.
Proof. by rewrite distanceE divr_ge0 ?ler0n. Qed.
Lemma distance_eq0 g r : graph_distance g r = 0 <-> same_support g r.
Proof.
rewrite distanceE; split=> [/eqP|h].
  rewrite mulf_eq0 invr_eq0 !pnatr_eq0 orbF cards_eq0 => /eqP/setP h i j.
  by have := h (i, j); rewrite !inE /=; case: (g i j == 0); case: (r i j == 0).
rewrite (_ : xsupp g r = set0) ?cards0 ?mul0r //; apply/setP => e; rewrite !inE h.
by case: (_ == 0).
Qed.
Lemma distance_tri g r s : graph_distance g s <= graph_distance g r + graph_distance r s.
Proof.
rewrite !distanceE -mulrDl -natrD; apply: ler_wpmul2r; first by rewrite invr_ge0 ler0n.
rewrite ler_nat; apply: leq_trans (_ : #|xsupp g r :|: xsupp r s| <= _)%N; last by rewrite cardsU leq_subr.
apply: subset_leq_card; apply/subsetP => e; rewrite !inE.
by case: (g _ _ == 0); case: (r _ _ == 0); case: (s _ _ == 0).
Qed.
Lemma distance_edges g r : sym g -> sym r -> (forall i, (g i i == 0) = (r i i == 0)) ->
  graph_distance g r = (edge_diff g r)%:R.
Proof.
move=> sg sr hd; rewrite distanceE; set k := edge_diff g r.
suff -> : #|xsupp g r| = (k + k)%N by rewrite natrD; mcfield.
pose U := [set e : 'I_n * 'I_n | (e.1 < e.2)%N && ((g e.1 e.2 != 0) != (r e.1 e.2 != 0))].
have kU : k = #|U| by rewrite /k /edge_diff /U cardsE.
pose sw (e : 'I_n * 'I_n) := (e.2, e.1).
have swK : involutive sw by case.
have gE i j : g i j = g j i by rewrite -{1}sg mxE.
have rE i j : r i j = r j i by rewrite -{1}sr mxE.
have -> : xsupp g r = U :|: sw @^-1: U.
  apply/setP => -[i j]; rewrite !inE /= (gE j i) (rE j i) -andb_orl.
  case: (ltngtP i j) => //= /val_inj ->.
  by rewrite hd; case: (_ == 0).
rewrite cardsU (_ : U :&: _ = set0) ?cards0 ?subn0; last first.
  apply/setP => -[i j]; rewrite !inE /=; apply/negbTE/negP => /andP[/andP[h1 _] /andP[h2 _]].
  by have := ltn_trans h1 h2; rewrite ltnn.
rewrite kU; congr (_ + _)%N.
by rewrite -[RHS](card_imset _ (can_inj swK)) -(can2_imset_pre _ swK swK).
Qed.

Lemma np_max_lub l (x0 : R) : (x0 <= foldl np_max x0 l) /\ (forall y, y \in l -> y <= foldl np_max x0 l).
Proof.
elim: l x0 => [|y l IH] x0 /=; first by split.
have [h1 h2] := IH (np_max x0 y); have [m1 m2] : x0 <= np_max x0 y /\ y <= np_max x0 y.
  by rewrite /np_max; case: (ltP x0 y) => h //; split=> //; apply: ltW.
split; first exact: le_trans h1.
by move=> z; rewrite inE => /orP[/eqP ->|]; [exact: le_trans h1 | exact: h2].
Qed.
Lemma np_max_in l x0 : foldl np_max x0 l \in x0 :: l.
Proof.
elim: l x0 => [|y l IH] x0 /=; first by rewrite mem_head.
have := IH (np_max x0 y); rewrite /np_max; case: ifP => _; rewrite !inE => /orP[->|->]; rewrite ?orbT //.
Qed.
End Clust.

(** * the similarity kernel *)
Section Kernel.
Variables (k l : nat) (d : 'M[R]_(k, l.+1)).
Hypothesis d0 : forall i j, 0 <= d i j.
Definition sim : 'M[R]_(k, l.+1) := \matrix_(i, j) (1 - d i j / row_max d i).
Lemma row_max_ge i j : d i j <= row_max d i.
Proof. by have [_] := np_max_lub [seq d i j | j <- enum 'I_l.+1] (d i ord0); apply; apply: map_f; rewrite mem_enum. Qed.
Lemma row_max_pos i j : 0 < d i j -> 0 < row_max d i.
Proof. by move=> h; apply: lt_le_trans (row_max_ge i j). Qed.
Lemma row_max_0 i : (forall j, d i j = 0) -> row_max d i = 0.
Proof.
move=> h; have := np_max_in [seq d i j | j <- enum 'I_l.+1] (d i ord0).
by rewrite inE -/(row_max d i) => /orP[/eqP -> //|/mapP[j _ ->]].
Qed.
Lemma simE i j : 0 < row_max d i -> similarities d i j = Fin (sim i j).
Proof. by move=> h; rewrite /similarities /xdiv (gt_eqF h) mxE. Qed.
Lemma xsum_fin (s : seq R) a : foldl xadd (Fin a) [seq Fin x | x <- s] = Fin (a + \sum_(x <- s) x).
Proof. by elim: s a => [|x s IH] a; rewrite ?big_nil ?addr0 //= IH big_cons addrA. Qed.
Lemma kernelE i i' : 0 < row_max d i -> 0 < row_max d i' ->
  kernel_entry d i i' = Fin ((sim *m sim^T) i i').
Proof.
move=> h h'; rewrite /kernel_entry.
rewrite (eq_map (_ : _ =1 (fun j => Fin (sim i j * sim i' j)))); last by move=> j; rewrite !simE.
rewrite (map_comp (fun x => Fin x) (fun j => sim i j * sim i' j)) xsum_fin add0r big_map big_enum mxE.
by congr Fin; apply: eq_bigr => j _; rewrite [sim^T _ _]mxE.
Qed.
Lemma kernel_nan i i' : (forall j, d i j = 0) -> kernel_entry d i i' = NaN.
Proof.
move=> h; rewrite /kernel_entry.
have e j : similarities d i j = NaN by rewrite /similarities /xdiv row_max_0 // h !eqxx.
have -> : enum 'I_l.+1 = ord0 :: behead (enum 'I_l.+1) by rewrite enum_ordSl.
rewrite map_cons /= e; have : forall s, foldl xadd NaN s = NaN by elim.
by move=> h1; case: (similarities d i' ord0) => [?|||]; apply: h1.
Qed.
Lemma gram_psd : psd (sim *m sim^T).
Proof.
split; first by rewrite /sym trmx_mul trmxK.
move=> v; have -> : quad (sim *m sim^T) v = quad 1%:M (sim^T *m v).
  by rewrite /quad trmx_mul trmxK mulmx1 !mulmxA.
exact: quad1_ge0.
Qed.
Lemma kernel_ok : (forall i, exists j, d i j != 0) -> exists K : 'M[R]_k,
  [/\ forall i i', kernel_entry d i i' = Fin (K i i'), psd K
    & forall i i', 0 <= K i i' <= l%:R].
Proof.
move=> h; have rp i : 0 < row_max d i.
  by case: (h i) => j hj; apply: (@row_max_pos i j); rewrite lt_neqAle eq_sym hj d0.
exists (sim *m sim^T); split; [by move=> i i'; apply: kernelE | exact: gram_psd |].
have s01 i j : 0 <= sim i j <= 1.
  rewrite mxE subr_ge0 ler_pdivr_mulr // mul1r row_max_ge /= ler_subl_addr ler_addl.
  by rewrite divr_ge0 // ltW.
move=> i i'; rewrite mxE; apply/andP; split.
  by apply: sumr_ge0 => j _; rewrite [sim^T _ _]mxE mulr_ge0 //; [case/andP: (s01 i j) | case/andP: (s01 i' j)].
(* the representative at maximal distance has similarity 0 *)
have [j hj] : exists j, sim i j = 0.
  have := np_max_in [seq d i j | j <- enum 'I_l.+1] (d i ord0).
  have dd j : d i j = row_max d i -> sim i j = 0 by move=> e; rewrite mxE e divff ?subrr ?gt_eqF.
  rewrite inE -/(row_max d i) => /orP[/eqP e|/mapP[j _ e]]; [exists ord0 | exists j]; exact: dd.
rewrite (bigD1 j) //= hj mul0r add0r.
apply: le_trans (_ : \sum_(j0 < l.+1 | j0 != j) 1 <= _).
  apply: ler_sum => j0 _; rewrite [sim^T _ _]mxE; case/andP: (s01 i j0) (s01 i' j0) => a b /andP[c e].
  exact: mulr_ile1.
by rewrite sumr_const cardC1 card_ord.
Qed.
End Kernel.

(** * information criteria *)
Section Scores.
Variable p : nat.
Implicit Types S K : 'M[R]_p.
Lemma llE S K : 0 < \det K -> log_likelihood S K = Fin (ln (\det K) - fdot S K).
Proof. by move=> h; rewrite /log_likelihood /batch_logdet h /= ger0_norm // ltW. Qed.
Lemma nonzero_edges K : (forall i, K i i != 0) -> n_nonzero K = (n_edges2 K + p)%N.
Proof.
move=> h; rewrite /n_nonzero /n_edges2.
rewrite -(cardID [pred e : 'I_p * 'I_p | e.1 != e.2] [pred e | K e.1 e.2 != 0]); congr (_ + _)%N.
  by apply: eq_card => e; rewrite !inE /= andbC.
rewrite -[RHS](card_ord p) -(card_imset _ (_ : injective (fun i : 'I_p => (i, i)))); last by move=> i j [].
apply: eq_card => -[i j]; rewrite !inE /= negbK; apply/andP/imsetP => [[/eqP -> _]|[i' _ [-> ->]]].
  by exists j.
by rewrite eqxx.
Qed.
Lemma of_nonzeroE K : (forall i, K i i != 0) -> of_nonzero K = (n_edges2 K)%:R.
Proof. by move=> h; rewrite /of_nonzero nonzero_edges // natrD addrK. Qed.
Lemma bicE S K : 0 < \det K -> (forall i, K i i != 0) ->
  BIC S K = Fin (ln (\det K) - fdot S K - (n_edges2 K)%:R).
Proof. by move=> h1 h2; rewrite /BIC llE // of_nonzeroE. Qed.
Lemma penaltyE (n eps q k : R) : 0 < n -> 0 < q ->
  ebic_penalty n eps q k = Fin ((ln n + 4%:R * eps * ln q) / n * k).
Proof.
move=> hn hq; rewrite /ebic_penalty /np_log ltNge (ltW hn) (gt_eqF hn) ltNge (ltW hq) (gt_eqF hq) /=.
by congr Fin; have h0 := lt0r_neq0 hn; mcfield; toR.
Qed.
Lemma ln_ge0 (x : R) : 1 <= x -> 0 <= ln x.
Proof.
move=> h; apply/RleP; have := ln_1 => e; case/RleP: h => [h|<-]; last by rewrite e; apply: Rle_refl.
have := ln_increasing _ _ Rlt_0_1 h; rewrite e; exact: Rlt_le.
Qed.
Lemma ebicE S K (n eps : R) : 0 < \det K -> (forall i, K i i != 0) -> 0 < n -> (0 < p)%N ->
  EBIC S K n eps = Fin (ln (\det K) - fdot S K - (ln n + 4%:R * eps * ln p%:R) / n * (n_edges2 K)%:R).
Proof. by move=> h1 h2 h3 h4; rewrite /EBIC llE // penaltyE ?of_nonzeroE // ltr0n. Qed.
Lemma ebic_mE S K (n eps : R) : 0 < \det K -> (forall i, K i i != 0) -> 0 < n -> (1 < p)%N ->
  EBIC_m S K n eps = Fin (ln (\det K) - fdot S K -
     (ln n + 4%:R * eps * ln (p%:R * (p%:R - 1) / 2%:R)) / n * (n_edges2 K)%:R).
Proof.
move=> h1 h2 h3 h4; rewrite /EBIC_m llE // penaltyE ?of_nonzeroE //.
have h5 : (1 : R) < p%:R by rewrite -[1]/(1%:R) ltr_nat.
by move: (p%:R) h5 => q h5; rewrite divr_gt0 ?ltr0n // mulr_gt0 //; mclra.
Qed.
End Scores.
Lemma ebic_m_nan (S K : 'M[R]_1) (n eps : R) : 0 < K 0 0 -> 0 < n -> 0 < eps -> EBIC_m S K n eps = NaN.
Proof.
move=> h hn he; rewrite /EBIC_m llE; last by rewrite det_mx11.
have K0 i : K i i != 0 by rewrite ord1 gt_eqF.
rewrite of_nonzeroE //.
have -> : n_edges2 K = 0%N by apply/eqP/pred0P => -[i j] /=; rewrite !ord1 eqxx.
rewrite subrr mulr0 mul0r /ebic_penalty /np_log ltNge (ltW hn) (gt_eqF hn) ltxx eqxx /=.
have e1 : 0 < 4%:R * eps by rewrite mulr_gt0 ?ltr0n.
have e2 : 0 < 1 / n by rewrite divr_gt0 ?ltr01.
by rewrite /xinfmul (gt_eqF e1) e1 /= /xinfmul (gt_eqF e2) e2 /= /xinfmul eqxx.
Qed.

Section ScoreFacts.
Variable p : nat.
Variables (S K : 'M[R]_p).
Hypotheses (dK : 0 < \det K) (gK : forall i, K i i != 0).
Let L := ln (\det K) - fdot S K.
Let E : R := (n_edges2 K)%:R.
Let E0 : 0 <= E. Proof. exact: ler0n. Qed.
Lemma ebic_le (n eps : R) : 1 <= n -> (0 < p)%N -> 0 <= eps ->
  exists2 e, EBIC S K n eps = Fin e & e <= L.
Proof.
move=> hn hp he; have n0 : 0 < n := lt_le_trans ltr01 hn.
eexists; first exact: ebicE; rewrite ler_subl_addr ler_addl mulr_ge0 // divr_ge0 //; last exact: ltW.
by rewrite addr_ge0 ?ln_ge0 // !mulr_ge0 ?ler0n // ln_ge0 // -[1]/(1%:R) ler_nat.
Qed.
Lemma ln_le (x y : R) : 0 < x -> x <= y -> ln x <= ln y.
Proof.
move=> hx; rewrite le_eqVlt => /orP[/eqP -> //|h]; apply: ltW; apply/RltP; apply: ln_increasing; exact/RltP.
Qed.
Lemma ebic_m_le (n eps : R) : 0 < n -> (2 < p)%N -> 0 <= eps ->
  exists a b, [/\ EBIC_m S K n eps = Fin a, EBIC S K n eps = Fin b & a <= b].
Proof.
move=> hn hp he; have hp1 : (1 < p)%N := ltnW hp; have hp0 : (0 < p)%N := ltnW hp1.
do 2 eexists; split; [exact: ebic_mE | exact: ebicE |].
apply: ler_sub => //; apply: ler_wpmul2r => //; apply: ler_wpmul2r; first by rewrite invr_ge0 ltW.
apply: ler_add => //; apply: ler_wpmul2l; first by rewrite mulr_ge0 ?ler0n.
have h3 : (3%:R : R) <= p%:R by rewrite ler_nat.
apply: ln_le; first by rewrite ltr0n.
by move: (p%:R) h3 => q h3; mcnra.
Qed.
Lemma ln100 : ln 100%:R <= 18%:R.
Proof.
have -> : (100%:R : R) = Rmult (10%:R) (10%:R) by rewrite RmultE -natrM.
rewrite ln_mult; try by apply/RltP; rewrite ltr0n.
have : ln (10%:R) <= 10%:R - 1 by apply: ln_le_sub1; rewrite ltr0n.
by move: (ln _) => x h; mclra.
Qed.
Lemma ebic_gt_bic : (0 < n_edges2 K)%N -> (p <= 40)%N ->
  exists a b, [/\ BIC S K = Fin a, EBIC S K 100%:R (1 / 2%:R) = Fin b & a < b].
Proof.
move=> hE hp.
have hp0 : (0 < p)%N.
  by move: hE; rewrite lt0n; apply: contraR; rewrite -eqn0Ngt => /eqP p0; apply/pred0P => -[i j]; have := ltn_ord i; rewrite {2}p0.
do 2 eexists; split; [exact: bicE | apply: ebicE => //; exact: ltr0n |].
rewrite ltr_add2l ltr_opp2 -[X in _ < X]mul1r ltr_pmul2r ?ltr0n // ltr_pdivr_mulr ?ltr0n // mul1r.
have h1 := ln100; have h2 : ln p%:R <= p%:R - 1 by apply: ln_le_sub1; rewrite ltr0n.
have h3 : (p%:R : R) <= 40%:R by rewrite ler_nat.
by move: (ln 100%:R) (ln p%:R) (p%:R) h1 h2 h3 => x y z h1 h2 h3; mclra.
Qed.
End ScoreFacts.
Section TwoVars.
Variables (S K : 'M[R]_2).
Hypotheses (dK : 0 < \det K) (gK : forall i, K i i != 0) (eK : (0 < n_edges2 K)%N).
Lemma ebic_m_gt (n eps : R) : 0 < n -> 0 < eps ->
  exists a b, [/\ EBIC_m S K n eps = Fin a, EBIC S K n eps = Fin b & b < a].
Proof.
move=> hn he; do 2 eexists; split; [exact: ebic_mE | exact: ebicE |].
rewrite ltr_add2l ltr_opp2 ltr_pmul2r ?ltr0n // ltr_pmul2r ?invr_gt0 // ltr_add2l ltr_pmul2l ?mulr_gt0 ?ltr0n //.
apply/RltP; apply: ln_increasing; apply/RltP; mclra.
Qed.
End TwoVars.

Section TimeScores.
Variables (p T : nat) (S K : 'I_T -> 'M[R]_p).
Hypotheses (dK : forall t, 0 < \det (K t)) (gK : forall t i, K t i i != 0).
Lemma ll_t : log_likelihood_t S K = Fin (\sum_t (ln (\det (K t)) - fdot (S t) (K t))).
Proof.
rewrite /log_likelihood_t (eq_map (_ : _ =1 (fun t => Fin (ln (\det (K t)) - fdot (S t) (K t))))).
  by rewrite (map_comp (fun x => Fin x)) xsum_fin add0r big_map big_enum.
by move=> t; apply: llE.
Qed.
Lemma of_nonzero_tE : of_nonzero_t K = \sum_t (n_edges2 (K t))%:R.
Proof.
rewrite /of_nonzero_t (eq_bigr (fun t => (n_edges2 (K t))%:R + p%:R)).
  rewrite big_split /= sumr_const card_ord -[p%:R *+ T]mulr_natr; exact: addrK.
by move=> t _; rewrite nonzero_edges // natrD.
Qed.
Lemma bic_t : BIC_t S K = Fin (\sum_t (ln (\det (K t)) - fdot (S t) (K t) - (n_edges2 (K t))%:R)).
Proof. by rewrite /BIC_t ll_t of_nonzero_tE /= [in RHS]sumrB. Qed.
Lemma bic_t_sum (b : 'I_T -> R) : (forall t, BIC (S t) (K t) = Fin (b t)) -> BIC_t S K = Fin (\sum_t b t).
Proof.
by move=> h; rewrite bic_t; congr Fin; apply: eq_bigr => t _; have := h t; rewrite bicE // => -[].
Qed.
End TimeScores.
