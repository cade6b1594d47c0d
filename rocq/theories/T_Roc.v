(** C189: the curves drawn by plot_roc_curves. *)
From Coq Require Import Reals Lra.
From mathcomp Require Import all_ssreflect all_algebra.
From Verif Require Import RStruct RTac M_Utils M_Roc.
Import Order.TTheory GRing.Theory Num.Theory.

Set Implicit Arguments.
Unset Strict Implicit.
Unset Printing Implicit Defensive.
Local Open Scope ring_scope.

(** a ROC curve: from (0, 0) to (1, 1), neither rate ever falling *)
Definition below (p q : R * R) : bool := (p.1 <= q.1) && (p.2 <= q.2).
Definition roc_ok (c : curve) : Prop := exists c', [/\ c = (0, 0) :: c', path below (0, 0) c' & last (0, 0) c' = (1, 1)].

Lemma path_last p c : path below p c -> below p (last p c).
Proof.
elim: c p => [|q c IH] p /=; first by rewrite /below !lexx.
move=> /andP[/andP[h1 h2] /IH /andP[h3 h4]]; by rewrite /below (le_trans h1 h3) (le_trans h2 h4).
Qed.
Lemma seg_ge (p q : R * R) (x : R) : below p q -> p.1 <= x -> x < q.1 ->
  p.2 <= (q.2 - p.2) / (q.1 - p.1) * (x - p.1) + p.2 /\ (q.2 - p.2) / (q.1 - p.1) * (x - p.1) + p.2 <= q.2.
Proof.
move=> /andP[h1 h2] h3 h4; have d : 0 < q.1 - p.1 by rewrite subr_gt0 (le_lt_trans h3 h4).
split; first by rewrite ler_addr mulr_ge0 // ?subr_ge0 // divr_ge0 ?subr_ge0 // ltW.
rewrite -ler_subr_addr mulrAC ler_pdivr_mulr // ler_wpmul2l ?subr_ge0 // ler_add2r; exact: ltW.
Qed.
Lemma interp_bounds c : forall p x, path below p c -> p.1 <= x -> p.2 <= interp_from p c x /\ interp_from p c x <= (last p c).2.
Proof.
elim: c => [|q c IH] p x //= /andP[pq pc] px; have pq' := pq; move: pq' => /andP[_ pq2].
case: ifP => qx; first by have [h1 h2] := IH q x pc qx; split=> //; exact: le_trans pq2 h1.
have [|h1 h2] := seg_ge pq px; first by rewrite ltNge qx.
split=> //; apply: le_trans h2 _; by have /andP[] := path_last pc.
Qed.
Lemma interp_mono c : forall p x x', path below p c -> p.1 <= x -> x <= x' -> interp_from p c x <= interp_from p c x'.
Proof.
elim: c => [|q c IH] p x x' //= /andP[pq pc] px xx.
case: ifP => qx; first by rewrite (le_trans qx xx); exact: IH.
have xq : x < q.1 by rewrite ltNge qx.
have [h1 h2] := seg_ge pq px xq; case: ifP => qx'; first by apply: le_trans h2 _; case: (interp_bounds pc qx').
rewrite ler_add2r ler_wpmul2l ?ler_add2r //; move: pq => /andP[a b]; by rewrite divr_ge0 ?subr_ge0.
Qed.

Lemma grid_mono k k' : (k <= k')%N -> mean_fpr k <= mean_fpr k'.
Proof. by move=> h; rewrite /mean_fpr ler_wpmul2r ?invr_ge0 ?ler0n ?ler_nat. Qed.
Lemma grid_ge0 k : 0 <= mean_fpr k.
Proof. by rewrite /mean_fpr divr_ge0 ?ler0n. Qed.
Lemma fold_bounds c k : roc_ok c -> 0 <= fold_tpr c k <= 1.
Proof.
move=> [c' [-> pc lc]]; rewrite /fold_tpr; case: eqP => _; first by rewrite lexx ler01.
rewrite /= ltNge grid_ge0 /=; have [|h1 h2] := interp_bounds pc (x := mean_fpr k); first exact: grid_ge0.
by rewrite h1 /=; move: h2; rewrite lc.
Qed.
Lemma fold_mono c k k' : roc_ok c -> (k <= k')%N -> fold_tpr c k <= fold_tpr c k'.
Proof.
move=> ok kk; case: (posnP k) => [->|k0]; first by rewrite {1}/fold_tpr eqxx; case/andP: (fold_bounds k' ok).
rewrite /fold_tpr !gtn_eqF // ?(leq_trans k0 kk) //; move: ok => [c' [-> pc lc]]; rewrite /= !ltNge !grid_ge0 /=.
by apply: interp_mono => //; [exact: grid_ge0 | exact: grid_mono].
Qed.
Lemma mean_le (A : eqType) (s : seq A) (f g : A -> R) : (forall x, x \in s -> f x <= g x) -> np_mean (map f s) <= np_mean (map g s).
Proof.
move=> h; rewrite /np_mean !size_map ler_wpmul2r ?invr_ge0 ?ler0n // !big_map big_seq [X in _ <= X]big_seq; exact: ler_sum.
Qed.
Lemma mean_const (A : Type) (s : seq A) (a : R) : (0 < size s)%N -> np_mean [seq a | _ <- s] = a.
Proof.
move=> s0; rewrite /np_mean size_map big_map big_const_seq count_predT iter_addr_0 -[a *+ _]mulr_natr mulfK // pnatr_eq0 -lt0n //.
Qed.
Section Mean.
Variable folds : seq curve.
Hypothesis ok : forall c, c \in folds -> roc_ok c.
Hypothesis f0 : (0 < size folds)%N.
Lemma mean_bounds k : 0 <= mean_tpr folds k <= 1.
Proof.
rewrite /mean_tpr; case: eqP => _; first by rewrite ler01 lexx.
apply/andP; split.
  by rewrite -{1}(mean_const 0 f0); apply: mean_le => c /ok oc; case/andP: (fold_bounds k oc).
by rewrite -[in X in _ <= X](mean_const 1 f0); apply: mean_le => c /ok oc; case/andP: (fold_bounds k oc).
Qed.
Lemma mean_mono k k' : (k <= k')%N -> (k' <= 99)%N -> mean_tpr folds k <= mean_tpr folds k'.
Proof.
move=> kk; rewrite leq_eqVlt => /orP[/eqP ->|l]; first by case/andP: (mean_bounds k) => _; rewrite {3}/mean_tpr eqxx.
rewrite /mean_tpr !ltn_eqF // ?(leq_ltn_trans kk l) //; apply: mean_le => c /ok oc; exact: fold_mono.
Qed.
Lemma mean_first : mean_tpr folds 0 = 0.
Proof.
exact: (mean_const 0 f0).
Qed.
End Mean.

Lemma trapz_grid (f g : nat -> R) n m : trapz [seq (f k, g k) | k <- iota m n.+1] =
  \sum_(k < n) (f (m + k).+1 - f (m + k)%N) * ((g (m + k)%N + g (m + k).+1) / 2%:R).
Proof.
elim: n m => [|n IH] m; first by rewrite big_ord0.
rewrite big_ord_recl addn0.
transitivity ((f m.+1 - f m) * ((g m + g m.+1) / 2%:R) + trapz [seq (f k, g k) | k <- iota m.+1 n.+1]); first by [].
rewrite IH; congr (_ + _).
by apply: eq_bigr => k _; rewrite /= /bump /= add1n addSnnS.
Qed.
Lemma step k : mean_fpr k.+1 - mean_fpr k = 99%:R^-1.
Proof. by rewrite /mean_fpr -mulrBl -natrB // subSnn mul1r. Qed.

Lemma auc_grid_n (g : nat -> R) n :
  auc [seq (mean_fpr k, g k) | k <- iota 0 n.+2] = Val (99%:R^-1 * (\sum_(k < n.+1) (g k + g k.+1) / 2%:R)).
Proof.
rewrite /auc size_map size_iota; have -> : (n.+2 < 2)%N = false by [].
have -> : unzip1 [seq (mean_fpr k, g k) | k <- iota 0 n.+2] = [seq mean_fpr k | k <- iota 0 n.+2] by rewrite /unzip1 -map_comp; apply: eq_map.
have -> : sorted <=%O [seq mean_fpr k | k <- iota 0 n.+2].
  by rewrite sorted_map; apply: (@sub_sorted _ leq) => [a b|]; [exact: grid_mono | exact: iota_sorted].
congr Val; rewrite trapz_grid mulr_sumr; apply: eq_bigr => k _; by rewrite !add0n step.
Qed.
Lemma auc_grid (g : nat -> R) : auc [seq (mean_fpr k, g k) | k <- iota 0 100] = Val (99%:R^-1 * (\sum_(k < 99) (g k + g k.+1) / 2%:R)).
Proof. exact: (auc_grid_n g 98). Qed.

(** The mean curve starts at 0, ends at 1, never falls and stays in [0, 1]; the band of one standard deviation is around it and in [0, 1]. *)
Theorem C189_mean_curve : forall folds, (0 < size folds)%N -> (forall c, c \in folds -> roc_ok c) ->
  [/\ mean_tpr folds 0 = 0, mean_tpr folds 99 = 1, (forall k k', (k <= k' <= 99)%N -> mean_tpr folds k <= mean_tpr folds k') &
      forall k, (k <= 99)%N -> [/\ 0 <= tprs_lower folds k, tprs_lower folds k <= mean_tpr folds k, mean_tpr folds k <= tprs_upper folds k &
                                   tprs_upper folds k <= 1]].
Proof.
move=> folds f0 ok; split=> [||k k' /andP[h1 h2]|k _]; [exact: mean_first|by []|exact: mean_mono|].
have /andP[m0 m1] := mean_bounds ok f0 k; have s0 : 0 <= std_tpr folds k by apply/RleP; exact: sqrt_pos.
rewrite /tprs_lower /tprs_upper; split; first by rewrite le_maxr lexx orbT.
- by rewrite le_maxl m0 andbT ler_subl_addr ler_addl.
- by rewrite le_minr m1 andbT ler_addl.
- by rewrite le_minl lexx orbT.
Qed.
Print Assumptions C189_mean_curve.

(** the area of a fold's curve is between 0 and 1 *)
Lemma trapz_bounds c : forall p (l : R), path below p c -> 0 <= p.2 -> (last p c).2 <= l ->
  0 <= trapz (p :: c) /\ trapz (p :: c) <= l * ((last p c).1 - p.1).
Proof.
elim: c => [|q c IH] p l; first by rewrite /= subrr mulr0.
move=> pth p0 hl; have /andP[pq pc] : below p q && path below q c := pth.
have e : trapz [:: p, q & c] = (q.1 - p.1) * ((p.2 + q.2) / 2%:R) + trapz (q :: c) by [].
rewrite e [last p _]/=; have [|h1 h2] := IH q l pc _ hl; first by move: pq => /andP[_ h]; exact: le_trans p0 h.
have /andP[_ ql] := path_last pc; move: pq => /andP[h3 h4].
have ql' : q.2 <= l by exact: le_trans ql hl.
split.
  by rewrite addr_ge0 // mulr_ge0 ?subr_ge0 // divr_ge0 ?ler0n // addr_ge0 // (le_trans p0 h4).
have -> : l * ((last q c).1 - p.1) = (q.1 - p.1) * l + l * ((last q c).1 - q.1).
  by move: (last q c).1 p.1 q.1 => a b d; mcring.
apply: ler_add h2; rewrite ler_wpmul2l ?subr_ge0 //; by move: p.2 q.2 h4 ql' => a b h4 ql'; mclra.
Qed.
Theorem C189_fold_auc : forall c, roc_ok c -> exists a, auc c = Val a /\ 0 <= a <= 1.
Proof.
move=> c [c' [-> pc lc]]; exists (trapz ((0, 0) :: c')); split; last first.
  have [|h1 h2] := @trapz_bounds c' (0, 0) 1 pc (lexx _); first by rewrite lc.
  by rewrite h1 /=; move: h2; rewrite lc /= subr0 mulr1.
rewrite /auc; case: c' pc lc => [_ /= [/eqP]|q c' pc lc]; first by rewrite eq_sym oner_eq0.
have -> : sorted <=%O (unzip1 [:: (0, 0), q & c']) by rewrite /unzip1 sorted_map; apply: sub_path pc => a b /andP[].
by [].
Qed.
Print Assumptions C189_fold_auc.

(** The mean area is always defined, but the forced first and last values keep it away from 0 and 1: for perfect predictions each fold has
    area 1, and the mean curve 197/198; for the worst, 0 and 1/198. *)
Theorem C189_mean_auc_refuted : forall folds, (0 < size folds)%N -> (forall c, c \in folds -> roc_ok c) ->
  exists a, [/\ mean_auc folds = Val a, 1 / 198%:R <= a & a <= 197%:R / 198%:R].
Proof.
move=> folds f0 ok; rewrite /mean_auc auc_grid; eexists; split; first reflexivity.
- rewrite big_ord_recr /= [mean_tpr folds 99]/mean_tpr eqxx.
  have h : 0 <= \sum_(i < 98) (mean_tpr folds i + mean_tpr folds i.+1) / 2%:R.
    by apply: sumr_ge0 => k _; rewrite divr_ge0 ?ler0n // addr_ge0 //; case/andP: (mean_bounds ok f0 k) => //; case/andP: (mean_bounds ok f0 k.+1).
  have h' : 0 <= mean_tpr folds 98 by case/andP: (mean_bounds ok f0 98).
  move: h h'; move: (\sum_(i < 98) _) (mean_tpr folds 98) => a b h h'.
  by have num (x y : R) : 0 <= x -> 0 <= y -> 1 / 198%:R <= 99%:R^-1 * (x + (y + 1) / 2%:R); [move=> g1 g2; mclra | exact: num].
- rewrite big_ord_recl /= (mean_first f0) add0r.
  have h : \sum_(i < 98) (mean_tpr folds (bump 0 i) + mean_tpr folds (bump 0 i).+1) / 2%:R <= 98%:R.
    have -> : 98%:R = \sum_(i < 98) (1 : R) by rewrite sumr_const card_ord.
    apply: ler_sum => k _; case/andP: (mean_bounds ok f0 (bump 0 k)) => _; case/andP: (mean_bounds ok f0 (bump 0 k).+1) => _.
    by move: (mean_tpr _ _) (mean_tpr _ _) => a b ha hb; mclra.
  have h' : mean_tpr folds 1 <= 1 by case/andP: (mean_bounds ok f0 1).
  move: h h'; move: (\sum_(i < 98) _) (mean_tpr folds 1) => a b h h'.
  by have num (x y : R) : x <= 98%:R -> y <= 1 -> 99%:R^-1 * (y / 2%:R + x) <= 197%:R / 198%:R; [move=> g1 g2; mclra | exact: num].
Qed.
Print Assumptions C189_mean_auc_refuted.
(** A matrix, the usual form of a precision, is not accepted. *)
Theorem C189_matrix_refuted : forall roc true preds, preds <> [::] -> plot_roc_curves roc 2 true preds = Raise ValueError.
Proof. by move=> roc true [|p preds]. Qed.
Print Assumptions C189_matrix_refuted.
(** for other arrays each prediction has its curve and its area *)
Theorem C189_folds : forall roc ndim true preds, ndim <> 2%N ->
  (forall p, p \in preds -> exists c, roc [seq x != 0 | x <- true] p = Val c /\ roc_ok c) ->
  exists l, [/\ plot_roc_curves roc ndim true preds = Val l, size l = size preds & forall k, (k < size preds)%N ->
    let ca := nth ([::], 0) l k in [/\ roc [seq x != 0 | x <- true] (nth [::] preds k) = Val ca.1, auc ca.1 = Val ca.2 & 0 <= ca.2 <= 1]].
Proof.
move=> roc ndim true preds /eqP/negbTE hd; rewrite /plot_roc_curves hd; move: [seq _ | x <- true] => t.
elim: preds => [|p preds IH] h; first by exists [::].
have [c [ec oc]] := h _ (mem_head _ _); have [a [ea ba]] := C189_fold_auc oc.
have [|l [el sl hl]] := IH; first by move=> q qp; apply: h; rewrite inE qp orbT.
exists ((c, a) :: l); split; rewrite /= ?ec ?ea ?el ?sl //; case=> [|k] /= hk; first by [].
exact: hl.
Qed.
Print Assumptions C189_folds.

(** perfect and worst curves *)
Example C189_case : [/\ roc_ok [:: (0, 0); (0, 1); (1, 1)], auc [:: (0, 0); (0, 1); (1, 1)] = Val 1,
  roc_ok [:: (0, 0); (1, 0); (1, 1)] & auc [:: (0, 0); (1, 0); (1, 1)] = Val 0].
Proof.
split; rewrite /auc /=; try by eexists; split; [reflexivity | rewrite /= /below /= ?lexx ?ler01 | reflexivity].
- by rewrite ?lexx ?ler01 /=; congr Val; mclra.
- by rewrite ?lexx ?ler01 /=; congr Val; mclra.
Qed.
