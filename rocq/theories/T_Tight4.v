(** C189, tightened: the width of the band around the mean curve *)
From Coq Require Import Reals Lra.
From mathcomp Require Import all_ssreflect all_algebra.
From Verif Require Import RStruct RTac M_Roc.
Import Order.TTheory GRing.Theory Num.Theory.

Set Implicit Arguments.
Unset Strict Implicit.
Unset Printing Implicit Defensive.
Local Open Scope ring_scope.

Lemma std_sq (s : seq R) : (0 < size s)%N -> np_std s ^+ 2 = np_mean [seq (x - np_mean s) ^+ 2 | x <- s].
Proof.
move=> s0; rewrite /np_std expr2; apply: sqrt_sqrt; apply/RleP; apply: divr_ge0; rewrite ?ler0n //.
by rewrite big_map; apply: sumr_ge0 => x _; rewrite sqr_ge0.
Qed.
Lemma std_var (s : seq R) : (0 < size s)%N -> np_std s ^+ 2 = np_mean [seq x ^+ 2 | x <- s] - np_mean s ^+ 2.
Proof.
move=> s0; rewrite std_sq //; set m := np_mean s; have n0 : (size s)%:R != 0 :> R by rewrite pnatr_eq0 -lt0n.
have em : \sum_(x <- s) x = m * (size s)%:R by rewrite /m /np_mean mulfVK.
rewrite /np_mean !size_map !big_map; apply: (mulIf n0); rewrite mulrBl !mulfVK //.
rewrite (eq_bigr (fun x => x ^+ 2 - 2%:R * m * x + m ^+ 2)); last by move=> x _; rewrite !expr2; move: (x : R) (m : R) => a b; mcring.
rewrite big_split sumrB -mulr_sumr em big_const_seq count_predT iter_addr_0 /= -[m ^+ 2 *+ _]mulr_natr.
by move: (\sum_(x <- s) _) ((size s)%:R : R) (m : R); clear; move=> a b c; rewrite !expr2; mcring.
Qed.
(** the square of the half width is the mean of the squares less the square of the mean; it is zero exactly when the folds agree *)
Theorem C189_spread : forall folds k, (0 < size folds)%N ->
  std_tpr folds k ^+ 2 = np_mean [seq fold_tpr c k ^+ 2 | c <- folds] - np_mean [seq fold_tpr c k | c <- folds] ^+ 2 /\
  (std_tpr folds k = 0 <-> forall c c', c \in folds -> c' \in folds -> fold_tpr c k = fold_tpr c' k).
Proof.
move=> folds k f0; have s0 : (0 < size [seq fold_tpr c k | c <- folds])%N by rewrite size_map.
have n0 : 0 < (size folds)%:R :> R by rewrite ltr0n.
split; first by rewrite /std_tpr std_var // -map_comp.
rewrite /std_tpr; set s := [seq fold_tpr c k | c <- folds]; split=> [z c c' cf cf'|h].
  have := std_sq s0; rewrite z expr0n /= -/s => /esym/eqP; rewrite /np_mean mulf_eq0 invr_eq0 !size_map (gt_eqF n0) orbF big_map.
  rewrite psumr_eq0 => [/allP a|x _]; last by rewrite sqr_ge0.
  have e d : d \in folds -> fold_tpr d k = np_mean s.
    by move=> df; have := a _ (map_f (fold_tpr^~ k) df); rewrite sqrf_eq0 subr_eq0 => /eqP; rewrite /np_mean !size_map.
  by rewrite !e.
have [c cf] : exists c, c \in folds by case: (folds) f0 => // c l _; exists c; exact: mem_head.
have e x : x \in s -> x = fold_tpr c k by move=> /mapP[d df ->]; exact: h.
have em : np_mean s = fold_tpr c k.
  rewrite /np_mean big_seq (eq_bigr (fun=> fold_tpr c k)) => [|x /e //]; rewrite -big_seq big_const_seq count_predT iter_addr_0 -[_ *+ _]mulr_natr.
  by rewrite mulfK // size_map gt_eqF.
apply/eqP; rewrite -sqrf_eq0 std_sq // em /np_mean big_map big_seq big1 ?mul0r // => x /e ->.
by rewrite subrr expr0n.
Qed.
Print Assumptions C189_spread.
Example C189_spread_case : std_tpr [:: [:: (0, 0); (0, 1); (1, 1)]; [:: (0, 0); (1, 0); (1, 1)]] 1 ^+ 2 = 4%:R^-1.
Proof.
have g (x y : R) : x < y -> (y <= x) = false by move=> l; rewrite leNgt l.
have [-> _] := @C189_spread [:: [:: (0, 0); (0, 1); (1, 1)]; [:: (0, 0); (1, 0); (1, 1)]] 1 isT.
have m0 : 0 <= mean_fpr 1 by rewrite divr_ge0 ?ler0n.
have m1 : (1 <= mean_fpr 1) = false by apply: g; rewrite /mean_fpr; mclra.
rewrite /np_mean /fold_tpr /np_interp /= !big_cons !big_nil !ltNge !m0 /= ?m0 ?m1 ?ler01 /=; rewrite !expr2; mclra.
Qed.
