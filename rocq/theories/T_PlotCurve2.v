(** C193, continued: several true arrays. *)
From Coq Require Import Reals.
From mathcomp Require Import all_ssreflect all_algebra.
From Verif Require Import RStruct RTac M_Utils M_Roc M_PlotCurve T_Roc T_PlotCurve.
Import Order.TTheory GRing.Theory Num.Theory.

Set Implicit Arguments.
Unset Strict Implicit.
Unset Printing Implicit Defensive.
Local Open Scope ring_scope.

(** specification: [cs] and [areas] are the curves and areas of the predictions, each against its own truth made of zeros and ones *)
Definition zeros_ones (l : seq R) : seq R := [seq ((10%:R ^- 8 < `|x|)%R)%:R | x <- l].
Definition own_truth curve_func (roc : bool) (truths preds : seq (seq R)) (cs : seq curve) (areas : seq R) : Prop :=
  [/\ size cs = size preds, size areas = size preds &
  forall k, (k < size preds)%N -> curve_func (zeros_ones (nth [::] truths k)) (nth [::] preds k) = Val (nth [::] cs k) /\
    M_Roc.auc (if roc then nth [::] cs k else [seq (p.2, p.1) | p <- nth [::] cs k]) = Val (nth 0 areas k)].

Lemma zeros_onesE l : zeros_ones l = binarise l.
Proof. by apply: eq_map => x; rewrite ltNge; case: (`|x| <= _). Qed.
Lemma folds_own curve_func roc rows i preds l :
  folds curve_func roc true (Lst [seq binarise r | r <- rows]) i preds = Val l <->
  ((preds == [::]) || (i + size preds <= size rows)%N) /\ own_truth curve_func roc (drop i rows) preds (unzip1 l) (unzip2 l).
Proof.
elim: preds i l => [|p preds IH] i l /=.
  split=> [[<-]|[_ [s _ _]]]; first by split.
  by case: l s.
rewrite size_map; have [si|si] := leqP (size rows) i.
  by split=> // -[h _]; move: (leq_trans h si); rewrite addnS ltnNge leq_addr.
rewrite (nth_map [::]) //; set t := nth [::] rows i.
have et : zeros_ones (nth [::] (drop i rows) 0) = binarise t by rewrite zeros_onesE nth_drop addn0.
have tail l' : own_truth curve_func roc (drop i.+1 rows) preds (unzip1 l') (unzip2 l') <->
    [/\ size l' = size preds & forall k, (k < size preds)%N -> curve_func (zeros_ones (nth [::] (drop i rows) k.+1)) (nth [::] preds k) = Val (nth [::] (unzip1 l') k) /\
      M_Roc.auc (if roc then nth [::] (unzip1 l') k else [seq (p.2, p.1) | p <- nth [::] (unzip1 l') k]) = Val (nth 0 (unzip2 l') k)].
  rewrite /own_truth !size_map; split=> [[s _ h]|[s h]]; split=> // k /h; rewrite !nth_drop addSnnS //.
have bound : ((preds == [::]) || (i.+1 + size preds <= size rows)%N) = (i + (size preds).+1 <= size rows)%N.
  by rewrite addSnnS; case: (preds) => //=; rewrite addn1 si.
split.
  case ec: (curve_func _ _) => [c|] //; case ea: (area_of _ _) => [a|] //; case ef: (folds _ _ _ _ _ _) => [l'|] // [<-].
  have [hb /tail [s h]] := proj1 (IH _ _) ef; split; first by rewrite -bound.
  by split=> [||[|k] kk] /=; rewrite ?size_map ?s // ?et ?ec; [split=> //; move: ea; rewrite /area_of /swap; case: (roc) | exact: h].
case=> hb [s1 s2 h]; case: l s1 s2 h => [|[c a] l'] // [s1] _ h.
have [h1 h2] := h 0%N isT; rewrite et /= in h1; rewrite h1.
have -> : area_of roc c = Val a by move: h2; rewrite /area_of /swap /=; case: (roc).
have -> // : folds curve_func roc true (Lst [seq binarise r | r <- rows]) i.+1 preds = Val l'.
apply/IH; rewrite bound; split=> //; apply/tail; split; first by move: s1; rewrite size_map.
by move=> k kk; exact: (h k.+1 kk).
Qed.

(** C193: with several true arrays, a key with at least two predictions is drawn exactly when there are as many truths and every prediction has a curve and
    an area against its own truth; the folds are these *)
Theorem C193_multiple curve_func interp roc t preds ds : (1 < size preds)%N ->
  (plot_curve curve_func interp roc true t [:: preds] = Val ds <->
   (size preds <= size (rows_of t))%N /\ exists cs a areas, [/\ own_truth curve_func roc (rows_of t) preds cs areas,
     ds = [:: Mean [seq (mean_fpr k, mean_y interp roc cs k) | k <- iota 0 100] a areas] &
     M_Roc.auc [seq (mean_fpr k, mean_y interp roc cs k) | k <- iota 0 100] = Val a]).
Proof.
move=> sp.
have -> : plot_curve curve_func interp roc true t [:: preds] = Val ds <->
    exists d t', plot_key curve_func interp roc true t preds = Val (d, t') /\ ds = [:: d].
  rewrite /plot_curve; case: (plot_key _ _ _ _ _ _) => [[d t']|e]; last by split=> // -[? [? []]].
  by split=> [[<-]|[d0 [t0 [[-> _] ->]]]] //; exists d, t'.
have ek : plot_key curve_func interp roc true t preds = match folds curve_func roc true (Lst [seq binarise r | r <- rows_of t]) 0 preds with
    | Raise e => Raise e
    | Val l => if l is [::] then Raise TypeError
      else match M_Roc.auc [seq (mean_fpr k, mean_y interp roc (unzip1 l) k) | k <- iota 0 100] with Raise e => Raise e
        | Val a => Val (Mean [seq (mean_fpr k, mean_y interp roc (unzip1 l) k) | k <- iota 0 100] a (unzip2 l), Lst [seq binarise r | r <- rows_of t]) end
    end by rewrite /plot_key; case: (preds) sp => [|p [|q l]].
rewrite ek; split.
  case=> d [t' []]; case ef: (folds _ _ _ _ _ _) => [l|] //; have [] := proj1 (folds_own _ _ _ _ _ _) ef.
  rewrite drop0 => hb ho; case: l ho {ef} => [|x l] // ho; case ea: (M_Roc.auc _) => [a|] // [<- _] ->; split.
    by move: hb; case: (preds) sp.
  by exists (unzip1 (x :: l)), a, (unzip2 (x :: l)).
case=> hb [cs [a [areas [ho -> ea]]]]; have [s1 s2 _] := ho.
have z1 : unzip1 (zip cs areas) = cs by rewrite unzip1_zip // s1 s2.
have z2 : unzip2 (zip cs areas) = areas by rewrite unzip2_zip // s1 s2.
have -> : folds curve_func roc true (Lst [seq binarise r | r <- rows_of t]) 0 preds = Val (zip cs areas).
  by apply/folds_own; rewrite drop0 z1 z2 hb orbT.
have : size (zip cs areas) = size preds by rewrite size_zip s1 s2 minnn.
case e: (zip cs areas) => [|x l]; first by move=> s; move: sp; rewrite -s.
by move=> _; rewrite -e z1 z2 ea; eexists; eexists.
Qed.
Print Assumptions C193_multiple.

(** more predictions than truths: IndexError once the truths are used up *)
Theorem C193_too_few curve_func interp roc t preds keys : (1 < size preds)%N -> (size (rows_of t) < size preds)%N ->
  (forall k, (k < size (rows_of t))%N -> exists c a, curve_func (zeros_ones (nth [::] (rows_of t) k)) (nth [::] preds k) = Val c /\
     M_Roc.auc (if roc then c else [seq (p.2, p.1) | p <- c]) = Val a) ->
  plot_curve curve_func interp roc true t (preds :: keys) = Raise IndexError.
Proof.
move=> sp; set rows := rows_of t => sr h.
have gen i ps : (size rows < i + size ps)%N -> (i <= size rows)%N ->
    (forall k, (i + k < size rows)%N -> exists c a, curve_func (zeros_ones (nth [::] rows (i + k))) (nth [::] ps k) = Val c /\
       M_Roc.auc (if roc then c else [seq (p.2, p.1) | p <- c]) = Val a) ->
    folds curve_func roc true (Lst [seq binarise r | r <- rows]) i ps = Raise IndexError.
  elim: ps i => [|p ps IH] i; first by rewrite addn0 ltnNge => /negP h1 h2.
  move=> h1 h2 h3 /=; rewrite size_map; case: leqP => // h4; rewrite (nth_map [::]) //.
  have [c [a [e1 e2]]] := h3 0%N (eq_ind_r (fun x => (x < size rows)%N) h4 (addn0 i)).
  move: e1; rewrite addn0 zeros_onesE /= => ->.
  have -> : area_of roc c = Val a by rewrite -e2 /area_of /swap; case: (roc).
  rewrite IH ?addSnnS // => k kk; have := h3 k.+1; rewrite addSnnS; apply; by rewrite -addSnnS.
rewrite /plot_curve /plot_key; case: preds sp sr h => [|p [|q l]] // _ sr h; rewrite -/rows gen //.
Qed.
Print Assumptions C193_too_few.
(** a key without predictions *)
Theorem C193_no_prediction curve_func interp roc multiple_true t keys :
  plot_curve curve_func interp roc multiple_true t ([::] :: keys) = Raise TypeError.
Proof. by []. Qed.
Print Assumptions C193_no_prediction.

(** a case: a curve that tells which truth was given; two truths are drawn, three predictions against them raise *)
Example C193_multiple_case : let cf := fun t p : seq R => Val ([:: (0, 0); (0, if t is x :: _ then x else 0); (1, 1)] : curve) in
  let t := Lst [:: [:: 0; 1]; [:: 2%:R; 0]] in let p := [:: 1; 0] in
  (exists ds, plot_curve cf np_interp true true t [:: [:: p; p]] = Val ds) /\ plot_curve cf np_interp true true t [:: [:: p; p; p]] = Raise IndexError.
Proof.
move=> cf t p.
have au x : exists a, M_Roc.auc ([:: (0, 0); (0, x); (1, 1)] : curve) = Val a by rewrite /M_Roc.auc /= lexx ler01 /=; eexists.
split; last first.
  apply: C193_too_few => // k _; have [a ea] := au (if zeros_ones (nth [::] (rows_of t) k) is x :: _ then x else 0); by eexists; exists a; split; [reflexivity | exact: ea].
have [a0 e0] := au (if zeros_ones (nth [::] (rows_of t) 0) is x :: _ then x else 0).
have [a1 e1] := au (if zeros_ones (nth [::] (rows_of t) 1) is x :: _ then x else 0).
have [a ea] : exists a, M_Roc.auc [seq (mean_fpr k, mean_y np_interp true [seq [:: (0, 0); (0, if zeros_ones r is x :: _ then x else 0); (1, 1)] | r <- rows_of t] k) | k <- iota 0 100] = Val a.
  by rewrite auc_grid; eexists.
eexists; apply/C193_multiple => //; split=> //; exists [seq [:: (0, 0); (0, if zeros_ones r is x :: _ then x else 0); (1, 1)] | r <- rows_of t], a, [:: a0; a1].
by split=> //; split=> // -[|[|k]] //.
Qed.
