(** C193: the curves drawn by plot_curve. *)
From Coq Require Import Reals.
From mathcomp Require Import all_ssreflect all_algebra.
From Verif Require Import RStruct RTac M_Utils M_Roc M_PlotCurve T_Roc.
Import Order.TTheory GRing.Theory Num.Theory.

Set Implicit Arguments.
Unset Strict Implicit.
Unset Printing Implicit Defensive.
Local Open Scope ring_scope.

(** specification: what np.interp promises *)
Definition interp_ok (interp : R -> curve -> R) : Prop := forall c x, sorted <=%O (unzip1 c) -> interp x c = np_interp x c.

Lemma binarise_id l : binarise (binarise l) = binarise l.
Proof.
rewrite /binarise -map_comp; apply: eq_map => x /=.
have tol0 : 0 < (10%:R ^+ 8)^-1 :> R by rewrite invr_gt0 exprn_gt0 ?ltr0n.
have tol1 : (10%:R ^+ 8)^-1 < 1 :> R by rewrite invf_lt1 ?exprn_gt0 ?ltr0n // exprn_egt1 // ltr1n.
by case: (`|x| <= _); rewrite ?normr0 ?(ltW tol0) // normr1 leNgt tol1.
Qed.
Lemma flatten_singletons (l : seq R) : flatten [seq [:: x] | x <- l] = l.
Proof. by elim: l => //= x l ->. Qed.
Definition flat (t : truth) : seq R := binarise (flatten (rows_of t)).
Lemma flat_vector t : flat (vector (flat t)) = flat t.
Proof. by rewrite /flat /= flatten_singletons binarise_id. Qed.
(** what a key needs of true: with one true array, its entries and whether it is a matrix or a list *)
Definition plain (t : truth) : bool := if t is Arr nd _ then nd != 2%N else false.
Lemma key_flat curve_func interp roc t t' preds : flat t = flat t' -> (size preds != 1%N) || (plain t && plain t') ->
  plot_key curve_func interp roc false t preds = plot_key curve_func interp roc false t' preds.
Proof.
rewrite /plot_key => e; case: preds => [|p [|q l]] //=; rewrite -?/(flat t) -?/(flat t') ?e //.
case: t e => [nd rows|rows] e //; case: t' e => [nd' rows'|rows'] e //=; rewrite ?andbF //= => /andP[/negbTE -> /negbTE ->].
by move: e; rewrite /flat /= => ->.
Qed.
Lemma key_state curve_func interp roc t preds d t' : plot_key curve_func interp roc false t preds = Val (d, t') -> t' = vector (flat t).
Proof.
rewrite /plot_key; case: preds => [|p [|q l]] /=; first by [].
  case: t => [nd rows|] //; case: eqP => // _; case: (curve_func _ _) => // c; case: (area_of _ _) => // a [_ <-]; by [].
case: (curve_func _ _) => // c; case: (area_of _ _) => // a; case: (curve_func _ _) => // c'; case: (area_of _ _) => // a'.
case: (folds _ _ _ _ _ _) => // l'; case: (M_Roc.auc _) => // a'' [_ <-]; by [].
Qed.

(** C193: with one true array, the drawing of a key does not depend on the other keys or their order - provided that true is not a matrix or every key has
    at least two predictions *)
Theorem C193_independent curve_func interp roc nd rows keys ds : nd <> 2%N \/ (forall preds, preds \in keys -> size preds <> 1%N) ->
  (plot_curve curve_func interp roc false (Arr nd rows) keys = Val ds <->
   size ds = size keys /\ forall k d, (k < size keys)%N -> plot_curve curve_func interp roc false (Arr nd rows) [:: nth [::] keys k] = Val [:: nth d ds k]).
Proof.
move=> hyp; set t := Arr nd rows.
suff gen t0 : flat t0 = flat t -> (plain t -> plain t0) ->
    (plot_curve curve_func interp roc false t0 keys = Val ds <->
     size ds = size keys /\ forall k d, (k < size keys)%N -> plot_curve curve_func interp roc false t [:: nth [::] keys k] = Val [:: nth d ds k]) by exact: gen.
have pt : nd <> 2%N -> plain t by move=> h; apply/eqP.
elim: keys t0 ds hyp => [|preds keys IH] t0 ds hyp ft pl /=.
  by split=> [[<-]|[/eqP]] //; case: ds.
have ok : (size preds != 1%N) || (plain t0 && plain t).
  by case: hyp => [/pt h|h]; [rewrite h pl // orbT | have /eqP -> := h preds (mem_head _ _)].
rewrite (key_flat curve_func interp roc ft ok).
have hyp' : nd <> 2%N \/ (forall p, p \in keys -> size p <> 1%N) by case: hyp => h; [left|right=> p m; apply: h; rewrite inE m orbT].
case e: (plot_key _ _ _ _ _ _) => [[d t']|ex]; last first.
  by split=> // -[sz h]; case: ds sz h => // d ds _ /(_ 0%N d isT) /=; rewrite e.
have et := key_state e.
have := IH t' ^~ hyp'; rewrite et flat_vector => /(_ _ erefl (fun=> isT)) {}IH.
split.
  case e2: (plot_curve _ _ _ _ _ _) => [ds'|] // [<-]; have [sz h] := proj1 (IH ds') e2.
  by split=> [/=|[|k] d0 kk /=]; rewrite ?sz // ?e //; exact: h.
case: ds => [|d1 ds] [] // [sz] h.
have := h 0%N d isT; rewrite /= e => -[<-].
by rewrite (proj2 (IH ds)) //; split=> // k d0 kk; exact: (h k.+1 d0).
Qed.
Print Assumptions C193_independent.

(** Refuted: with a matrix, whether a key can be drawn depends on the keys before it *)
Theorem C193_order_refuted curve_func interp roc rows p preds d1 d2 :
  (1 < size preds)%N -> plot_curve curve_func interp roc false (Arr 2 rows) [:: preds] = Val [:: d1] ->
  plot_curve curve_func interp roc false (Arr 1 rows) [:: [:: p]] = Val [:: d2] ->
  plot_curve curve_func interp roc false (Arr 2 rows) [:: preds; [:: p]] = Val [:: d1; d2] /\
  plot_curve curve_func interp roc false (Arr 2 rows) [:: [:: p]; preds] = Raise ValueError.
Proof.
move=> sp h1 h2; split; last by [].
move: h1; rewrite /plot_curve; case e: (plot_key _ _ _ _ _ preds) => [[d t']|] // [ed]; rewrite (key_state e) -ed.
move: h2; rewrite /plot_curve (@key_flat _ _ _ (vector _) (Arr 1 rows)) //; first by case: (plot_key _ _ _ _ _ _) => [[d' t'']|] // [->].
by rewrite flat_vector.
Qed.
Print Assumptions C193_order_refuted.
(** Refuted: with several true arrays a key with a single prediction always raises, either because a list has no dimension, or because of the keys before *)
Theorem C193_list_refuted curve_func interp roc rows p preds keys : (1 < size preds)%N ->
  plot_curve curve_func interp roc true (Lst rows) ([:: p] :: keys) = Raise AttributeError /\
  forall t, exists e, plot_curve curve_func interp roc true t [:: preds, [:: p] & keys] = Raise e.
Proof.
move=> sp; split=> // t; rewrite /plot_curve -/plot_curve.
case e: (plot_key _ _ _ _ _ preds) => [[d t']|e0]; last by exists e0.
suff [r ->] : exists r, t' = Lst r by exists AttributeError.
move: e; rewrite /plot_key; case: preds sp => [|q [|q' l]] // _; case: (folds _ _ _ _ _ _) => // -[|x l'] //; case: (M_Roc.auc _) => // a [_ <-].
by eexists.
Qed.
Print Assumptions C193_list_refuted.

(** for ROC curves, the mean of the folds is the one of plot_roc_curves (C189) *)
Lemma fold_y_roc interp c k : interp_ok interp -> roc_ok c -> fold_y interp true c k = fold_tpr c k.
Proof.
move=> io [c' [-> pc _]]; rewrite /fold_y /fold_tpr; case: eqP => // _; apply: io.
by apply: (homo_path (f := fst) (e := below)) pc => a b /andP[].
Qed.
Theorem C193_mean_roc curve_func interp t preds : interp_ok interp -> (1 < size preds)%N ->
  (forall p, p \in preds -> exists2 c, curve_func (binarise (flatten (rows_of t))) p = Val c & roc_ok c) ->
  exists cs a areas, [/\ plot_curve curve_func interp true false t [:: preds] = Val [:: Mean [seq (mean_fpr k, mean_tpr cs k) | k <- iota 0 100] a areas],
    size cs = size preds, mean_auc cs = Val a, (forall c, c \in cs -> roc_ok c) &
    forall k, (k < size preds)%N -> curve_func (binarise (flatten (rows_of t))) (nth [::] preds k) = Val (nth [::] cs k) /\ M_Roc.auc (nth [::] cs k) = Val (nth 0 areas k)].
Proof.
move=> io sp h.
have [l [e sl al cl]] : exists l : seq (curve * R), [/\ forall i, folds curve_func true false (vector (binarise (flatten (rows_of t)))) i preds = Val l,
    size l = size preds, forall c, c \in unzip1 l -> roc_ok c &
    forall k, (k < size preds)%N -> curve_func (binarise (flatten (rows_of t))) (nth [::] preds k) = Val (nth [::] (unzip1 l) k) /\
      M_Roc.auc (nth [::] (unzip1 l) k) = Val (nth 0 (unzip2 l) k)].
  clear sp; elim: preds h => [|p preds IH] h; first by exists [::].
  have [c ec okc] := h p (mem_head _ _); have [a [ea _]] := C189_fold_auc okc.
  have [l [e sl al cl]] := IH (fun q m => h q (mem_behead (s := p :: preds) m)).
  exists ((c, a) :: l); split=> [i||c'|[|k] kk] //=.
  - by rewrite flatten_singletons ec /area_of ea e.
  - by rewrite sl.
  - by rewrite inE => /orP[/eqP ->|/al].
  exact: cl.
have s0 : (0 < size (unzip1 l))%N by rewrite size_map sl ltnW.
have [a [ea _ _]] := C189_mean_auc_refuted s0 al.
have eg : [seq (mean_fpr k, mean_y interp true (unzip1 l) k) | k <- iota 0 100] = [seq (mean_fpr k, mean_tpr (unzip1 l) k) | k <- iota 0 100].
  apply: eq_map => k; congr (_, _); rewrite /mean_y /mean_tpr; case: eqP => // _; congr (np_mean _); apply/eq_in_map => c /al okc.
  exact: fold_y_roc.
exists (unzip1 l), a, (unzip2 l); split=> //; last by rewrite size_map.
rewrite /plot_curve /plot_key.
case: preds sp sl e {h cl} => [|p [|q preds]] // _ sl e; rewrite e eg.
by case: l sl ea {e al s0 eg} => // x l _; rewrite /mean_auc => ->.
Qed.
Print Assumptions C193_mean_roc.

(** Refuted: in the mode of precision and recall, a single curve is drawn with recall on the axis labelled precision and precision on the axis labelled
    recall; and the mean of two equal folds is not their curve: it takes the precision for the abscissa *)
Theorem C193_axes_refuted curve_func interp t p c a nd : nd <> 2%N ->
  curve_func (binarise (flatten t)) p = Val c -> M_Roc.auc (swap c) = Val a ->
  axes false = (Precision, Recall) /\
  plot_curve curve_func interp false false (Arr nd t) [:: [:: p]] = Val [:: Single [seq (let: (precision, recall) := pr in (recall, precision)) | pr <- c] a] /\
  forall n, exists pts a', plot_curve curve_func interp false false (Arr nd t) [:: nseq n.+2 p] = Val [:: Mean pts a' (nseq n.+2 a)] /\
    forall k, (0 < k < 99)%N -> nth (0, 0) pts k = (mean_fpr k, interp (mean_fpr k) c).
Proof.
move=> /eqP/negbTE hn ec ea; split=> //; split.
  rewrite /plot_curve /plot_key hn ec /area_of ea; congr (Val [:: Single _ _]); by apply: eq_map => -[x y].
move=> n; have ef m i : folds curve_func false false (vector (binarise (flatten t))) i (nseq m p) = Val (nseq m (c, a)).
  by elim: m i => //= m IH i; rewrite flatten_singletons ec /area_of ea IH.
have [a' ea'] : exists a', M_Roc.auc [seq (mean_fpr k, mean_y interp false (nseq n.+2 c) k) | k <- iota 0 100] = Val a' by rewrite auc_grid; eexists.
exists [seq (mean_fpr k, mean_y interp false (nseq n.+2 c) k) | k <- iota 0 100], a'; split.
  have := ef n.+2 0%N; rewrite /plot_curve /plot_key => e; rewrite [nseq n.+2 p]/= -[[:: p, p & nseq n p]]/(nseq n.+2 p) e.
  have -> : unzip1 (nseq n.+2 (c, a)) = nseq n.+2 c by rewrite /unzip1 map_nseq.
  have -> : unzip2 (nseq n.+2 (c, a)) = nseq n.+2 a by rewrite /unzip2 map_nseq.
  by rewrite ea'.
move=> k /andP[k0 k99]; rewrite (nth_map 0%N) ?size_iota ?nth_iota ?add0n; try exact: leq_trans k99 _.
rewrite /mean_y ltn_eqF // -(@mean_const _ (nseq n.+2 c) (interp (mean_fpr k) c)) ?size_nseq //; congr (_, np_mean _).
by rewrite !map_nseq /fold_y gtn_eqF.
Qed.
Print Assumptions C193_axes_refuted.
(** so for the labels 1, 0, 1 and the scores 1, 1, 2, whose points (precision, recall) are these, the curve drawn for two equal folds is at height 1 over the
    abscissa 2/3, where the curve drawn for one is at 8/9 *)
Theorem C193_mean_differs_refuted interp : interp_ok interp ->
  let c := [:: (2%:R / 3%:R, 1); (1, 2%:R^-1); (1, 0)] : curve in
  let cf := fun t p : seq R => Val c in
  exists single a pts a' l, [/\ plot_curve cf interp false false (vector [:: 1; 0; 1]) [:: [:: [:: 1; 1; 2%:R]]] = Val [:: Single single a],
    plot_curve cf interp false false (vector [:: 1; 0; 1]) [:: [:: [:: 1; 1; 2%:R]; [:: 1; 1; 2%:R]]] = Val [:: Mean pts a' l],
    nth (0, 0) pts 66 = (2%:R / 3%:R, 1) & np_interp (2%:R / 3%:R) (rev single) = 8%:R / 9%:R].
Proof.
move=> io c cf.
have ea : M_Roc.auc (swap c) = Val (11%:R / 12%:R).
  have l1 : (1 <= 2%:R^-1 :> R) = false by apply/negbTE; rewrite -?ltNge -?leNgt; mclra.
  have l2 : (1 >= 2%:R^-1 :> R) = true by apply/idP; mclra.
  have l3 : (2%:R^-1 >= 0 :> R) = true by apply/idP; mclra.
  by rewrite /M_Roc.auc /swap /c /= l1 /= l2 l3 /=; congr Val; mcfield.
have [_ [h1 h2]] := @C193_axes_refuted cf interp [seq [:: x] | x <- [:: 1; 0; 1]] [:: 1; 1; 2%:R] c _ 1 (fun e => ltac:(discriminate)) erefl ea.
have [pts [a' [h3 h4]]] := h2 0%N.
eexists; eexists; exists pts, a'; eexists; split; [exact: h1 | exact: h3 | |].
  rewrite h4 // io; last first.
    have l1 : (2%:R / 3%:R <= 1 :> R) = true by apply/idP; mclra.
    by rewrite /c /= l1 lexx.
  have -> : mean_fpr 66 = 2%:R / 3%:R by rewrite /mean_fpr; mcfield.
  congr (_, _); rewrite /c /np_interp /= ltxx.
  have -> : (1 <= 2%:R / 3%:R :> R) = false by apply/negbTE; rewrite -?ltNge -?leNgt; mclra.
  by mcfield.
rewrite /c /rev /=.
have -> : (2%:R / 3%:R < 0 :> R) = false by apply/negbTE; rewrite -?ltNge -?leNgt; mclra.
have -> : (2%:R^-1 <= 2%:R / 3%:R :> R) = true by apply/idP; mclra.
have -> : (1 <= 2%:R / 3%:R :> R) = false by apply/negbTE; rewrite -?ltNge -?leNgt; mclra.
by mcfield.
Qed.
Print Assumptions C193_mean_differs_refuted.

(** a case: the diagonal as the curve of every prediction, a 2 x 2 matrix as truth, a key with one prediction and one with two *)
Example C193_case : let c := [:: (0, 0); (1, 1)] : curve in let cf := fun t p : seq R => Val c in
  let t := [:: [:: 1; 0]; [:: 0; 1]] in let p := [:: 1; 0; 0; 1] in
  [/\ roc_ok c, interp_ok np_interp,
      exists d1 d2, plot_curve cf np_interp true false (Arr 2 t) [:: [:: p; p]; [:: p]] = Val [:: d1; d2] /\
                    plot_curve cf np_interp true false (Arr 2 t) [:: [:: p]; [:: p; p]] = Raise ValueError &
      exists d1 d2, plot_curve cf np_interp true false (Arr 1 t) [:: [:: p]; [:: p; p]] = Val [:: d1; d2]].
Proof.
move=> c cf t p.
have ok : roc_ok c by exists [:: (1, 1)]; split; rewrite //= /below /= ler01.
have io : interp_ok np_interp by [].
have [cs [a [areas [h _ _ _ _]]]] := @C193_mean_roc cf np_interp (Arr 2 t) [:: p; p] io isT (fun q _ => ex_intro2 _ _ c erefl ok).
have [cs' [a' [areas' [h' _ _ _ _]]]] := @C193_mean_roc cf np_interp (Arr 1 t) [:: p; p] io isT (fun q _ => ex_intro2 _ _ c erefl ok).
have [b [eb _]] := C189_fold_auc ok.
have h1 : plot_curve cf np_interp true false (Arr 1 t) [:: [:: p]] = Val [:: Single c b] by rewrite /plot_curve /plot_key /cf /area_of eb.
split=> //.
  eexists; eexists; exact: (C193_order_refuted _ h h1).
eexists; eexists; apply/C193_independent; first by left.
split; last first.
  move=> [|[|k]] d // _; first exact: h1.
  exact: h'.
by [].
Qed.
