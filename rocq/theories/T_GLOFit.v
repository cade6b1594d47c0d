(** Property theorems C157 (GroupLassoOverlap.fit) and C158 (GroupLassoOverlapClassifier). *)
From Coq Require Import Reals.
From mathcomp Require Import all_ssreflect all_algebra.
From Verif Require Import RStruct RTac M_Utils M_GLOFit.
Import Order.TTheory GRing.Theory Num.Theory.

Set Implicit Arguments.
Unset Strict Implicit.
Unset Printing Implicit Defensive.
Local Open Scope ring_scope.

(** options that fit accepts *)
Definition accepted (p : glo_params) : Prop := precompute_string p = false /\ selection p <> OtherSelection /\ mode p <> OtherMode.

Section Cold.
Variables m n : nat.
Variable solver : glo_mode -> 'M[R]_(m, n) -> 'cV[R]_m -> 'rV[R]_n.

Lemma loop_targetsE md X k ys c : md <> OtherMode -> size c = (k + size ys)%N ->
  loop_targets solver md X k ys c = Val (take k c ++ [seq solver md X y | y <- ys]).
Proof.
move=> mo; elim: ys k c => [|y ys IH] k c /=; first by rewrite addn0 => <-; rewrite take_size cats0.
move=> e; have lt' : (k < size c)%N by rewrite e -addSnnS leq_addr.
rewrite /assign_row lt' IH; last by rewrite size_set_nth (maxn_idPr lt') e addnS.
rewrite (take_nth 0) ?size_set_nth ?(leq_trans lt') ?leq_maxr // nth_set_nth /= eqxx cat_rcons.
have -> : take k (set_nth 0 c k (solver md X y)) = take k c.
  apply: (@eq_from_nth _ 0) => [|i]; rewrite !size_take size_set_nth (maxn_idPr lt') lt' //.
  by move=> ik; rewrite !nth_take // nth_set_nth /= ltn_eqF.
by case: (md) mo.
Qed.

(** the coefficients and the intercept of one target *)
Definition coef_of (p : glo_params) X y : 'rV[R]_n :=
  \row_j (solver (mode p) (x_pre (fit_intercept p) (normalize p) X) (y_pre (fit_intercept p) y) 0 j / x_scale (fit_intercept p) (normalize p) X 0 j).
Definition intercept_of (p : glo_params) X y : R :=
  y_offset (fit_intercept p) y - \sum_j x_offset (fit_intercept p) X 0 j * coef_of p X y 0 j.

Lemma glo_fitE p prev X ys : accepted p -> (0 < m)%N -> (0 < n)%N -> (forall c, prev = Some c -> size c = size ys) ->
  glo_fit solver p prev X ys =
  if fit_intercept p && (n == 1)%N && (1 < size ys)%N then Raise ValueError
  else Val (GLOFitted [seq coef_of p X y | y <- ys] [seq intercept_of p X y | y <- ys] (nseq (size ys) 0)).
Proof.
move=> [st [se mo]] m0 n0 pr; rewrite /glo_fit st (gtn_eqF m0) (gtn_eqF n0) /=.
set c0 := (if warm_start p then _ else _).
have sc0 : size c0 = size ys.
  by rewrite /c0; case: (warm_start p); case: (prev) pr => [c|] pr; rewrite ?size_nseq //; apply: pr.
set c := (if n_jobs p == 1%N then _ else _).
have {c0 sc0 c}-> : c = Val [seq solver (mode p) (x_pre (fit_intercept p) (normalize p) X) (y_pre (fit_intercept p) y) | y <- ys].
  rewrite /c; case: ifP => _.
    by rewrite loop_targetsE ?size_map //= take0 -map_comp.
  by rewrite -map_comp; case: (mode p) mo.
rewrite size_map; have -> (x : res (glo_fitted n)) : match selection p with OtherSelection => Raise ValueError | _ => x end = x by case: (selection p) se.
case e : (fit_intercept p) => /=.
  case: ((n == 1)%N && (1 < size ys)%N) => //.
  rewrite !size_map eqxx -!map_comp zip_map -map_comp /coef_of /intercept_of /coef_of e.
  by congr (Val (GLOFitted _ _ _)).
congr (Val (GLOFitted _ _ _)).
  apply: eq_map => y; apply/rowP => j; by rewrite !mxE e /= divr1.
have z y : intercept_of p X y = 0 by rewrite /intercept_of e /= sub0r big1 ?oppr0 // => j _; rewrite mxE mul0r.
by elim: (ys) => //= y l ->; rewrite z.
Qed.

(** what is fitted, when a fit succeeds *)
Lemma glo_fit_Val p prev X ys f : accepted p -> (0 < m)%N -> (0 < n)%N -> (forall c, prev = Some c -> size c = size ys) ->
  glo_fit solver p prev X ys = Val f ->
  f = GLOFitted [seq coef_of p X y | y <- ys] [seq intercept_of p X y | y <- ys] (nseq (size ys) 0).
Proof. by move=> ac m0 n0 pr; rewrite glo_fitE //; case: ifP => // _ [<-]. Qed.
Lemma glo_predict_Val p X ys x v : let f := GLOFitted [seq coef_of p X y | y <- ys] [seq intercept_of p X y | y <- ys] (nseq (size ys) 0) in
  glo_predict f x = Val v -> v = [seq linear_value x (coef_of p X y, intercept_of p X y) | y <- ys].
Proof. by rewrite /glo_predict /=; case: ifP => // _ [<-]; rewrite zip_map -map_comp. Qed.
Lemma linear_valueE p X x y : linear_value x (coef_of p X y, intercept_of p X y) =
  y_offset (fit_intercept p) y + \sum_j (x 0 j - x_offset (fit_intercept p) X 0 j) * coef_of p X y 0 j.
Proof.
rewrite /linear_value /intercept_of /= addrCA -sumrB; congr (_ + _); apply: eq_bigr => j _; by rewrite mulrBl.
Qed.
End Cold.

(** with an intercept, for whatever the solver returns: the training residuals of every target sum to zero, and the prediction at the mean sample
    is the mean target *)
Theorem C157_residuals : forall m n solver p (prev : option (seq 'rV[R]_n)) (X : 'M[R]_(m, n)) ys f, accepted p -> (0 < m)%N -> (0 < n)%N ->
  (forall c, prev = Some c -> size c = size ys) -> fit_intercept p -> glo_fit solver p prev X ys = Val f ->
  forall k, (k < size ys)%N ->
  (forall v, (forall i, glo_predict f (row i X) = Val (v i)) -> \sum_i (nth 0 ys k i 0 - nth 0 (v i) k) = 0) /\
  (forall v, glo_predict f (\row_j ((\sum_i X i j) / m%:R)) = Val v -> nth 0 v k = (\sum_i nth 0 ys k i 0) / m%:R).
Proof.
move=> m n solver p prev X ys f ac m0 n0 pr b /(glo_fit_Val ac m0 n0 pr) -> k kl.
have mz : m%:R != 0 :> R by rewrite pnatr_eq0 -lt0n.
split=> v h; last first.
  rewrite (glo_predict_Val h) (nth_map 0) // linear_valueE b big1 ?addr0 // => j _; by rewrite !mxE subrr mul0r.
have -> : \sum_i (nth 0 ys k i 0 - nth 0 (v i) k) =
  \sum_i (nth 0 ys k i 0 - y_offset true (nth 0 ys k)) - \sum_i \sum_j (X i j - x_offset true X 0 j) * coef_of solver p X (nth 0 ys k) 0 j.
  rewrite -sumrB; apply: eq_bigr => i _; rewrite (glo_predict_Val (h i)) (nth_map 0) // linear_valueE b opprD addrA; congr (_ - _).
  by apply: eq_bigr => j _; rewrite mxE.
rewrite exchange_big [X in _ - X]big1 => [|j _].
  rewrite subr0 sumrB sumr_const card_ord /y_offset -[X in _ - X]mulr_natr mulfVK // subrr //.
rewrite -mulr_suml sumrB sumr_const card_ord mxE -[X in (_ - X) * _]mulr_natr mulfVK // subrr mul0r //.
Qed.
Print Assumptions C157_residuals.

(** with an intercept, adding a constant row to the samples and a constant to each target moves the predictions accordingly *)
Theorem C157_shift : forall m n solver p (X : 'M[R]_(m, n)) ys (a : 'rV[R]_n) (c : seq R) f f' x v v', accepted p -> (0 < m)%N -> (0 < n)%N ->
  fit_intercept p -> size c = size ys ->
  glo_fit solver p None X ys = Val f ->
  glo_fit solver p None (\matrix_(i, j) (X i j + a 0 j)) [seq \col_i (yc.1 i 0 + yc.2) | yc : 'cV[R]_m * R <- zip ys c] = Val f' ->
  glo_predict f x = Val v -> glo_predict f' (x + a) = Val v' ->
  coef f' = coef f /\ forall k, (k < size ys)%N -> nth 0 v' k = nth 0 v k + nth 0 c k.
Proof.
move=> m n solver p X ys a c f f' x v v' ac m0 n0 b sc /(glo_fit_Val ac m0 n0) hf /(glo_fit_Val ac m0 n0) hf'.
rewrite hf // hf' // => /glo_predict_Val -> /glo_predict_Val -> /=.
have mz : m%:R != 0 :> R by rewrite pnatr_eq0 -lt0n.
set X' := \matrix_(i, j) _.
have xo j : x_offset true X' 0 j = x_offset true X 0 j + a 0 j.
  rewrite !mxE; under eq_bigr do rewrite mxE; rewrite big_split /= sumr_const card_ord mulrDl -[a 0 j *+ m]mulr_natr mulfK //.
have xc : x_centred true X' = x_centred true X by apply/matrixP => i j; rewrite mxE [RHS]mxE xo mxE [X in _ - X]addrC opprD addrA addrK.
have xs : x_scale true (normalize p) X' = x_scale true (normalize p) X by rewrite /x_scale xc.
have xp : x_pre true (normalize p) X' = x_pre true (normalize p) X by rewrite /x_pre xc xs.
have yo (y : 'cV[R]_m) d : y_offset true (\col_i (y i 0 + d)) = y_offset true y + d.
  rewrite /y_offset; under eq_bigr do rewrite mxE; rewrite big_split /= sumr_const card_ord mulrDl -[d *+ m]mulr_natr mulfK //.
have yp (y : 'cV[R]_m) d : y_pre true (\col_i (y i 0 + d)) = y_pre true y.
  by apply/colP => i; rewrite mxE [RHS]mxE yo mxE [X in _ - X]addrC opprD addrA addrK.
have ce (y : 'cV[R]_m) d : coef_of solver p X' (\col_i (y i 0 + d)) = coef_of solver p X y by rewrite /coef_of b xp xs yp.
split.
  rewrite -map_comp -[ys in RHS](@unzip1_zip _ _ ys c) ?sc // /unzip1 -map_comp; apply: eq_map => -[y d] /=; exact: ce.
move=> k kl; rewrite -map_comp (nth_map (0, 0)) ?size_zip ?sc ?minnn // (nth_map 0) //.
rewrite nth_zip ?sc //= !linear_valueE b ce yo -addrA [_ + \sum_j _]addrC addrA; congr (_ + _ + _); apply: eq_bigr => j _.
by rewrite xo !mxE opprD addrACA subrr addr0.
Qed.
Print Assumptions C157_shift.

(** with an intercept and normalize=True, measuring the features in other units does not change the predictions *)
Theorem C157_units : forall m n solver p (X : 'M[R]_(m, n)) ys (d : 'rV[R]_n) f f' x v v', accepted p -> (0 < m)%N -> (0 < n)%N ->
  fit_intercept p -> normalize p -> (forall j, 0 < d 0 j) -> (forall j, exists i i', X i j != X i' j) ->
  glo_fit solver p None X ys = Val f -> glo_fit solver p None (\matrix_(i, j) (X i j * d 0 j)) ys = Val f' ->
  glo_predict f x = Val v -> glo_predict f' (\row_j (x 0 j * d 0 j)) = Val v' -> v' = v.
Proof.
move=> m n solver p X ys d f f' x v v' ac m0 n0 b nr d0 nc /(glo_fit_Val ac m0 n0) hf /(glo_fit_Val ac m0 n0) hf'.
rewrite hf // hf' // => /glo_predict_Val -> /glo_predict_Val ->; apply: eq_map => y; rewrite !linear_valueE b; congr (_ + _).
pose X' : 'M[R]_(m, n) := \matrix_(i, j) (X i j * d 0 j); rewrite -/X'.
have xo j : x_offset true X' 0 j = x_offset true X 0 j * d 0 j.
  have e : \sum_i X' i j = (\sum_i X i j) * d 0 j by rewrite mulr_suml; apply: eq_bigr => i _; rewrite mxE.
  by rewrite /x_offset [LHS]mxE e mxE mulrAC.
have xc i j : x_centred true X' i j = x_centred true X i j * d 0 j by rewrite mxE xo !mxE mulrBl.
have [xs sp] : (forall j, x_scale true true X' 0 j = x_scale true true X 0 j * d 0 j) /\ (forall j, x_scale true true X 0 j != 0).
  suff h j : x_scale true true X' 0 j = x_scale true true X 0 j * d 0 j /\ x_scale true true X 0 j != 0 by split=> j; case: (h j).
  rewrite !mxE /=; set q := \sum_i x_centred true X i j ^+ 2.
  have -> : \sum_i x_centred true X' i j ^+ 2 = q * d 0 j ^+ 2 by rewrite mulr_suml; apply: eq_bigr => i _; rewrite xc exprMn.
  have q0 : 0 <= q by apply: sumr_ge0 => i _; exact: sqr_ge0.
  have -> : sqrt (q * d 0 j ^+ 2) = sqrt q * d 0 j.
    rewrite [LHS]sqrt_mult; [|exact/RleP|by apply/RleP; exact: sqr_ge0].
    by congr (_ * _); rewrite expr2; apply: sqrt_square; apply/RleP; exact: ltW.
  rewrite mulf_eq0 (gt_eqF (d0 j)) orbF; case: eqP => [z|/eqP]; last by split.
  have qz : q = 0 by apply: (sqrt_eq_0 _ _ z); exact/RleP.
  have c0 i : x_centred true X i j = 0.
    by apply/eqP; rewrite -sqrf_eq0; apply/eqP; apply: (psumr_eq0P _ qz) => // k _; exact: sqr_ge0.
  have [i [i']] := nc j; case/eqP; move: (c0 i) (c0 i'); rewrite !mxE => /eqP; rewrite subr_eq0 => /eqP -> /eqP.
  by rewrite subr_eq0 => /eqP ->.
have xp : x_pre true true X' = x_pre true true X.
  apply/matrixP => i j; rewrite mxE [RHS]mxE xc xs invfM mulrACA divff ?mulr1 //; exact: lt0r_neq0.
apply: eq_bigr => j _; rewrite /coef_of b nr xp xo [in LHS]mxE -mulrBl -mulrA; congr (_ * _).
rewrite mxE [RHS]mxE xs invfM mulrC -!mulrA mulVf ?mulr1 //; exact: lt0r_neq0.
Qed.
Print Assumptions C157_units.

(** every target is fitted as if it were the only one *)
Theorem C157_targets : forall m n solver p (X : 'M[R]_(m, n)) ys f k f', accepted p -> (0 < m)%N -> (0 < n)%N -> (k < size ys)%N ->
  glo_fit solver p None X ys = Val f -> glo_fit solver p None X [:: nth 0 ys k] = Val f' ->
  [/\ size (coef f) = size ys, size (intercept f) = size ys, coef f' = [:: nth 0 (coef f) k] & intercept f' = [:: nth 0 (intercept f) k]].
Proof.
move=> m n solver p X ys f k f' ac m0 n0 kl /(glo_fit_Val ac m0 n0) hf /(glo_fit_Val ac m0 n0) hf'.
by rewrite hf // hf' //= !size_map !(nth_map 0).
Qed.
Print Assumptions C157_targets.

(** positive, precompute, selection, warm_start and the number of jobs have no effect on the result *)
Theorem C157_options_refuted : forall m n solver p p' (prev prev' : option (seq 'rV[R]_n)) (X : 'M[R]_(m, n)) ys, accepted p -> accepted p' ->
  (0 < m)%N -> (0 < n)%N -> (forall c, prev = Some c -> size c = size ys) -> (forall c, prev' = Some c -> size c = size ys) ->
  fit_intercept p = fit_intercept p' -> normalize p = normalize p' -> mode p = mode p' ->
  glo_fit solver p prev X ys = glo_fit solver p' prev' X ys.
Proof.
move=> m n solver p p' prev prev' X ys ac ac' m0 n0 pr pr' e1 e2 e3; rewrite !glo_fitE // e1; case: ifP => // _.
by congr (Val (GLOFitted _ _ _)); apply: eq_map => y; rewrite /intercept_of /coef_of e1 e2 e3.
Qed.
Print Assumptions C157_options_refuted.
(** the reported duality gaps are zeros, whatever the solver returned *)
Theorem C157_dual_gap_refuted : forall m n solver p (prev : option (seq 'rV[R]_n)) (X : 'M[R]_(m, n)) ys f,
  glo_fit solver p prev X ys = Val f -> dual_gap f = nseq (size ys) 0.
Proof.
move=> m n solver p prev X ys f; rewrite /glo_fit; case: ifP => // _; case: ifP => // _; case: (selection p) => //;
by (case: (if n_jobs p == 1%N then _ else _) => // c; case: (fit_intercept p) => [|[<-]] //; case: ifP => // _; case: ifP => [_ [<-] //|_];
  case: ifP => // _ [<-]).
Qed.
Print Assumptions C157_dual_gap_refuted.
(** with warm_start and one job, the rows left from an earlier fit with two targets stay in the coefficients of a fit with one target, which then
    predicts two values; and a fit with more targets than the earlier one fails *)
Theorem C157_stale_refuted : forall m n solver p (c0 c1 : 'rV[R]_n) (X : 'M[R]_(m, n)) y ys, accepted p -> (0 < m)%N -> (1 < n)%N ->
  warm_start p -> n_jobs p = 1%N ->
  (exists f, [/\ glo_fit solver p (Some [:: c0; c1]) X [:: y] = Val f, size (coef f) = 2%N,
     forall j, nth 0 (coef f) 1 0 j = c1 0 j / x_scale (fit_intercept p) (normalize p) X 0 j &
     forall x v, glo_predict f x = Val v -> size v = 2%N]) /\
  ((2 < size ys)%N -> glo_fit solver p (Some [:: c0; c1]) X ys = Raise IndexError).
Proof.
move=> m n solver p c0 c1 X y ys [st [se mo]] m0 n1 ws nj.
have n0 : (0 < n)%N by apply: ltn_trans n1.
have n1' : (n == 1)%N = false by rewrite gtn_eqF.
split; last first.
  case: ys => [|y0 [|y1 [|y2 l]]] // _; rewrite /glo_fit st (gtn_eqF m0) (gtn_eqF n0) ws nj /= /assign_row /=.
  by case: (selection p) se; case: (mode p) mo.
rewrite /glo_fit st (gtn_eqF m0) (gtn_eqF n0) ws nj n1' /=.
case: (selection p) se => // _; case: (mode p) mo => // _; case e : (fit_intercept p) => /=; eexists; (split;
  [reflexivity|by []|by move=> j; rewrite /= !mxE ?divr1|by move=> x v; rewrite /glo_predict n1' /= => -[<-]]).
Qed.
Print Assumptions C157_stale_refuted.
(** one feature and several targets: with an intercept the fit fails, without one every prediction does *)
Theorem C157_one_feature_refuted : forall m solver p (prev : option (seq 'rV[R]_1)) (X : 'M[R]_(m, 1)) ys, accepted p -> (0 < m)%N ->
  (1 < size ys)%N -> (forall c, prev = Some c -> size c = size ys) ->
  if fit_intercept p then glo_fit solver p prev X ys = Raise ValueError
  else exists f, glo_fit solver p prev X ys = Val f /\ forall x, glo_predict f x = Raise ValueError.
Proof.
move=> m solver p prev X ys ac m0 s1 pr; rewrite glo_fitE // eqxx s1; case: (fit_intercept p) => //=; eexists; split; first by [].
by move=> x; rewrite /glo_predict /= size_map s1.
Qed.
Print Assumptions C157_one_feature_refuted.
Theorem C157_raises : forall m n solver p (prev : option (seq 'rV[R]_n)) (X : 'M[R]_(m, n)) y ys,
  precompute_string p \/ selection p = OtherSelection \/ mode p = OtherMode -> glo_fit solver p prev X (y :: ys) = Raise ValueError.
Proof.
move=> m n solver p prev X y ys h; rewrite /glo_fit; case: (precompute_string p) h => // h; case: ifP => // _.
case: (selection p) h => // h; case: (mode p) h => [h|h|h|_]; try (by case: h => // -[]);
by rewrite /=; case: (n_jobs p == 1%N).
Qed.
Print Assumptions C157_raises.

(** how many samples have a label *)
Definition how_many m (labels : m.-tuple nat) (k : nat) : nat := #|[set i | tnth labels i == k]|.
Lemma y_offset_sign m (P : pred 'I_m) : y_offset true (\col_i (if P i then 1 else -1 : R)) = (2%:R * #|[set i | P i]|%:R - m%:R) / m%:R.
Proof.
rewrite /y_offset; congr (_ / _); under eq_bigr do rewrite mxE.
have -> : \sum_i (if P i then 1 else -1) = \sum_i (2%:R * (P i)%:R - 1 : R).
  by apply: eq_bigr => i _; case: (P i); rewrite ?mulr1 ?mulr0 ?sub0r // [2%:R](_ : _ = 1 + 1) ?addrK // -natrD.
rewrite sumrB sumr_const card_ord -mulr_sumr; congr (_ * _ - _); rewrite -sum1_card natr_sum [RHS]big_mkcond /=.
by apply: eq_bigr => i _; rewrite inE; case: (P i).
Qed.

(** when the solver selects no feature (a large penalty), the classifier predicts the most frequent class, the first of them *)
Theorem C158_majority : forall m n solver p (X : 'M[R]_(m, n)) K (labels : m.-tuple nat) f x, accepted p -> (0 < m)%N -> (0 < n)%N -> (0 < K)%N ->
  fit_intercept p -> (forall i, (tnth labels i < K)%N) -> (forall md X y, solver md X y = 0) ->
  glo_classifier_fit solver p None X K labels = Val f ->
  let k := glo_classify f x in [/\ (k < K)%N, forall j, (j < K)%N -> (how_many labels j <= how_many labels k)%N &
  forall j, (j < k)%N -> (how_many labels j < how_many labels k)%N].
Proof.
move=> m n solver p X K labels f x ac m0 n0 K0 b lK s0; rewrite /glo_classifier_fit => /(glo_fit_Val ac m0 n0) -> //.
have lv y : linear_value x (coef_of solver p X y, intercept_of solver p X y) = y_offset true y.
  rewrite linear_valueE b big1 ?addr0 // => j _; by rewrite [coef_of _ _ _ _ _ _]mxE s0 [(0 : 'rV[R]_n) _ _]mxE mul0r mulr0.
have mp : 0 < m%:R :> R by rewrite ltr0n.
have le_score (i j : nat) : ((2%:R * (how_many labels i)%:R - m%:R) / m%:R <= (2%:R * (how_many labels j)%:R - m%:R) / m%:R :> R) =
  (how_many labels i <= how_many labels j)%N.
  by rewrite ler_pmul2r ?invr_gt0 // ler_add2r ler_pmul2l ?ltr0n // ler_nat.
have [yof yE] : exists yof, forall y, @y_offset m true y = yof y by exists (@y_offset m true).
rewrite /glo_classify /= zip_map -map_comp (eq_map (f2 := yof)); last by move=> y; rewrite -yE; exact: lv.
rewrite /binarize; case: (leqP K 2) => K2 /=.
  rewrite -yE (y_offset_sign (fun i => tnth labels i == 1%N)) -/(how_many labels 1) pmulr_lgt0 ?invr_gt0 // subr_gt0 -natrM ltr_nat.
  have split2 : (how_many labels 0 + how_many labels 1 = m)%N.
    rewrite /how_many -[RHS]card_ord -(cardsC [set i | tnth labels i == 0%N]); congr (_ + _)%N; apply: eq_card => i.
    by rewrite !inE; move: (leq_trans (lK i) K2); case: (tnth labels i) => [|[]].
  have K1 : K = 1%N -> how_many labels 1 = 0%N.
    move=> e; apply/eqP; rewrite cards_eq0; apply/eqP/setP => i; rewrite !inE; have := lK i; rewrite e; by case: (tnth labels i).
  have -> : (m < 2 * how_many labels 1)%N = (how_many labels 0 < how_many labels 1)%N.
    by move: split2; move: (how_many labels 0) (how_many labels 1) => u v <-; rewrite mul2n -addnn ltn_add2r.
  case: (ltnP (how_many labels 0) (how_many labels 1)) => h; split=> //.
  - rewrite ltnNge; apply/negP => K1'; move: h; rewrite K1 //; apply/eqP; by rewrite eqn_leq K0 K1'.
  - by move=> j jK; have := leq_trans jK K2; case: j {jK} => [|[|]] // _; apply: ltnW.
  - by case.
  - by move=> j jK; have := leq_trans jK K2; case: j {jK} => [|[|]].
rewrite -map_comp (eq_map (f2 := fun k => (2%:R * (how_many labels k)%:R - m%:R) / m%:R)); last by move=> k; rewrite /= -yE; exact: y_offset_sign.
set sc := map _ _; have ss : size sc = K by rewrite size_map size_iota.
have nt k : (k < K)%N -> nth 0 sc k = (2%:R * (how_many labels k)%:R - m%:R) / m%:R by move=> kK; rewrite (nth_map 0%N) ?size_iota // nth_iota.
rewrite ss gtn_eqF; last by apply: leq_trans K2.
have hs : has (fun v => all (fun w => w <= v) sc) sc.
  have [k kK km] : exists2 k, (k < K)%N & forall j, (j < K)%N -> (how_many labels j <= how_many labels k)%N.
    have [k _ km] := @arg_maxnP [finType of 'I_K] (Ordinal K0) predT (fun i : 'I_K => how_many labels i) isT.
    by exists k => // j jK; apply: (km (Ordinal jK)).
  apply/hasP; exists (nth 0 sc k); first by rewrite mem_nth ?ss.
  by apply/(all_nthP 0) => j; rewrite ss => jK; rewrite !nt // le_score km.
have fk : (find (fun v : R => all (fun w : R => (w <= v)%R) sc) sc < K)%N by rewrite -ss -has_find.
split=> // j jk; last first.
  have jK := ltn_trans jk fk; have := before_find 0 jk => /negbT; rewrite -has_predC => /(has_nthP 0) [i]; rewrite ss => iK /=.
  rewrite -ltNge !nt // ltNge le_score -ltnNge => h; apply: leq_trans h _.
  have /(all_nthP 0) /(_ i) := nth_find 0 hs; rewrite ss => /(_ iK); by rewrite !nt // le_score.
have /(all_nthP 0) /(_ j) := nth_find 0 hs; rewrite ss => /(_ jk); by rewrite !nt // le_score.
Qed.
Print Assumptions C158_majority.

(** two classes, for a solver that is odd in the target: exchanging the names of the classes exchanges the predictions, except for a zero score,
    where both classifiers predict their first class *)
Theorem C158_swap : forall m n solver p (X : 'M[R]_(m, n)) (labels labels' : m.-tuple nat) f f' x s, accepted p -> (0 < m)%N -> (0 < n)%N ->
  (forall md X y, solver md X (- y) = - solver md X y) ->
  (forall i, (tnth labels i < 2)%N) -> (forall i, tnth labels' i = (1 - tnth labels i)%N) ->
  glo_classifier_fit solver p None X 2 labels = Val f -> glo_classifier_fit solver p None X 2 labels' = Val f' ->
  glo_predict f x = Val [:: s] ->
  if s == 0 then glo_classify f x = 0%N /\ glo_classify f' x = 0%N else glo_classify f' x = (1 - glo_classify f x)%N.
Proof.
move=> m n solver p X labels labels' f f' x s ac m0 n0 odd' l2 ll; rewrite /glo_classifier_fit /binarize /=.
move=> /(glo_fit_Val ac m0 n0) -> // /(glo_fit_Val ac m0 n0) -> //; rewrite /glo_predict /= andbF /glo_classify /= => -[].
set y := \col_i _; set y' := \col_i _.
have yy : y' = - y by apply/colP => i; rewrite !mxE ll; move: (l2 i); case: (tnth labels i) => [|[|]] //=; rewrite ?opprK.
have yo bb : y_offset bb y' = - y_offset bb y.
  by rewrite yy /y_offset; case: bb; rewrite ?oppr0 //; under eq_bigr do rewrite mxE; rewrite sumrN mulNr.
have yp bb : y_pre bb y' = - y_pre bb y by apply/colP => i; rewrite mxE yo yy opprK [RHS]mxE [y_pre _ _ _ _]mxE opprB [(- y) _ _]mxE addrC.
have -> : linear_value x (coef_of solver p X y', intercept_of solver p X y') = - linear_value x (coef_of solver p X y, intercept_of solver p X y).
  rewrite !linear_valueE yo opprD; congr (_ + _); rewrite -sumrN; apply: eq_bigr => j _; rewrite -mulrN; congr (_ * _).
  by rewrite mxE [in RHS]mxE yp odd' mxE mulNr.
move=> ->; rewrite oppr_gt0; case: eqP => [->|/eqP]; first by rewrite ltxx.
by rewrite neq_lt => /orP [h|h]; rewrite h ltNge (ltW h).
Qed.
Print Assumptions C158_swap.
(** three or more classes cannot be fitted from one feature *)
Theorem C158_one_feature_refuted : forall m solver p (X : 'M[R]_(m, 1)) K (labels : m.-tuple nat), accepted p -> (0 < m)%N -> (2 < K)%N ->
  fit_intercept p -> glo_classifier_fit solver p None X K labels = Raise ValueError.
Proof.
move=> m solver p X K labels ac m0 K3 b; have K2 : (K <= 2)%N = false by rewrite leqNgt K3.
rewrite /glo_classifier_fit glo_fitE // b eqxx /binarize K2 /= size_map size_iota.
by rewrite (leq_trans _ K3).
Qed.
Print Assumptions C158_one_feature_refuted.

(** the default options *)
Definition default_options := GLOParams true false false false false false Cyclic 1 Admm.
Lemma default_accepted : accepted default_options. Proof. by []. Qed.
(** two samples, two features, a solver that returns ones: predictions 0 and 4 for the targets 1 and 3, the residuals sum to zero *)
Example C157_case : let X := \matrix_(i < 2, j < 2) (i * j)%:R : 'M[R]_2 in let y := \col_(i < 2) (1 + 2 * i)%:R in
  exists f, glo_fit (fun _ _ _ => const_mx 4%:R) default_options None X [:: y] = Val f /\
  glo_predict f (row 0 X) = Val [:: 0] /\ glo_predict f (row 1 X) = Val [:: 4%:R].
Proof.
move=> X y; rewrite glo_fitE //=; eexists; split; first by [].
have xo j : x_offset true X 0 j = j%:R / 2%:R by rewrite mxE big_ord_recl big_ord1 !mxE /= mul0n mul1n add0r.
have yo : y_offset true y = 2%:R.
  by rewrite /y_offset big_ord_recl big_ord1 !mxE /= muln0 muln1 -natrD (_ : (_ + _ = 2 * 2)%N) // natrM mulfK // pnatr_eq0.
have lv x : linear_value x (coef_of (fun _ _ _ => const_mx 4%:R) default_options X y, intercept_of (fun _ _ _ => const_mx 4%:R) default_options X y) =
  2%:R + (x 0 0 * 4%:R + (x 0 1 - 1 / 2%:R) * 4%:R).
  have fi : fit_intercept default_options = true by [].
  rewrite linear_valueE fi yo; congr (_ + _); rewrite big_ord_recl big_ord1 !xo mul0r subr0.
  have c j : coef_of (fun _ _ _ => const_mx 4%:R) default_options X y 0 j = 4%:R by rewrite !mxE /= divr1.
  by rewrite !c; congr (_ * _ + (x 0 _ - _) * _); apply: val_inj.
have e i j : row i X 0 j = (i * j)%:R by rewrite !mxE.
have n1 : 2%:R + (0 * 4%:R + (0 - 1 / 2%:R) * 4%:R) = 0 :> R by mcfield.
have n2 : 2%:R + (0 * 4%:R + (1 - 1 / 2%:R) * 4%:R) = 4%:R :> R by mcfield.
by split; rewrite /glo_predict /= lv !e /= ?muln0 ?mul0n ?mul1n ?n1 ?n2.
Qed.
(** five samples of three classes: the classifier that selects nothing predicts the class of three of them *)
Example C158_case : let labels := [tuple 2%N; 1%N; 1%N; 0%N; 1%N] in
  exists f, glo_classifier_fit (fun _ _ _ => 0) default_options None (1%:M : 'M[R]_5) 3 labels = Val f /\ forall x, glo_classify f x = 1%N.
Proof.
move=> labels; have e : exists f, glo_classifier_fit (fun _ _ _ => 0) default_options None (1%:M : 'M[R]_5) 3 labels = Val f.
  by rewrite /glo_classifier_fit glo_fitE //=; eexists.
case: e => f e; exists f; split=> // x.
have lK : forall i : 'I_5, (tnth labels i < 3)%N by do 6 case=> //.
have [k3 h _] := C158_majority x default_accepted (isT : (0 < 5)%N) (isT : (0 < 5)%N) (isT : (0 < 3)%N) isT lK (fun _ _ _ => erefl) e.
have hm k : how_many labels k = count_mem k labels.
  rewrite /how_many -sum1_card -sum1_count [RHS]big_tuple; apply: eq_bigl => i; by rewrite inE.
have := h 1%N isT; move: k3; case: (glo_classify f x) => [|[|[|]]] // _; by rewrite !hm.
Qed.
