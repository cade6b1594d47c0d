(** Property theorems on utils.py: C34-C38, C45, C46, C52, C55-C58. *)
From Coq Require Import Reals String Lra Epsilon.
From mathcomp Require Import all_ssreflect all_algebra.
From Verif Require Import RStruct RTac NP Str S_Mat RMx M_Utils S_Utils P_Utils P_Utils2.
Import Order.TTheory GRing.Theory Num.Theory.

Set Implicit Arguments.
Unset Strict Implicit.
Unset Printing Implicit Defensive.
Local Open Scope ring_scope.

(** C34: the four counts are the number of considered positions of each kind *)
Theorem C34_counts : forall (I : finType) (dg up : pred I) mcc (t p : I -> R) thr eps nd r,
  structure_error dg up mcc t p thr eps nd = Val r ->
  let c := considered dg nd in let P e := is_pred_edge thr eps (p e) in
  [/\ se_tp r = count_pos (fun e => c e && is_edge (t e) && P e),
      se_fp r = count_pos (fun e => c e && ~~ is_edge (t e) && P e),
      se_fn r = count_pos (fun e => c e && is_edge (t e) && ~~ P e) &
      se_tn r = count_pos (fun e => c e && ~~ is_edge (t e) && ~~ P e)].
Proof. exact se_counts. Qed.
Print Assumptions C34_counts.
Lemma se_partition : forall (I : finType) (dg up : pred I) mcc (t p : I -> R) thr eps nd r,
  structure_error dg up mcc t p thr eps nd = Val r ->
  [/\ (se_tp r + se_fp r + se_tn r + se_fn r)%N = count_pos (considered dg nd),
      (se_tp r + se_fn r)%N = count_pos (fun e => considered dg nd e && is_edge (t e))
    & (se_tp r + se_fp r)%N = count_pos (fun e => considered dg nd e && is_pred_edge thr eps (p e))].
Proof.
move=> I dg up mcc t p thr eps nd r /se_counts[-> -> -> ->].
split; last 2 first.
- exact: (true_edges dg t p thr eps nd).
- exact: (pred_edges dg t p thr eps nd).
have := totals dg t p thr eps nd.
have <- : (count_pos (considered dg nd) + (if nd then #|dg| else 0))%N = #|I|.
  rewrite -(cardC dg) /count_pos /considered; case: nd => /=.
    by rewrite addnC; congr addn; apply: eq_card => e; rewrite !inE.
  by rewrite addn0 (cardC dg); apply: eq_card => e; rewrite !inE.
by move/addIn.
Qed.
Theorem C34_partition : forall (I : finType) (dg up : pred I) mcc (t p : I -> R) thr eps nd r,
  structure_error dg up mcc t p thr eps nd = Val r ->
  [/\ (se_tp r + se_fp r + se_tn r + se_fn r)%N = count_pos (considered dg nd),
      (se_tp r + se_fn r)%N = count_pos (fun e => considered dg nd e && is_edge (t e))
    & (se_tp r + se_fp r)%N = count_pos (fun e => considered dg nd e && is_pred_edge thr eps (p e))].
Proof. exact se_partition. Qed.
Print Assumptions C34_partition.
Theorem C34_ratios : forall (I : finType) (dg up : pred I) mcc (t p : I -> R) thr eps nd r,
  structure_error dg up mcc t p thr eps nd = Val r ->
  let tp : R := (se_tp r)%:R in let fp : R := (se_fp r)%:R in
  let fn : R := (se_fn r)%:R in let tn : R := (se_tn r)%:R in
  [/\ [/\ se_recall r = tp / (tp + fn), se_miss_rate r = 1 - se_recall r & 0 < tp + fn],
      [/\ 0 < tp + fp -> se_precision r = tp / (tp + fp), se_fdr r = 1 - se_precision r
        & se_f1 r = 2%:R * tp / (2%:R * tp + fp + fn)],
      [/\ 0 < fp + tn -> se_specificity r = tn / (fp + tn), se_fall_out r = 1 - se_specificity r
        & se_balanced_accuracy r = (se_recall r + se_specificity r) / 2%:R],
      [/\ se_npv r = 1 - se_for r, se_accuracy r = (tp + tn) / #|I|%:R & se_prevalence r = (tp + fn) / #|I|%:R]
    & [/\ 0 <= se_recall r <= 1, 0 <= se_precision r <= 1, 0 <= se_f1 r <= 1,
          0 <= se_specificity r <= 1 /\ 0 <= se_npv r <= 1
        & 0 <= se_accuracy r <= 1 /\ 0 <= se_prevalence r <= 1]].
Proof. exact se_ratios. Qed.
Print Assumptions C34_ratios.
Theorem C34_swap : forall (I : finType) (dg up : pred I) mcc (t p : I -> R) eps nd r r',
  structure_error dg up mcc t p false eps nd = Val r ->
  structure_error dg up mcc p t false eps nd = Val r' ->
  [/\ se_tp r' = se_tp r, se_tn r' = se_tn r, se_fp r' = se_fn r, se_fn r' = se_fp r
    & [/\ se_f1 r' = se_f1 r, se_accuracy r' = se_accuracy r, se_recall r' = se_precision r
        & se_precision r' = se_recall r]].
Proof. exact (fun I dg up mcc t p eps nd r r' => @se_swap I dg up mcc t p false eps nd r r' erefl). Qed.
Print Assumptions C34_swap.
Theorem C34_raises : forall (I : finType) (dg up : pred I) mcc (t p : I -> R) thr eps nd,
  (structure_error dg up mcc t p thr eps nd = Raise ZeroDivisionError
     <-> forall e, considered dg nd e -> ~~ is_edge (t e)) /\
  ((exists2 e, considered dg nd e & is_edge (t e))
     <-> exists r, structure_error dg up mcc t p thr eps nd = Val r).
Proof. exact se_raise. Qed.
Print Assumptions C34_raises.
(** positions of a 2 x 2 matrix, diagonal removed, edge (0,1) true and predicted *)
Definition ex_dg : pred ('I_2 * 'I_2) := [pred e : 'I_2 * 'I_2 | e.1 == e.2].
Definition ex_up : pred ('I_2 * 'I_2) := [pred e : 'I_2 * 'I_2 | (e.1 < e.2)%N].
Definition ex_t (e : 'I_2 * 'I_2) : R := if (e.1 < e.2)%N then 1 else 0.
Example C34_nonvacuous : exists r, structure_error ex_dg ex_up (fun _ _ => 0) ex_t ex_t false 0 true = Val r.
Proof.
apply/(C34_raises ex_dg ex_up (fun _ _ => 0) ex_t ex_t false 0 true).2.
by exists (ord0, ord_max); rewrite /considered /is_edge /ex_t /= ?oner_eq0.
Qed.

(** C35: with the diagonal removed, a perfect prediction has accuracy 1 - (diagonal)/(entries) *)
Theorem C35_accuracy_refuted : forall (I : finType) (dg up : pred I) mcc (t : I -> R) eps r,
  (exists e, dg e) -> structure_error dg up mcc t t false eps true = Val r ->
  se_accuracy r = 1 - #|dg|%:R / #|I|%:R /\ se_accuracy r < 1.
Proof.
move=> I dg up mcc t eps r [e he] h.
have [_ _ _ _ ->] := perfect h; split=> //.
have c1 : 0 < (#|dg|%:R : R) by rewrite ltr0n; apply/card_gt0P; exists e.
have c2 : 0 < (#|I|%:R : R) by rewrite ltr0n; apply/card_gt0P; exists e.
by rewrite ltr_subl_addr -ltr_subl_addl subrr divr_gt0.
Qed.
Print Assumptions C35_accuracy_refuted.
Theorem C35_perfect_otherwise : forall (I : finType) (dg up : pred I) mcc (t : I -> R) eps nd r,
  structure_error dg up mcc t t false eps nd = Val r ->
  [/\ se_fp r = 0%N, se_fn r = 0%N, se_precision r = 1 /\ se_recall r = 1, se_f1 r = 1
    & ~~ nd -> se_accuracy r = 1].
Proof.
by move=> I dg up mcc t eps nd r /perfect[h1 h2 h3 h4 h5]; split=> // /negbTE e; rewrite h5 e mul0r subr0.
Qed.
Print Assumptions C35_perfect_otherwise.
Example C35_nonvacuous : (exists e, ex_dg e) /\
  exists r, structure_error ex_dg ex_up (fun _ _ => 0) ex_t ex_t false 0 true = Val r.
Proof. by split; [exists (ord0, ord0) | exact: C34_nonvacuous]. Qed.

(** C36 *)
Theorem C36_extract : forall n (a : seq R), size a = (n * n.+1)./2 ->
  exists A, [/\ upper_to_full a = Val (n, A), forall i j, A i j = A j i & triangle n A = a].
Proof. exact upper_to_full_ok. Qed.
Print Assumptions C36_extract.
Theorem C36_recover : forall n (M : nat -> nat -> R), (forall i j, M i j = M j i) ->
  exists A, upper_to_full (triangle n M) = Val (n, A) /\
    forall i j, (i < n)%N -> (j < n)%N -> A i j = M i j.
Proof. exact upper_to_full_inv. Qed.
Print Assumptions C36_recover.
Theorem C36_other_lengths : forall a : seq R, (forall n, size a <> (n * n.+1)./2) ->
  upper_to_full a = Raise ValueError.
Proof. exact upper_to_full_bad. Qed.
Print Assumptions C36_other_lengths.
Example C36_nonvacuous : size [:: (1 : R); 2%:R; 3%:R] = (2 * 3)./2 /\ (forall n, 2%N <> (n * n.+1)./2).
Proof.
split=> // -[|[|n]] // e; have h : (6 <= n.+2 * n.+3)%N by rewrite (@leq_mul 2 3).
by have := half_leq h; rewrite -e.
Qed.

(** C37 *)
Theorem C37_result : forall n (chol : 'M[R]_n -> bool) (X Y : 'M[R]_n), chol_ok chol -> sym X ->
  ensure_posdef chol X true = Val Y ->
  [/\ pd Y, forall i j, i != j -> Y i j = X i j & pd X -> Y = X].
Proof.
move=> n chol X Y hc sX [<-]; split; first exact: ensure_pd.
- exact: ensure_off.
- exact: ensure_same.
Qed.
Print Assumptions C37_result.
Theorem C37_stack : forall n T (chol : 'M[R]_n -> bool) (X : {ffun 'I_T -> 'M[R]_n}), chol_ok chol ->
  (forall t, sym (X t)) -> forall t, pd (ensure_posdef_3d chol X t).
Proof. by move=> n T chol X hc sX t; rewrite ffunE; apply: ensure_pd. Qed.
Print Assumptions C37_stack.
(** a Cholesky oracle exists *)
Example C37_nonvacuous : forall n, exists chol : 'M[R]_n -> bool, chol_ok chol.
Proof.
move=> n; exists (fun A => Epsilon.epsilon (inhabits false) (fun b : bool => b <-> pd A)) => A _.
apply: (Epsilon.epsilon_spec (inhabits false) (fun b : bool => b <-> pd A)).
by case: (Classical_Prop.classic (pd A)) => h; [exists true | exists false].
Qed.

(** C38 *)
Theorem C38_normalised : forall n (x : 'M[R]_n), (forall i, 0 < x i i) -> exists Y : 'M[R]_n,
  [/\ forall i j, normalize_matrix x i j = Fin (Y i j),
      forall i, Y i i = 1,
      forall i j, Y i j ^+ 2 * (x i i * x j j) = x i j ^+ 2 /\ (0 <= Y i j) = (0 <= x i j),
      (sym x -> sym Y) /\ (pd x -> pd Y)
    & forall i j, normalize_matrix Y i j = Fin (Y i j)].
Proof. exact normalize_ok. Qed.
Print Assumptions C38_normalised.
Theorem C38_bad_diagonal : forall n (x : 'M[R]_n) i, x i i <= 0 -> normalize_matrix x i i = NaN.
Proof. exact normalize_nan. Qed.
Print Assumptions C38_bad_diagonal.
Example C38_nonvacuous : forall i, 0 < (const_mx 2%:R : 'M[R]_3) i i.
Proof. by move=> i; rewrite mxE ltr0n. Qed.

(** C45 *)
Theorem C45_flatten : forall A (v : pyval A),
  [/\ leaves v (flatten_py v), forall l, leaves v l -> l = flatten_py v,
      flatten_py (PyList (map (@Atom A) (flatten_py v))) = flatten_py v
    & forall l1 l2 : seq (pyval A),
        flatten_py (PyList (l1 ++ l2)) = flatten_py (PyList l1) ++ flatten_py (PyList l2)].
Proof.
by move=> A v; split; [exact: flatten_leaves | exact: leaves_fun | exact: flatten_idem | exact: flatten_catl].
Qed.
Print Assumptions C45_flatten.
Theorem C45_compose : forall A (fs gs : seq (A -> A)) x,
  compose_py fs x = foldr (fun f y => f y) x fs /\
  compose_py (fs ++ gs) x = compose_py fs (compose_py gs x).
Proof. by move=> A fs gs x; split; [exact: compose_right_to_left | exact: compose_cat]. Qed.
Print Assumptions C45_compose.
Theorem C45_filename : forall (C : eqType) (s : seq C) p r, ensure_filename_ending s p = Val r ->
  let l := match p with OneExt e => [:: e] | Exts l => l end in
  [/\ exists2 e, e \in l & ends_with r e,
      (exists2 e, e \in l & ends_with s e) -> r = s,
      r = s \/ (exists2 e, e \in l & r = s ++ e)
    & ensure_filename_ending r p = Val r].
Proof. exact ensure_ending. Qed.
Print Assumptions C45_filename.
Theorem C45_filename_raises : forall (C : eqType) (s : seq C) p,
  (exists ex, ensure_filename_ending s p = Raise ex) <-> p = Exts [::].
Proof. exact ensure_ending_raise. Qed.
Print Assumptions C45_filename_raises.
Example C45_nonvacuous : exists r, ensure_filename_ending [:: 1; 2; 3]%N (Exts [:: [:: 4]; [:: 3; 4]]%N) = Val r.
Proof. by exists [:: 1; 2; 3; 4]%N. Qed.

(** C46 *)
Theorem C46_threshold : forall m n (a : 'M[R]_(m, n)) lo hi v i j,
  let below := if lo is Some l then a i j < l else false in
  let above := if hi is Some h then a i j > h else false in
  (below || above -> threshold a lo hi v i j = v) /\
  (~~ (below || above) -> threshold a lo hi v i j = a i j).
Proof. exact threshold_entries. Qed.
Print Assumptions C46_threshold.
Theorem C46_twice : forall m n (a : 'M[R]_(m, n)) lo hi v,
  (if lo is Some l then l <= v else true) -> (if hi is Some h then v <= h else true) ->
  threshold (threshold a lo hi v) lo hi v = threshold a lo hi v.
Proof.
move=> m n a lo hi v h1 h2; apply: threshold_idem; rewrite /out_of_range negb_or.
by case: lo h1 => [l|] h1; case: hi h2 => [h|] h2; rewrite -?leNgt ?h1 ?h2.
Qed.
Print Assumptions C46_twice.
Example C46_nonvacuous : (0 : R) <= 1 /\ (1 : R) <= 2%:R. Proof. by rewrite ler01 ler1n. Qed.

(** C52 *)
Theorem C52_split : forall T (data : seq (seq T)) d, data <> [::] -> all (fun x => size x == d) data ->
  exists X y, [/\ convert_data_to_2d data = Val (X, y), size X = size y, X = flatten data
    & (forall k, rows_of X y k = nth [::] data k)].
Proof. exact convert_ok. Qed.
Print Assumptions C52_split.
Theorem C52_ragged_raises : forall T (data : seq (seq T)), (forall d, ~~ all (fun x => size x == d) data) ->
  convert_data_to_2d data = Raise ValueError.
Proof. exact convert_bad. Qed.
Print Assumptions C52_ragged_raises.
Example C52_nonvacuous : all (fun x : seq nat => size x == 2%N) [:: [:: 1; 2]; [:: 3; 4]]%N /\
  forall d, ~~ all (fun x : seq nat => size x == d) [:: [:: 1]; [:: 3; 4]]%N.
Proof. by split=> // -[|[|[|d]]]. Qed.

(** C55: error_norm behaves as a distance between matrices *)
Theorem C55_distance : forall n (A B : 'M[R]_n.+1) scaling squared upper,
  [/\ exists2 r, error_norm A B scaling squared upper false = Fin r & 0 <= r,
      error_norm A B scaling squared upper false = error_norm B A scaling squared upper false
    & error_norm A B scaling squared upper false = Fin 0 <->
        forall i j : 'I_n.+1, (upper -> (i < j)%N) -> A i j = B i j].
Proof.
by move=> n A B sc sq u; split; [exact: error_norm_ge0 | exact: error_norm_symm | exact: error_norm_zero].
Qed.
Print Assumptions C55_distance.
Theorem C55_value : forall n (A B : 'M[R]_n.+1) scaling,
  let d := (\sum_i \sum_j (A i j - B i j) ^+ 2) / (if scaling then n.+1%:R else 1) in
  error_norm A B scaling true false false = Fin d /\ error_norm A B scaling false false false = Fin (sqrt d).
Proof.
move=> n A B sc d; rewrite error_norm_symm error_norm_sq error_norm_symm error_norm_root /=.
have -> : fnorm2 (A - B) = \sum_i \sum_j (A i j - B i j) ^+ 2.
  by rewrite fnorm2E; apply: eq_bigr => i _; apply: eq_bigr => j _; rewrite !mxE.
by [].
Qed.
Print Assumptions C55_value.

(** C56: nonzero=True compares exactly the entries where the reference is zero *)
Theorem C56_nonzero_refuted : forall n (A B : 'M[R]_n.+1) scaling squared,
  (forall i j, A i j = 0 -> B i j = 0) -> (exists i j, A i j = 0) ->
  error_norm A B scaling squared false true = Fin 0.
Proof.
move=> n A B sc sq h [i [j e]]; rewrite error_norm_nonzero //.
case: ifP => // /andP[_ /forallP /(_ i) /forallP /(_ j)]; by rewrite e eqxx.
Qed.
Print Assumptions C56_nonzero_refuted.
(** a reference and an estimate that disagree on every nonzero entry *)
Example C56_nonvacuous : let A := (1%:M : 'M[R]_2) in let B := (2%:R%:M : 'M[R]_2) in
  [/\ forall i j, A i j = 0 -> B i j = 0, exists i j, A i j = 0 & forall i j, A i j <> 0 -> A i j <> B i j].
Proof.
move=> A B; split=> [i j||i j].
- by rewrite !mxE; case: eqP => //= _ /eqP; rewrite oner_eq0.
- by exists 0, (lift ord0 ord0); rewrite mxE.
- by rewrite !mxE; case: eqP => //= _ _ /eqP; rewrite eq_sym (eqr_nat _ 2 1).
Qed.

(** C57: the Matthews correlation treats negative entries as absent edges *)
Theorem C57_negative_edges_refuted : forall (I : finType) (dg up : pred I) mcc (t p : I -> R) thr eps nd r,
  structure_error dg up mcc t p thr eps nd = Val r ->
  (forall e, up e -> t e <= 0) -> (forall e, up e -> p e <= 0) ->
  se_mcc r = mcc (nseq #|up| false) (nseq #|up| false).
Proof.
move=> I dg up mcc t p thr eps nd r; rewrite structure_errorE /=; case: ifP => // _ [<-] /= ht hp.
have go (f : I -> R) : (forall e, up e -> f e <= 0) -> [seq 0 < f e | e <- enum up] = nseq #|up| false.
  move=> hf; rewrite cardE; have : {subset enum up <= up} by move=> x; rewrite mem_enum.
  elim: (enum up) => //= e l IH m; rewrite IH => [|x hx]; last by apply: m; rewrite inE hx orbT.
  have ue : up e by apply: m; rewrite mem_head.
  by have := hf e ue; rewrite leNgt => /negbTE ->.
by rewrite !go.
Qed.
Print Assumptions C57_negative_edges_refuted.
Definition ex_tneg (e : 'I_2 * 'I_2) : R := - ex_t e.
Example C57_nonvacuous :
  (exists r, structure_error ex_dg ex_up (fun _ _ => 0) ex_tneg ex_tneg false 0 true = Val r /\ se_tp r = 1%N) /\
  (forall e, ex_up e -> ex_tneg e <= 0).
Proof.
split; last by move=> e h; rewrite /ex_tneg oppr_le0 /ex_t; case: ifP => _; rewrite ?ler01.
have [_ [h _]] := C34_raises ex_dg ex_up (fun _ _ => 0) ex_tneg ex_tneg false 0 true.
case: h => [|r hr].
  by exists (ord0, ord_max); rewrite /considered /is_edge /ex_tneg /ex_t /= ?oppr_eq0 ?oner_eq0.
exists r; split=> //; have [-> _ _ _] := C34_counts hr.
rewrite /count_pos -[RHS](card1 ((ord0, ord_max) : 'I_2 * 'I_2)); apply: eq_card => -[i j]; rewrite !inE /considered /is_edge /is_pred_edge /ex_tneg /ex_t /ex_dg /=.
rewrite -pair_eqE /=.
by case: i j => -[|[|i]] hi [] [|[|j]] hj //=; rewrite ?oppr_eq0 ?oner_eq0 ?oppr0 ?eqxx //= ?andbF.
Qed.

(** C58: mean_structure_error never returns for a non-empty list *)
Theorem C58_mean_structure_error_refuted : forall P (err : P -> res str_err) p ps,
  mean_structure_error err (p :: ps) 0 =
  match err p with Val _ => Raise (KeyError "mcc") | Raise e => Raise e end.
Proof. exact mean_structure_error_fails. Qed.
Print Assumptions C58_mean_structure_error_refuted.
Example C58_nonvacuous : exists r, mean_structure_error
  (fun p => structure_error ex_dg ex_up (fun _ _ => 0) ex_t p false 0 true) [:: ex_t] 0 = Raise r.
Proof. by have [r h] := C34_nonvacuous; exists (KeyError "mcc"); rewrite /= h. Qed.
