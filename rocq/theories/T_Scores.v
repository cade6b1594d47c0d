(** Property theorems on scores.py and clustering.py: C47, C48, C59, C62. *)
From Coq Require Import Reals String Lra.
From mathcomp Require Import all_ssreflect all_algebra.
From Verif Require Import RStruct RTac NP Str S_Mat RMx M_Utils M_Scores S_Utils P_Utils2 P_Scores.
Import Order.TTheory GRing.Theory Num.Theory.

Set Implicit Arguments.
Unset Strict Implicit.
Unset Printing Implicit Defensive.
Local Open Scope ring_scope.

(** C47 *)
Theorem C47_representative : forall n (gs : seq 'M[R]_n), gs <> [::] ->
  exists m : 'M[int]_n, get_representative gs = Val m /\
  forall i j, ((forall g, g \in gs -> g i j <> 0) -> m i j = 1) /\
              ((exists2 g, g \in gs & g i j = 0) -> m i j = 0).
Proof. exact representative. Qed.
Print Assumptions C47_representative.
Theorem C47_distance : forall n (g r s : 'M[R]_n),
  [/\ graph_distance g r = graph_distance r g, 0 <= graph_distance g r,
      graph_distance g r = 0 <-> same_support g r
    & graph_distance g s <= graph_distance g r + graph_distance r s].
Proof.
by move=> n g r s; split; [exact: distance_sym | exact: distance_ge0 | exact: distance_eq0 | exact: distance_tri].
Qed.
Print Assumptions C47_distance.
Theorem C47_edges : forall n (g r : 'M[R]_n), sym g -> sym r ->
  (forall i, (g i i == 0) = (r i i == 0)) -> graph_distance g r = (edge_diff g r)%:R.
Proof. exact distance_edges. Qed.
Print Assumptions C47_edges.
Theorem C47_table : forall n k l (graphs : 'I_k -> 'M[R]_n) (reps : 'I_l -> 'M[R]_n) i j,
  compute_distances graphs reps i j = graph_distance (graphs i) (reps j).
Proof. by move=> n k l graphs reps i j; rewrite mxE. Qed.
Print Assumptions C47_table.
Example C47_nonvacuous : let g := (const_mx 1 : 'M[R]_3) in let r := (1%:M : 'M[R]_3) in
  [/\ sym g, sym r, forall i, (g i i == 0) = (r i i == 0) & edge_diff g r = 3%N].
Proof.
move=> g r; split.
- by rewrite /sym trmx_const.
- by rewrite /sym tr_scalar_mx.
- by move=> i; rewrite !mxE eqxx.
rewrite /edge_diff -sum1_card (eq_bigl (fun e : 'I_3 * 'I_3 => (e.1 < e.2)%N)); last first.
  move=> [i j]; rewrite !inE !mxE /= oner_eq0 /=.
  case: (i =P j) => [->|/eqP h] /=; first by rewrite ltnn.
  by rewrite eqxx /= andbT.
rewrite -(pair_big_dep xpredT (fun i j : 'I_3 => (i < j)%N) (fun _ _ => 1%N)) /=.
rewrite (eq_bigr (fun i : 'I_3 => (\sum_(j < 3) (i < j))%N)).
  by rewrite !big_ord_recl !big_ord0.
by move=> i _; rewrite big_mkcond; apply: eq_bigr => j _; case: (i < j)%N.
Qed.

(** C48 *)
Theorem C48_BIC : forall p (S K : 'M[R]_p), 0 < \det K -> (forall i, K i i != 0) ->
  BIC S K = Fin (ln (\det K) - fdot S K - (n_edges2 K)%:R).
Proof. exact bicE. Qed.
Print Assumptions C48_BIC.
Theorem C48_extra_edges : forall p (S K S' K' : 'M[R]_p) l d, 0 < \det K -> 0 < \det K' ->
  (forall i, K i i != 0) -> (forall i, K' i i != 0) ->
  log_likelihood S K = Fin l -> log_likelihood S' K' = Fin l -> n_edges2 K' = (n_edges2 K + d)%N ->
  exists b b', [/\ BIC S K = Fin b, BIC S' K' = Fin b' & b' = b - d%:R].
Proof.
move=> p S K S' K' l d dK dK' gK gK' hl hl' e.
rewrite !bicE //; move: hl hl'; rewrite !llE // => -[<-] [h].
do 2 eexists; split; [by [] | by [] |]; rewrite h e natrD opprD addrA //.
Qed.
Print Assumptions C48_extra_edges.
Theorem C48_EBIC : forall p (S K : 'M[R]_p) (n eps : R), 0 < \det K -> (forall i, K i i != 0) ->
  1 <= n -> (0 < p)%N -> 0 <= eps ->
  exists2 e, EBIC S K n eps = Fin e & e <= ln (\det K) - fdot S K.
Proof. by move=> p S K n eps dK gK n1 p0 e0; exact: ebic_le. Qed.
Print Assumptions C48_EBIC.
Theorem C48_time : forall p T (S K : 'I_T -> 'M[R]_p) (b : 'I_T -> R),
  (forall t, 0 < \det (K t)) -> (forall t i, K t i i != 0) ->
  (forall t, BIC (S t) (K t) = Fin (b t)) -> BIC_t S K = Fin (\sum_t b t).
Proof. by move=> p T S K b dK gK h; exact: bic_t_sum. Qed.
Print Assumptions C48_time.
Example C48_nonvacuous : 0 < \det (1%:M : 'M[R]_3) /\ (forall i, (1%:M : 'M[R]_3) i i != 0).
Proof. by split=> [|i]; rewrite ?det1 ?ltr01 // mxE eqxx oner_eq0. Qed.

(** C59: the similarity kernel of the clustering loop *)
Theorem C59_kernel : forall k l (d : 'M[R]_(k, l.+1)), (forall i j, 0 <= d i j) ->
  (forall i, exists j, d i j != 0) -> exists K : 'M[R]_k,
  [/\ forall i i', kernel_entry d i i' = Fin (K i i'), psd K & forall i i', 0 <= K i i' <= l%:R].
Proof. by move=> k l d d0 h; exact: kernel_ok. Qed.
Print Assumptions C59_kernel.
Theorem C59_degenerate : forall k l (d : 'M[R]_(k, l.+1)) i i', (forall j, d i j = 0) ->
  kernel_entry d i i' = NaN.
Proof. by move=> k l d i i' h; exact: kernel_nan. Qed.
Print Assumptions C59_degenerate.
Example C59_nonvacuous : let d := (const_mx 1 : 'M[R]_(2, 3)) in
  (forall i j, 0 <= d i j) /\ (forall i, exists j, d i j != 0).
Proof. by move=> d; split=> i *; [rewrite mxE ler01 | exists 0; rewrite mxE oner_eq0]. Qed.

(** C62: the documented order of the criteria *)
Theorem C62_EBIC_below_BIC_refuted : forall p (S K : 'M[R]_p), 0 < \det K -> (forall i, K i i != 0) ->
  (0 < n_edges2 K)%N -> (p <= 40)%N ->
  exists a b, [/\ BIC S K = Fin a, EBIC S K 100%:R (1 / 2%:R) = Fin b & a < b].
Proof. by move=> p S K dK gK e0 p40; exact: ebic_gt_bic. Qed.
Print Assumptions C62_EBIC_below_BIC_refuted.
Theorem C62_EBIC_m_below_EBIC : forall p (S K : 'M[R]_p) (n eps : R), 0 < \det K -> (forall i, K i i != 0) ->
  0 < n -> (2 < p)%N -> 0 <= eps ->
  exists a b, [/\ EBIC_m S K n eps = Fin a, EBIC S K n eps = Fin b & a <= b].
Proof. by move=> p S K n eps dK gK n0 p2 e0; exact: ebic_m_le. Qed.
Print Assumptions C62_EBIC_m_below_EBIC.
Theorem C62_two_variables_refuted : forall (S K : 'M[R]_2) (n eps : R), 0 < \det K -> (forall i, K i i != 0) ->
  (0 < n_edges2 K)%N -> 0 < n -> 0 < eps ->
  exists a b, [/\ EBIC_m S K n eps = Fin a, EBIC S K n eps = Fin b & b < a].
Proof. by move=> S K n eps dK gK eK n0 e0; exact: ebic_m_gt. Qed.
Print Assumptions C62_two_variables_refuted.
Theorem C62_one_variable_refuted : forall (S K : 'M[R]_1) (n eps : R), 0 < K 0 0 -> 0 < n -> 0 < eps ->
  EBIC_m S K n eps = NaN.
Proof. exact ebic_m_nan. Qed.
Print Assumptions C62_one_variable_refuted.
Example C62_nonvacuous : let K : 'M[R]_2 := \matrix_(i, j) (if i == j then 2%:R else 1) in
  [/\ 0 < \det K, forall i, K i i != 0 & (0 < n_edges2 K)%N].
Proof.
move=> K; split.
- by rewrite (expand_det_row _ 0) !big_ord_recl big_ord0 /cofactor !det_mx11 !mxE /= /bump /= ?expr0 ?expr1 ?expr2; mclra.
- by move=> i; rewrite mxE eqxx pnatr_eq0.
- by apply/card_gt0P; exists (0, lift ord0 ord0); rewrite !inE mxE /= oner_eq0.
Qed.
