(** Property theorems on stability selection and neighbourhood adjacency: C31-C33, C39, C60, C61. *)
From Coq Require Import Reals String Lra Permutation.
From mathcomp Require Import all_ssreflect all_algebra.
From Verif Require Import RStruct RTac NP Str M_Utils M_Stab S_Utils P_Stab P_Stab2 P_Stab3.
Import Order.TTheory GRing.Theory Num.Theory.

Set Implicit Arguments.
Unset Strict Implicit.
Unset Printing Implicit Defensive.
Local Open Scope ring_scope.

(** C31 *)
Theorem C31_range : forall n T (ps : seq ('I_T -> 'M[R]_n)), (1 < n)%N -> (0 < T)%N -> ps <> [::] ->
  exists r, [/\ global_instability ps = Val (Fin r), 0 <= r <= 1 / 2%:R &
    (r = 0 <-> forall c c' t (i j : 'I_n), List.In c ps -> List.In c' ps -> (i < j)%N ->
       (c t i j == 0) = (c' t i j == 0))].
Proof. exact instability. Qed.
Print Assumptions C31_range.
Theorem C31_order : forall n T (ps ps' : seq ('I_T -> 'M[R]_n)), Permutation ps ps' ->
  global_instability ps = global_instability ps'.
Proof. by move=> n T ps ps' /instability_perm[]. Qed.
Print Assumptions C31_order.
Theorem C31_empty : forall n T, global_instability ([::] : seq ('I_T -> 'M[R]_n)) = Raise IndexError.
Proof. by []. Qed.
Print Assumptions C31_empty.
(** the value: mean over pairs of twice the variance of the edge indicator *)
Theorem C31_value : forall n T (ps : seq ('I_T -> 'M[R]_n)), (1 < n)%N -> (0 < T)%N -> ps <> [::] ->
  let freq t i j : R := (count (fun c : 'I_T -> 'M[R]_n => c t i j != 0) ps)%:R / (size ps)%:R in
  global_instability ps = Val (Fin ((\sum_(t < T) \sum_(i < n) \sum_(j < n | (i < j)%N)
    2%:R * freq t i j * (1 - freq t i j)) / ('C(n, 2)%:R * T%:R))).
Proof.
move=> n T ps n1 T0 ps0 freq; rewrite instability_val //; congr (Val (Fin (_ / _))).
by apply: eq_bigr => t _; apply: eq_bigr => i _; apply: eq_bigr => j _; rewrite !meanE.
Qed.
Print Assumptions C31_value.
Example C31_nonvacuous : [:: (fun=> 1%:M : 'M[R]_3) : 'I_2 -> 'M[R]_3; fun=> const_mx 1] <> [::].
Proof. by []. Qed.

(** C61 *)
Theorem C61_upper_bound : forall n T (ps : seq ('I_T -> 'M[R]_n)), (1 < n)%N -> (0 < T)%N -> ps <> [::] ->
  exists r u, [/\ global_instability ps = Val (Fin r), upper_bound ps = Val (Fin u), 2%:R * r <= u & u <= 1].
Proof. exact upper_bound_ge. Qed.
Print Assumptions C61_upper_bound.
Theorem C61_order : forall n T (ps ps' : seq ('I_T -> 'M[R]_n)), Permutation ps ps' ->
  upper_bound ps = upper_bound ps'.
Proof. by move=> n T ps ps' /instability_perm[]. Qed.
Print Assumptions C61_order.

(** C32: what is selected. [m] is the recorded instability: its entry 0 is the first raw value and
    its entry i > 0 is the largest of the raw values strictly before i. *)
Definition lagged_max (raw m : seq R) : Prop :=
  [/\ size m = size raw, nth 0 m 0 = nth 0 raw 0,
      forall i, (0 < i < size raw)%N -> forall j, (j < i)%N -> nth 0 raw j <= nth 0 m i &
      forall i, (0 < i < size raw)%N -> exists2 j, (j < i)%N & nth 0 m i = nth 0 raw j].
Lemma monotonize_lagged raw : raw <> [::] -> lagged_max raw (monotonize raw).
Proof.
move=> r0; split; first exact: size_monotonize; first by rewrite monotonize0 nth0.
- by move=> i /monotonize_max[].
- by move=> i /monotonize_max[].
Qed.
Lemma lagged_uniq raw m : raw <> [::] -> lagged_max raw m -> m = monotonize raw.
Proof.
move=> r0 [s e0 h1 h2]; have [s' e0' h1' h2'] := monotonize_lagged r0.
apply: (@eq_from_nth _ 0); rewrite s ?s' // => -[|i] hi; first by rewrite e0 e0'.
have hi' : (0 < i.+1 < size raw)%N by [].
apply/le_anti/andP; split.
  by have [j hj ->] := h2 _ hi'; apply: h1'.
by have [j hj ->] := h2' _ hi'; apply: h1.
Qed.
Theorem C32_selected : forall raw m, raw <> [::] -> lagged_max raw m -> nth 0 raw 0 <= 1 / 20%:R ->
  let k := (stars_select raw).1 in
  [/\ (k < size raw)%N, nth 0 m k <= 1 / 20%:R,
      forall j, (j < size raw)%N -> nth 0 m j <= 1 / 20%:R -> nth 0 m j <= nth 0 m k,
      forall j, (j < k)%N -> nth 0 m j < nth 0 m k
    & (stars_select raw).2 = Fin (nth 0 m k)].
Proof.
by move=> raw m r0 /(lagged_uniq r0) -> h0; apply: stars_low => //; rewrite -nth0.
Qed.
Print Assumptions C32_selected.
Theorem C32_none_stable : forall raw, raw <> [::] -> 1 / 20%:R < nth 0 raw 0 ->
  (stars_select raw).1 = 0%N /\ (stars_select raw).2 = NInf.
Proof. by move=> raw r0 h; apply: stars_high => //; rewrite -nth0. Qed.
Print Assumptions C32_none_stable.
(** the documented rule is missed: the first unstable candidate is selected *)
Theorem C32_last_stable_refuted : forall raw K,
  (forall i j, (i < j < size raw)%N -> nth 0 raw i < nth 0 raw j) ->
  (0 < K)%N -> (K.+1 < size raw)%N -> nth 0 raw K <= 1 / 20%:R < nth 0 raw K.+1 ->
  (stars_select raw).1 = K.+1.
Proof. exact stars_late. Qed.
Print Assumptions C32_last_stable_refuted.
Theorem C32_last_ignored : forall raw x y, raw <> [::] ->
  stars_select (rcons raw x) = stars_select (rcons raw y).
Proof. by move=> raw x y; exact: stars_blind. Qed.
Print Assumptions C32_last_ignored.
Definition ex_raw : seq R := [:: 0; 1 / 50%:R; 1 / 2%:R].
Example C32_nonvacuous : [/\ ex_raw <> [::], exists m, lagged_max ex_raw m, nth 0 ex_raw 0 <= 1 / 20%:R,
  forall i j, (i < j < size ex_raw)%N -> nth 0 ex_raw i < nth 0 ex_raw j
  & nth 0 ex_raw 1 <= 1 / 20%:R < nth 0 ex_raw 2].
Proof.
split=> //; first by exists (monotonize ex_raw); apply: monotonize_lagged.
- by rewrite /=; mclra.
- by move=> i j /andP[]; case: j => [|[|[|j]]] //; case: i => [|[|[|i]]] //= _ _; mclra.
- by apply/andP; split; rewrite /=; mclra.
Qed.

(** C60: G-StARS selects inside its window, with the smallest graphlet instability *)
Definition last_below (m : seq R) (k : nat) : Prop :=
  [/\ (k < size m)%N, nth 0 m k <= 1 / 20%:R & forall i, (k < i < size m)%N -> 1 / 20%:R < nth 0 m i].
Lemma last_below_where m k : last_below m k -> last_where (fun x => x <= 1 / 20%:R) m = Some k.
Proof.
case=> h1 h2 h3; have := last_whereP (fun x => x <= 1 / 20%:R) m.
case: (last_where _ m) => [k' [g1 g2 g3]|h]; last by have := h k h1; rewrite h2.
congr Some; case: (ltngtP k' k) => // e.
  by have := g3 k; rewrite e h1 h2 => /(_ isT).
by have := h3 k'; rewrite e g1 ltNge g2 => /(_ isT).
Qed.
Lemma gstars_selected g raw ubs mr mu lb ub : raw <> [::] -> ubs <> [::] ->
  lagged_max raw mr -> lagged_max ubs mu -> last_below mr lb -> last_below mu ub ->
  size g = size raw -> (ub <= lb)%N ->
  let k := gstars_select g raw ubs in
  (ub <= k <= lb)%N /\
  forall j, (ub <= j <= lb)%N -> nth 0 g k <= nth 0 g j /\ ((j < k)%N -> nth 0 g k < nth 0 g j).
Proof.
move=> r0 u0 /(lagged_uniq r0) -> /(lagged_uniq u0) -> h1 h2 sg le.
have eb : gstars_bounds raw ubs = (lb, ub).
  by rewrite /gstars_bounds (last_below_where h1) (last_below_where h2).
have s1 : (lb < size g)%N by case: h1; rewrite size_monotonize // sg.
have := @gstars_window g raw ubs lb s1; rewrite eb /= leqnn le => /(_ isT)[k1 k2 k3]; split=> // j hj.
by apply: k3 => //; apply: leq_ltn_trans s1; case/andP: hj.
Qed.
Theorem C60_window : forall g raw ubs mr mu lb ub, raw <> [::] -> ubs <> [::] ->
  lagged_max raw mr -> lagged_max ubs mu -> last_below mr lb -> last_below mu ub ->
  size g = size raw -> (ub <= lb)%N ->
  let k := gstars_select g raw ubs in
  (ub <= k <= lb)%N /\
  forall j, (ub <= j <= lb)%N -> nth 0 g k <= nth 0 g j /\ ((j < k)%N -> nth 0 g k < nth 0 g j).
Proof. exact gstars_selected. Qed.
Print Assumptions C60_window.
(** the window is well formed because the upper bounds dominate the instabilities (C61) *)
Theorem C60_ordered : forall raw ubs mr mu lb ub, raw <> [::] -> size ubs = size raw ->
  (forall j, (j < size raw)%N -> nth 0 raw j <= nth 0 ubs j) ->
  lagged_max raw mr -> lagged_max ubs mu -> last_below mr lb -> last_below mu ub -> (ub <= lb)%N.
Proof.
move=> raw ubs mr mu lb ub r0 sz dom hr hu h1 h2.
have u0 : ubs <> [::] by move=> h; move: sz; rewrite h; case: (raw) r0.
move: hr hu h1 h2 => /(lagged_uniq r0) -> /(lagged_uniq u0) -> h1 h2.
have := gstars_order r0 sz dom.
by rewrite /gstars_bounds (last_below_where h1) (last_below_where h2).
Qed.
Print Assumptions C60_ordered.
Example C60_nonvacuous : let raw : seq R := [:: 0; 1 / 50%:R; 1 / 2%:R] in
  let ubs : seq R := [:: 0; 1 / 10%:R; 1] in
  [/\ lagged_max raw [:: 0; 0; 1 / 50%:R], lagged_max ubs [:: 0; 0; 1 / 10%:R],
      last_below [:: 0; 0; 1 / 50%:R] 2 & last_below [:: 0; 0; 1 / 10%:R] 1].
Proof.
move=> raw ubs; split; split=> //=.
- by move=> [|[|[|i]]] //= _ [|[|j]] //= _; mclra.
- by move=> [|[|[|i]]] //= _; [exists 0%N | exists 1%N].
- by move=> [|[|[|i]]] //= _ [|[|j]] //= _; mclra.
- by move=> [|[|[|i]]] //= _; [exists 0%N | exists 1%N].
- by mclra.
- by move=> [|[|[|i]]].
- by mclra.
- by move=> [|[|[|i]]] //= _; mclra.
Qed.

(** C33 *)
Theorem C33_one_grid : forall g : pydict (seq R), uniq [seq nv.1 | nv <- g] ->
  exists g', [/\ check_param_order (OneGrid g) = g', [seq nv.1 | nv <- g'] = [seq nv.1 | nv <- g]
    & forall i, (i < size g)%N ->
        perm_eq (nth (""%string, [::]) g' i).2 (nth (""%string, [::]) g i).2 /\
        sorted (fun x y : R => x >= y) (nth (""%string, [::]) g' i).2].
Proof.
move=> g u; exists [seq (nv.1, sort_desc nv.2) | nv <- g]; split.
- exact: param_order_one.
- by rewrite -map_comp.
- by move=> i hi; rewrite (nth_map (""%string, [::])) //=; split; [exact: sort_desc_perm | exact: sort_desc_sorted].
Qed.
Print Assumptions C33_one_grid.
(** a list of grids: only the last grid's values survive for a shared name *)
Theorem C33_merged_refuted : forall (g1 g2 : pydict (seq R)) k v1 v2,
  uniq [seq nv.1 | nv <- g1] -> uniq [seq nv.1 | nv <- g2] ->
  (k, v1) \in g1 -> (k, v2) \in g2 ->
  forall v, (k, v) \in check_param_order (Grids [:: g1; g2]) -> v = sort_desc v2.
Proof. exact merged_last. Qed.
Print Assumptions C33_merged_refuted.
Example C33_nonvacuous : uniq [seq nv.1 | nv <- [:: ("alpha"%string, [:: (1 : R); 2%:R]); ("tau"%string, [::])]].
Proof. by []. Qed.

(** C39. [coef nb i j]: coefficient of node j in the regression of node i. *)
Theorem C39_shape : forall n (nb : 'I_n -> 'rV[R]_n.-1) h,
  [/\ (build_adjacency_matrix nb h)^T = build_adjacency_matrix nb h
    & forall i, build_adjacency_matrix nb h i i = 1].
Proof. exact adj_shape. Qed.
Print Assumptions C39_shape.
Theorem C39_intersection : forall n (nb : 'I_n -> 'rV[R]_n.-1) (i j : 'I_n), i != j ->
  (coef nb i j != 0 -> coef nb j i != 0 ->
     build_adjacency_matrix nb Intersection i j = (coef nb i j + coef nb j i) / 2%:R) /\
  (coef nb i j = 0 \/ coef nb j i = 0 -> build_adjacency_matrix nb Intersection i j = 0).
Proof.
move=> n nb i j ij; rewrite interE (negbTE ij); split=> [-> -> //|[] ->]; by rewrite eqxx ?andbF.
Qed.
Print Assumptions C39_intersection.
Theorem C39_union_value : forall n (nb : 'I_n -> 'rV[R]_n.-1) (i j : 'I_n), (i < j)%N ->
  build_adjacency_matrix nb Union i j = coef nb j i / 2%:R + coef nb i j / 4%:R /\
  build_adjacency_matrix nb Union j i = coef nb j i / 2%:R + coef nb i j / 4%:R.
Proof. exact unionE. Qed.
Print Assumptions C39_union_value.
(** an edge is lost although both regressions found it *)
Theorem C39_union_support_refuted : forall n (nb : 'I_n -> 'rV[R]_n.-1) (i j : 'I_n), (i < j)%N ->
  coef nb i j = - (2%:R * coef nb j i) -> build_adjacency_matrix nb Union i j = 0.
Proof. by move=> n nb i j ij e; have [-> _] := unionE nb ij; rewrite e; toR; lra. Qed.
Print Assumptions C39_union_support_refuted.
(** equal coefficients w do not give weight w *)
Theorem C39_union_average_refuted : forall n (nb : 'I_n -> 'rV[R]_n.-1) (i j : 'I_n) w, (i < j)%N ->
  coef nb i j = w -> coef nb j i = w -> build_adjacency_matrix nb Union i j = 3%:R / 4%:R * w.
Proof. by move=> n nb i j w ij e1 e2; have [-> _] := unionE nb ij; rewrite e1 e2; toR; lra. Qed.
Print Assumptions C39_union_average_refuted.
(** coefficients of one sign: the union support is right *)
Theorem C39_union_same_sign : forall n (nb : 'I_n -> 'rV[R]_n.-1) (i j : 'I_n), (i < j)%N ->
  0 <= coef nb i j * coef nb j i ->
  (build_adjacency_matrix nb Union i j != 0) = (coef nb i j != 0) || (coef nb j i != 0).
Proof.
move=> n nb i j ij; have [-> _] := unionE nb ij; move: (coef nb i j) (coef nb j i) => a b ab.
rewrite -negb_and; congr (~~ _); apply/eqP/andP => [e|[/eqP -> /eqP ->]]; last by rewrite !mul0r addr0.
have : b = - (a / 2%:R) by move: e; toR; lra.
move=> eb; move: ab; rewrite eb mulrN oppr_ge0 mulrA -expr2 => h.
have : a ^+ 2 <= 0 by move: h; rewrite pmulr_lle0 // invr_gt0 ltr0n.
rewrite le_eqVlt ltNge sqr_ge0 orbF sqrf_eq0 => /eqP ->; by rewrite mul0r oppr0 eqxx.
Qed.
Print Assumptions C39_union_same_sign.
Definition ex_nb (i : 'I_2) : 'rV[R]_1 := const_mx (if i == 0 then - 2%:R else 1).
Example C39_nonvacuous : coef ex_nb 0 (lift ord0 ord0) = - (2%:R * coef ex_nb (lift ord0 ord0) 0) /\
  coef ex_nb 0 (lift ord0 ord0) != 0.
Proof.
rewrite /coef; case: (unliftP (0 : 'I_2) (lift ord0 ord0)) => [k _|/eqP //].
case: (unliftP (lift ord0 ord0 : 'I_2) 0) => [k' _|/eqP //].
by rewrite !mxE eqxx /= mulr1 oppr_eq0 pnatr_eq0.
Qed.
