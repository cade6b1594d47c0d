(** C173-C175: probabilities of an edge and data_Meinshausen_Yuan_sparse_latent (regain/datasets/gaussian.py:42-66, 141-248). *)
From Coq Require Import Reals String Lra Epsilon.
From mathcomp Require Import all_ssreflect all_algebra.
From Verif Require Import RStruct RTac LinTac NP Str S_Mat RMx S_Utils M_Utils P_Utils2 M_Ising M_Gauss P_Gauss P_Gauss2 P_Gauss3.
From Verif Require Import M_MYLatent P_MYLatent P_MYLatent2 P_MYLatent3.
Import Order.TTheory GRing.Theory Num.Theory.

Set Implicit Arguments.
Unset Strict Implicit.
Unset Printing Implicit Defensive.
Local Open Scope ring_scope.

(** * C173: probabilities and moves *)

(** Without a mask, the entry of a pair is 2 phi(d sqrt(p)), d the distance of the two locations, if the threshold drawn for the
    ordered pair does not exceed it, and 0 otherwise; it is always in [0, 1). *)
Theorem C173_entry p (loc : 'I_p -> R * R) thresholds i j :
  let q := 2%:R * (Rtrigo_def.exp (- ((sqrt (((loc i).1 - (loc j).1) ^+ 2 + ((loc i).2 - (loc j).2) ^+ 2) * sqrt p%:R) ^+ 2) / 2%:R)
                   / sqrt (2%:R * PI)) in
  let P := compute_probabilities loc None thresholds in
  [/\ thresholds i j <= q -> P i j = q, q < thresholds i j -> P i j = 0, 0 < q < 1 & 0 <= P i j < 1].
Proof.
move=> q P; have q1 : 0 < q < 1.
  rewrite /q -/(norm_pdf _) mulr_gt0 ?ltr0n ?pdf_gt0 //=; apply: pdf_lt_half.
  by rewrite mulr_ge0 //; [apply/RleP; exact: sqrt_pos | exact: sqrtR_ge0].
have e : P i j = if q < thresholds i j then 0 else q by rewrite /P mxE.
split=> //.
- by rewrite leNgt => /negbTE t; rewrite e t.
- by move=> t; rewrite e t.
by rewrite e; case: ifP; rewrite ?lexx ?ltr01 //; case/andP: q1 => /ltW -> ->.
Qed.
Print Assumptions C173_entry.

(** With the same thresholds, a closer pair never gets a smaller entry unless its own threshold is larger; a masked pair (an
    edge of the previous time) never gets a smaller entry than without the mask. *)
Theorem C173_closer p (loc : 'I_p -> R * R) thresholds i j k l :
  location_dist (loc i) (loc j) <= location_dist (loc k) (loc l) -> thresholds i j <= thresholds k l ->
  compute_probabilities loc None thresholds k l <= compute_probabilities loc None thresholds i j.
Proof.
move=> d t; rewrite !mxE /=.
have le : 2%:R * norm_pdf (location_dist (loc k) (loc l) * sqrt p%:R) <= 2%:R * norm_pdf (location_dist (loc i) (loc j) * sqrt p%:R).
  rewrite ler_pmul2l ?ltr0n //; apply: pdf_le; first by rewrite mulr_ge0 ?dist_ge0 ?sqrtR_ge0.
  by rewrite ler_wpmul2r ?sqrtR_ge0.
have ge x : 0 <= 2%:R * norm_pdf x by rewrite mulr_ge0 ?ler0n // ltW ?pdf_gt0.
case: ifP => a; case: ifP => b //.
by have := lt_le_trans (le_lt_trans le b) t; rewrite a.
Qed.
Print Assumptions C173_closer.
Theorem C173_mask p (loc : 'I_p -> R * R) (mask : 'I_p -> 'I_p -> bool) thresholds i j :
  compute_probabilities loc None thresholds i j <= compute_probabilities loc (Some mask) thresholds i j /\
  (~~ mask i j -> compute_probabilities loc (Some mask) thresholds i j = compute_probabilities loc None thresholds i j).
Proof.
split; last by move=> m; rewrite !mxE (negbTE m).
rewrite !mxE /=; case: (mask i j) => //.
have le : 2%:R * norm_pdf (location_dist (loc i) (loc j) * sqrt p%:R) <= 2%:R * norm_pdf (location_dist (loc i) (loc j) / 10%:R * sqrt p%:R).
  rewrite ler_pmul2l ?ltr0n //; apply: pdf_le; first by rewrite !mulr_ge0 ?dist_ge0 ?sqrtR_ge0 ?invr_ge0 ?ler0n.
  rewrite ler_wpmul2r ?sqrtR_ge0 // ler_pdivr_mulr ?ltr0n //.
  by rewrite ler_pemulr ?dist_ge0 // ler1n.
have ge x : 0 <= 2%:R * norm_pdf x by rewrite mulr_ge0 ?ler0n // ltW ?pdf_gt0.
case: ifP => a; case: ifP => b //.
by have := le_lt_trans le b; rewrite a.
Qed.
Print Assumptions C173_mask.
(** A node is never less probable for itself than another one is (before thresholding). *)
Theorem C173_self p (loc : 'I_p -> R * R) mask i j :
  compute_probabilities loc mask (fun _ _ => 0) i j <= compute_probabilities loc mask (fun _ _ => 0) i i.
Proof.
have ge x : 0 <= 2%:R * norm_pdf x by rewrite mulr_ge0 ?ler0n // ltW ?pdf_gt0.
rewrite !mxE /= !ltNge !ge /= dist_self mul0r if_same mul0r ler_pmul2l ?ltr0n //; apply: pdf_le => //.
by case: ifP => _; rewrite !mulr_ge0 ?dist_ge0 ?sqrtR_ge0 ?invr_ge0 ?ler0n.
Qed.
Print Assumptions C173_self.
(** Refuted: the probabilities are not symmetric, because the two ordered pairs have separate thresholds. *)
Theorem C173_symmetric_refuted : exists (loc : 'I_2 -> R * R) (thresholds : 'I_2 -> 'I_2 -> R),
  (forall i j, 0 <= thresholds i j < 1) /\
  let P := compute_probabilities loc None thresholds in P 0 1 = 0 /\ 0 < P 1 0.
Proof.
pose loc (i : 'I_2) : R * R := if i == 0 then (0, 0) else (1, 1).
pose q : R := 2%:R * norm_pdf (location_dist (loc 0) (loc 1) * sqrt 2%:R).
have q0 : 0 < q by rewrite mulr_gt0 ?ltr0n ?pdf_gt0.
have q1 : q < 1 by apply: pdf_lt_half; rewrite mulr_ge0 ?dist_ge0 ?sqrtR_ge0.
exists loc, (fun i j => if i == 0 then (q + 1) / 2%:R else 0); split.
  move=> i j; case: ifP => _; last by rewrite lexx ltr01.
  have num (x : R) : 0 < x -> x < 1 -> 0 <= (x + 1) / 2%:R /\ (x + 1) / 2%:R < 1 by move=> h1 h2; split; mclra.
  by have [-> ->] := num q q0 q1.
split; rewrite mxE /=.
  rewrite -/q ifT //; have num (x : R) : x < 1 -> x < (x + 1) / 2%:R by move=> h; mclra.
  exact: num.
by rewrite dist_sym -/q; case: ifP => //; rewrite ltNge (ltW q0).
Qed.
Print Assumptions C173_symmetric_refuted.

(** The locations of the next time: as many, never negative; each coordinate of a location moves by at most 0.03. *)
Theorem C173_moves locations u : (forall k, -(3%:R / 100%:R) <= (u k).1 <= 3%:R / 100%:R /\ -(3%:R / 100%:R) <= (u k).2 <= 3%:R / 100%:R) ->
  let next := permute_locations locations u in
  size next = size locations /\
  forall k, (k < size locations)%N -> let a := nth (0, 0) locations k in let b := nth (0, 0) next k in
    [/\ 0 <= b.1 /\ 0 <= b.2, 0 <= a.1 -> `|b.1 - a.1| <= 3%:R / 100%:R & 0 <= a.2 -> `|b.2 - a.2| <= 3%:R / 100%:R].
Proof.
move=> hu next; have sz : size next = size locations by rewrite size_map size_iota.
split=> // k kk a b; have eb : b = permute_location a (u k).
  by rewrite /b /next (nth_map 0%N) ?size_iota // nth_iota.
have num (x y : R) : -(3%:R / 100%:R) <= y <= 3%:R / 100%:R -> 0 <= np_max (x + y) 0 /\ (0 <= x -> `|np_max (x + y) 0 - x| <= 3%:R / 100%:R).
  case/andP=> y1 y2; rewrite /np_max; case: ltP => h; split=> //.
  - by move=> x0; rewrite sub0r normrN ger0_norm //; mclra.
  by move=> x0; rewrite addrC addKr ler_norml y1 y2.
have [h1 h2] := hu k; have [n1 m1] := num a.1 _ h1; have [n2 m2] := num a.2 _ h2.
by rewrite eb.
Qed.
Print Assumptions C173_moves.
(** Refuted: they do not stay in the unit square. *)
Theorem C173_square_refuted : exists loc u, 0 <= loc.1 <= 1 /\ 0 <= loc.2 <= 1 /\ `|u.1| < 3%:R / 100%:R /\ `|u.2| < 3%:R / 100%:R /\
  1 < (permute_location loc u).1.
Proof.
exists (1, 1), (1 / 100%:R, 0) => /=; rewrite ler01 lexx normr0 /np_max; split=> //; split=> //.
have pos : 0 < 1 / 100%:R :> R by rewrite divr_gt0 ?ltr01 ?ltr0n.
rewrite gtr0_norm //; split; first by mclra.
split; first by mclra.
case: (ltP (1 + 1 / 100%:R) (0 : R)) => h; last by rewrite ltr_addl.
by move: h; rewrite ltNge addr_ge0 ?ler01 ?(ltW pos).
Qed.
Print Assumptions C173_square_refuted.
Example C173_case : 0 < compute_probabilities (fun i : 'I_2 => if i == 0 then (0, 0) else (1, 1)) None (fun _ _ => 0) 0 1.
Proof.
have pos x : 0 < 2%:R * norm_pdf x by rewrite mulr_gt0 ?ltr0n ?pdf_gt0.
by rewrite mxE /=; case: ifP; [rewrite ltNge ltW | ].
Qed.

(** * C174: the generator *)

(** With at least one latent variable and at least twenty observed variables for each, for all orders and shuffles drawn, no
    exception is raised. At every time theta has unit diagonal, entries 0 or 0.245 and at most four links per row; theta_H is
    symmetric with unit diagonal and positive definite; theta_obs = theta - C' theta_H^-1 C is positive definite; the joint
    precision matrix [theta_H C; C' theta] is positive definite; and sigma is the block of the observed variables in the inverse of
    the joint precision matrix: the samples are the observed part of the latent model. *)
Theorem C174_generator chol h p T (ix : 'I_h -> seq 'I_(h + p)) nzp pix psh lix lsh : (forall n, chol_ok (@chol n)) ->
  (0 < h)%N -> (20 * h <= p)%N -> (forall k t l, perm_eq (psh k t l) l) -> (forall i, size (ix i) = (h + p)%N) ->
  exists l C, [/\ data_my_latent chol T ix nzp pix psh lix lsh = LOk (l, C), size l = maxn 1 T &
    forall t, List.In t l ->
      [/\ [/\ (lt_theta t)^T = lt_theta t, forall i, lt_theta t i i = 1,
              forall i j, i != j -> lt_theta t i j = 0 \/ lt_theta t i j = 245%:R / 1000%:R &
              forall i, (#|[set j | (j != i) && (lt_theta t i j != 0%R)]| <= 4)%N],
          (forall i, lt_H t i i = 1) /\ pd (lt_H t),
          lt_obs t = lt_theta t - C^T *m invmx (lt_H t) *m C /\ pd (lt_obs t),
          pd (block_mx (lt_H t) C C^T (lt_theta t)) &
          lt_sigma t = drsubmx (invmx (block_mx (lt_H t) C C^T (lt_theta t)))]].
Proof.
move=> cok h0 hp sh six.
have [l [C [e sz g]]] := data_my_latent_ok (chol := chol) cok h0 hp T nzp pix lix lsh sh six.
exists l, C; split=> // t /g [st [[_ d _] dH] eo dO es]; have [s d1 v4 n4] := st.
have dS : pd (lt_theta t - C^T *m invmx (lt_H t) *m C) by rewrite -eo.
split=> //; first exact: joint_pd.
by rewrite joint_marginal // es eo.
Qed.
Print Assumptions C174_generator.
(** The links of the latent variables: each entry of theta_H off the diagonal and (at time 0) of C is 0 or 0.98 / ((p + h) / 2). *)
Theorem C174_values chol h p T (ix : 'I_h -> seq 'I_(h + p)) nzp pix psh lix lsh l C : (forall n, chol_ok (@chol n)) ->
  (0 < h)%N -> (20 * h <= p)%N -> (forall k t l, perm_eq (psh k t l) l) -> (forall i, size (ix i) = (h + p)%N) ->
  data_my_latent chol T ix nzp pix psh lix lsh = LOk (l, C) ->
  forall t, List.In t l -> forall i j, i != j -> lt_H t i j = 0 \/ lt_H t i j = 98%:R / 100%:R / ((p + h)%:R * (1 / 2%:R)).
Proof.
move=> cok h0 hp sh six e t tl i j ij.
have [l' [C' [e' _ g]]] := data_my_latent_ok (chol := chol) cok h0 hp T nzp pix lix lsh sh six.
move: e'; rewrite e => -[el _]; rewrite -el in g; have [_ [[_ _ v] _] _ _ _] := g t tl.
by have [->|->] := v i j ij; [left | right].
Qed.
Print Assumptions C174_values.
Example C174_case : (0 < 2)%N /\ (20 * 2 <= 198)%N /\ (forall (k : nat) (t : 'I_198) (l : seq 'I_198), perm_eq l l) /\
  (forall i : 'I_2, size (enum 'I_(2 + 198)) = (2 + 198)%N) /\ exists chol : chol_t, forall n, chol_ok (@chol n).
Proof.
split=> //; split=> //; split; first by move=> *; exact: perm_refl.
split; first by move=> i; exact: size_enum_ord.
exists (fun n A => Epsilon.epsilon (inhabits false) (fun b : bool => b <-> pd A)) => n A _.
apply: (Epsilon.epsilon_spec (inhabits false) (fun b : bool => b <-> pd A)).
by case: (Classical_Prop.classic (pd A)) => h; [exists true | exists false].
Qed.

(** * C175: what goes wrong *)

(** Refuted: "a latent variable is linked with the observed variables it is most probably linked with". One latent variable, any
    number p >= 1 of observed variables; the latent variable is node p of the p + 1 nodes. If only one probability of the latent
    variable is not zero, say with node j, then the only link is with variable j - 1, not j: if j = 0 there is none at all, and if
    j = p, the latent variable itself, there is a link with the last observed variable. *)
Theorem C175_shift_refuted p (ix : 'I_1 -> seq 'I_(1 + p)) nzp j l : (0 < p)%N -> ix 0 = j :: l -> nzp 0 = 1%N ->
  exists A, lat_start ix nzp = LOk A /\ let C := rsubmx (unit_diag A) in
  [/\ forall k : 'I_p, (C 0 k != 0) = (k.+1 == j :> nat), (j = 0%N :> nat) -> C = 0 &
      (j = p :> nat) -> forall k : 'I_p, (C 0 k != 0) = (k == p.-1 :> nat)].
Proof.
move=> p0 e n1; have [A [eA h]] := start_one p0 e n1; exists A; split=> // C.
have c := connect_one h; have v0 : lat_value 1 p != 0 by rewrite gt_eqF // value_gt0.
have main (k : 'I_p) : (C 0 k != 0) = (k.+1 == j :> nat).
  rewrite /C c -(inj_eq val_inj) /= add1n; case: ifP => _; [exact: v0 | by rewrite eqxx].
split=> [//|j0|jp k].
  apply/matrixP => i k; rewrite (ord1 i) [RHS]mxE; apply/eqP; rewrite -[_ == _]negbK main j0 //.
by rewrite main jp; case: (p) p0 k => // p' _ k; rewrite eqSS.
Qed.
Print Assumptions C175_shift_refuted.
(** Refuted: "the generator works for every p and h". With two observed variables and one latent variable it always raises TypeError
    (the slice edges[:-to_put] with to_put = 1.5). *)
Theorem C175_small_refuted chol T (ix : 'I_1 -> seq 'I_(1 + 2)) nzp pix psh lix lsh : (forall n, chol_ok (@chol n)) ->
  (forall k t l, perm_eq (psh k t l) l) -> (forall i, size (ix i) = 3%N) -> (forall k i, perm_eq (pix k i) (enum 'I_2)) ->
  data_my_latent chol T ix nzp pix psh lix lsh = LRaise LTypeError.
Proof. exact: two_type_error. Qed.
Print Assumptions C175_small_refuted.
Example C175_case : exists (ix : 'I_1 -> seq 'I_(1 + 2)) (j : 'I_(1 + 2)) l, ix 0 = j :: l /\ j = 0%N :> nat /\ forall i, size (ix i) = 3%N.
Proof.
exists (fun=> [:: ord0; ord_max; ord_max]), ord0, [:: ord_max; ord_max]; by [].
Qed.
