(** C178: the curves of the circular plot (regain/plotting/plotly.py:43-110). *)
From Coq Require Import Reals Lra.
From mathcomp Require Import all_ssreflect all_algebra.
From Verif Require Import RStruct RTac LinTac M_Utils M_Bezier P_Bezier.
Import Order.TTheory GRing.Theory Num.Theory.

Set Implicit Arguments.
Unset Strict Implicit.
Unset Printing Implicit Defensive.
Local Open Scope ring_scope.

(** the Bezier curve of the control points b at t *)
Definition bezier_curve n (b : seq 'rV[R]_n) (t : R) : 'rV[R]_n :=
  \sum_(i < size b) ('C((size b).-1, i)%:R * t ^+ i * (1 - t) ^+ ((size b).-1 - i)) *: nth 0 b i.

(** For any number of control points, in any dimension and for any t the algorithm returns the point of the curve; fewer than two
    points raise ValueError. *)
Theorem C178_curve n (b : seq 'rV[R]_n) (t : R) :
  ((size b < 2)%N -> deCasteljau b t = Raise ValueError) /\ ((1 < size b)%N -> deCasteljau b t = Val (bezier_curve b t)).
Proof.
split=> [h|h]; first by rewrite /deCasteljau h.
rewrite casteljauE // /bezier_curve /bezier; congr Val; case: (size b) h => // m _; by [].
Qed.
Print Assumptions C178_curve.
(** For t in [0, 1] every coordinate is between the smallest and the largest of the control points. *)
Theorem C178_box n (b : seq 'rV[R]_n) (t : R) j lo hi x : 0 <= t <= 1 -> (forall i, (i < size b)%N -> lo <= nth 0 b i 0 j <= hi) ->
  deCasteljau b t = Val x -> lo <= x 0 j <= hi.
Proof.
move=> /andP [t0 t1] h; case: (ltnP 1 (size b)) => b2; last by rewrite /deCasteljau ltnS b2.
rewrite casteljauE // => -[<-]; apply: bezier_box => // i ib; apply: h; move: ib; by case: (size b) b2.
Qed.
Print Assumptions C178_box.
(** _BezierCv: nr points, from the first control point to the last one. *)
Theorem C178_ends n (b : seq 'rV[R]_n) nr : (1 < size b)%N -> (1 < nr)%N -> exists pts, [/\ BezierCv b nr = Val pts, size pts = nr,
  nth 0 pts 0 = nth 0 b 0 & nth 0 pts nr.-1 = nth 0 b (size b).-1].
Proof.
move=> b2 n2; rewrite BezierE //; eexists; split; first reflexivity.
- by rewrite size_map size_iota.
- by rewrite (nth_map 0%N) ?size_iota ?(ltnW n2) // nth_iota ?(ltnW n2) // linspace0 bezier_start.
have lt : (nr.-1 < nr)%N by rewrite prednK // ltnW.
by rewrite (nth_map 0%N) ?size_iota // nth_iota // add0n linspace1 // bezier_end.
Qed.
Print Assumptions C178_ends.
(** An edge drawn from the other end is the same curve, in the opposite direction. *)
Theorem C178_reverse n (b : seq 'rV[R]_n) nr pts : (1 < size b)%N -> (1 < nr)%N -> BezierCv b nr = Val pts -> BezierCv (rev b) nr = Val (rev pts).
Proof.
move=> b2 n2; rewrite !BezierE ?size_rev // => -[<-]; congr Val.
apply: (@eq_from_nth _ 0); rewrite ?size_rev !size_map !size_iota // => k kn.
have lt : (nr - k.+1 < nr)%N by rewrite ltn_subrL /= (leq_trans _ n2).
rewrite nth_rev ?size_map ?size_iota // !(nth_map 0%N) ?size_iota // !nth_iota // !add0n.
have -> : (nr - k.+1 = nr.-1 - k)%N by rewrite subnS -subn1 subnAC subn1.
rewrite linspace_rev // -bezier_rev; apply: bezier_eq => i ir; rewrite nth_rev; last by case: (size b) b2 ir.
by congr nth; case: (size b) b2 => // m _; rewrite subSS.
Qed.
Print Assumptions C178_reverse.

(** _get_idx_interv: for a distance greater than the first bound, the index K of the interval (D_K, D_(K+1)], or the last interval
    beyond the last bound; -1 if the distance is not greater than the first bound. *)
Theorem C178_interval (d : R) (D : seq R) : (1 < size D)%N ->
  (d <= nth 0 D 0 -> get_idx_interv d D = -1) /\
  (nth 0 D 0 < d -> exists K : nat, [/\ get_idx_interv d D = K%:Z, (K.+1 < size D)%N, nth 0 D K < d & d <= nth 0 D K.+1 \/ K.+2 = size D]).
Proof.
move=> D2; have [] := @idx_loopP d D (size D) 0; rewrite ?addn0 // ?(ltnW D2) // => m1 m2 m3.
rewrite /get_idx_interv; split=> h.
  suff -> : idx_loop d D (size D) 0 = 0%N by [].
  by case: (size D) => //= f; rewrite ltNge h andbF.
move: m1 m2 m3; case: (idx_loop _ _ _ _) => [|K] m1 m2 m3.
  by case: m3 => [|e]; [rewrite leNgt h | rewrite -e in D2].
by exists K; split=> //; [rewrite -[K.+1]addn1 PoszD addrK | exact: m2].
Qed.
Print Assumptions C178_interval.
(** the bounds used by lines_chord are increasing, and they are 0, sqrt(2 - sqrt 2), sqrt 2, sqrt(2 + sqrt 2), 2 *)
Theorem C178_bounds : sorted <%R chord_Dist /\ chord_Dist = [:: 0; sqrt (2%:R - sqrt 2%:R); sqrt 2%:R; sqrt (2%:R + sqrt 2%:R); 2%:R].
Proof.
have s2 : sqrt 2%:R * sqrt 2%:R = 2%:R :> R by apply: sqrt_sqrt; toR; lra.
have s0 : 0 < sqrt 2%:R :> R by apply/RltP; apply: sqrt_lt_R0; toR; lra.
have s1 : 1 < sqrt 2%:R :> R by move: (sqrt _) s2 s0 => x h1 h2; mcnra.
have s3 : sqrt 2%:R < 2%:R :> R by move: (sqrt _) s2 s0 => x h1 h2; mcnra.
have e : chord_Dist = [:: 0; sqrt (2%:R - sqrt 2%:R); sqrt 2%:R; sqrt (2%:R + sqrt 2%:R); 2%:R].
  rewrite /chord_Dist /dist /=; congr [:: _; sqrt _; _; sqrt _; _]; move: (sqrt 2%:R) s2 => x h; rewrite !expr2; mclra.
split=> //; rewrite e /= andbT; apply/and4P; split.
- by apply/RltP; apply: sqrt_lt_R0; apply/RltP; rewrite subr_gt0.
- by apply/RltP; apply: sqrt_lt_1; move: (sqrt _) s1 s3 => x h1 h2; toR; lra.
- by apply/RltP; apply: sqrt_lt_1; move: (sqrt _) s1 s3 => x h1 h2; toR; lra.
have e4 : sqrt (2%:R * 2%:R) = 2%:R :> R by apply: sqrt_square; toR; lra.
rewrite -[X in _ < X]e4; apply/RltP; apply: sqrt_lt_1; move: (sqrt 2%:R) s1 s3 => x h1 h2; toR; lra.
Qed.
Print Assumptions C178_bounds.

(** Every edge is drawn: five points from the position of one node to the position of the other one, whatever the positions. *)
Theorem C178_edge A B : exists pts, [/\ chord_points A B = Val pts, size pts = 5%N, nth 0 pts 0 = row_of A & nth 0 pts 4 = row_of B].
Proof.
by rewrite /chord_points; set b := [:: _; _; _; _]; have [] := @C178_ends 2 b 5 isT isT => pts [p1 p2 p3 p4]; exists pts.
Qed.
Print Assumptions C178_edge.
(** The direction in which the graph stores the edge does not change the curve. *)
Theorem C178_direction A B pts : chord_points A B = Val pts -> chord_points B A = Val (rev pts).
Proof.
have dC : dist B A = dist A B by rewrite /dist -[B.1 - _]opprB -[B.2 - _]opprB !sqrrN.
rewrite /chord_points dC; set p := py_index _ _ => h.
have -> : [:: row_of B; p^-1 *: row_of B; p^-1 *: row_of A; row_of A] = rev [:: row_of A; p^-1 *: row_of A; p^-1 *: row_of B; row_of B] by [].
exact: C178_reverse.
Qed.
Print Assumptions C178_direction.
(** Between two positions of the unit circle, not both the same, the divisor grows with the distance: farther nodes get the
    greater divisor. *)
Definition divisor (A B : R * R) : R := py_index chord_params (get_idx_interv (dist A B) chord_Dist).
Theorem C178_monotone A B A' B' : 0 < dist A B -> dist A B <= dist A' B' -> divisor A B <= divisor A' B'.
Proof.
rewrite /divisor; move: (dist A B) (dist A' B') => d d' d0 dd.
have d0' := lt_le_trans d0 dd.
have [sd cE] := C178_bounds; have sz : size chord_Dist = 5%N by [].
have D0 : nth 0 chord_Dist 0 = 0 by [].
have [_ /(_ _)] := @C178_interval d chord_Dist isT; rewrite D0 => /(_ d0) [K [-> k1 k2 k3]].
have [_ /(_ _)] := @C178_interval d' chord_Dist isT; rewrite D0 => /(_ d0') [L [-> l1' l2 l3]].
have mono : {in [pred n | (n < 5)%N] &, {homo nth 0 chord_Dist : i j / (i < j)%N >-> i < j}}.
  by move=> i j _ jn ij; apply: (sorted_ltn_nth lt_trans 0 sd) => //; rewrite inE ?(ltn_trans ij).
have KL : (K <= L)%N.
  rewrite leqNgt; apply/negP => LK; case: l3 => [l3|l3]; last first.
    by rewrite -l3 in k1; have := leq_trans LK k1; rewrite ltnn.
  have h : nth 0 chord_Dist L.+1 <= nth 0 chord_Dist K.
    move: LK; rewrite leq_eqVlt => /orP [/eqP -> //|LK]; apply: ltW; apply: mono => //; rewrite inE; apply: ltn_trans k1 => //.
  have := lt_le_trans k2 (le_trans dd l3); by rewrite ltNge h.
rewrite sz in l1' k1.
have pm : forall i j, (i <= j)%N -> (j < 4)%N -> nth 0 chord_params i <= nth 0 chord_params j.
  by move=> [|[|[|[|i]]]] [|[|[|[|j]]]] //= _ _; rewrite /=; toR; lra.
exact: pm.
Qed.
Print Assumptions C178_monotone.
(** Refuted for nodes in the same position: the index -1 gives them the divisor of the farthest nodes, greater than the one of
    nodes next to each other. *)
Theorem C178_coincident_refuted : (forall A, divisor A A = 21%:R / 10%:R) /\
  ~ (forall A B A' B', dist A B <= dist A' B' -> divisor A B <= divisor A' B').
Proof.
have c A : divisor A A = 21%:R / 10%:R.
  have d0 : dist A A = 0 by rewrite /dist !subrr expr0n /= addr0 sqrt_0.
  by rewrite /divisor d0; have [-> //] := @C178_interval 0 chord_Dist isT.
split=> // h.
have dE : dist (0, 0) (1 / 2%:R, 0) = 1 / 2%:R.
  rewrite /dist /= !subr0 sub0r sqrrN expr0n /= addr0 expr2; apply: sqrt_square; toR; lra.
have [_ cE] := C178_bounds.
have s1 : 1 / 2%:R < nth 0 chord_Dist 1.
  rewrite cE /=.
  have s2 : sqrt 2%:R * sqrt 2%:R = 2%:R :> R by apply: sqrt_sqrt; toR; lra.
  have s0 : 0 < sqrt 2%:R :> R by apply/RltP; apply: sqrt_lt_R0; toR; lra.
  have s3 : sqrt 2%:R < 3%:R / 2%:R :> R by move: (sqrt _) s2 s0 => x h1 h2; mcnra.
  have q4 : sqrt (1 / 2%:R * (1 / 2%:R)) = 1 / 2%:R :> R by apply: sqrt_square; toR; lra.
  by rewrite -[X in X < _]q4; apply/RltP; apply: sqrt_lt_1; move: (sqrt 2%:R) s3 => x h1; toR; lra.
have := h (0, 0) (0, 0) (0, 0) (1 / 2%:R, 0); rewrite c dE {1}/dist /= !subrr expr0n /= addr0 sqrt_0 /divisor dE.
have [_ ] := @C178_interval (1 / 2%:R) chord_Dist isT.
have g : nth 0 chord_Dist 0 < 1 / 2%:R by rewrite cE /=; toR; lra.
move=> /(_ g) [[|K] [-> k1 k2 k3]] /=.
  move=> h'; have a : (0 : R) <= 1 / 2%:R by toR; lra.
  by move: (h' a); rewrite leNgt => /negP []; toR; lra.
exfalso; have [sd _] := C178_bounds.
have : nth 0 chord_Dist 1 <= nth 0 chord_Dist K.+1.
  case: K k1 {k2 k3} => [|K] k1; first exact: lexx.
  by apply: ltW; apply: (sorted_ltn_nth lt_trans 0 sd); rewrite ?inE // ltnW.
by move=> h2; move: (le_lt_trans h2 (lt_trans k2 s1)); rewrite ltxx.
Qed.
Print Assumptions C178_coincident_refuted.

(** Witness: the middle of the curve of three points of the plane. *)
Example C178_case : deCasteljau [:: row_of (0, 0); row_of (1, 1); row_of (1, 0)] (1 / 2%:R) = Val (row_of (3%:R / 4%:R, 1 / 2%:R)).
Proof.
rewrite (proj2 (C178_curve _ _)) //; congr Val; rewrite /bezier_curve /= !big_ord_recl big_ord0 /=.
apply/rowP => j; rewrite !mxE /= !(binS, bin0, bin1) /bump /=; case: ifP => _ /=; rewrite ?expr1 ?expr0 ?expr2; toR; field_simplify; lra.
Qed.
