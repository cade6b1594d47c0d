(** StARS off-by-one, G-StARS window, adjacency of neighbourhood regressions. *)
From Coq Require Import Reals String Lra.
From mathcomp Require Import all_ssreflect all_algebra.
From Verif Require Import RStruct RTac NP Str M_Utils M_Stab S_Utils P_Stab P_Stab2.
Import Order.TTheory GRing.Theory Num.Theory.

Set Implicit Arguments.
Unset Strict Implicit.
Unset Printing Implicit Defensive.
Local Open Scope ring_scope.

Lemma incr_mono raw : (forall i j, (i < j < size raw)%N -> nth 0 raw i < nth 0 raw j) ->
  forall i, (0 < i < size raw)%N -> nth 0 (monotonize raw) i = nth 0 raw i.-1.
Proof.
move=> inc i hi; have [h1 [j hj e]] := monotonize_max hi.
case/andP: hi => i0 hi; apply/le_anti/andP; split; last by apply: h1; rewrite prednK.
rewrite e; case: (ltngtP j i.-1) => [h|h|-> //].
  by apply/ltW/inc; rewrite h /= (leq_ltn_trans (leq_pred i)).
by move: h; rewrite -[i]prednK //= in hj *; rewrite ltnNge -ltnS hj.
Qed.

Lemma stars_late raw K : (forall i j, (i < j < size raw)%N -> nth 0 raw i < nth 0 raw j) ->
  (0 < K)%N -> (K.+1 < size raw)%N -> nth 0 raw K <= 1 / 20%:R < nth 0 raw K.+1 ->
  (stars_select raw).1 = K.+1.
Proof.
move=> inc K0 hK /andP[lo hi].
have mE := incr_mono inc.
have r0 : raw <> [::] by move=> h; rewrite h in hK.
have s0 : (0 < size raw)%N by apply: leq_ltn_trans hK.
have h0 : head 0 raw <= 1 / 20%:R.
  rewrite -nth0; apply: le_trans lo; apply/ltW/inc; rewrite K0 /=; exact: ltn_trans hK.
have [h1 h2 h3 h4 _] := stars_low r0 h0.
set k := (stars_select raw).1 in h1 h2 h3 h4 *.
have m1 : nth 0 (monotonize raw) K.+1 = nth 0 raw K by rewrite mE.
have h5 := h3 _ hK; rewrite m1 in h5; have h6 := h5 lo.
have kle : (k <= K.+1)%N.
  rewrite leqNgt; apply/negP => hk.
  have hk' : (0 < k < size raw)%N by rewrite h1 (leq_trans _ hk).
  move: h2; rewrite mE // leNgt => /negP; apply.
  apply: lt_le_trans hi _; rewrite le_eqVlt.
  case: (ltngtP K.+1 k.-1) => h.
  - by apply/orP; right; apply: inc; rewrite h (leq_ltn_trans (leq_pred k)).
  - by move: hk h; case: (k) => //= k' a; rewrite ltnNge -ltnS a.
  - by rewrite h eqxx.
apply/eqP; rewrite eqn_leq kle ltnNge /=; apply/negP => hk.
have : nth 0 raw K <= nth 0 raw k.-1.
  case E: k hk h6 => [|k'] hk h6.
    by rewrite /= in h6 *; rewrite nth0.
  by rewrite -E; rewrite -E mE // E /= -E in h6; rewrite h1.
have kl : (k.-1 < K)%N by case: (k) hk => //= k'.
rewrite leNgt => /negP; apply; apply: inc; rewrite kl; exact: ltn_trans hK.
Qed.

(** the last candidate's instability is never looked at *)
Lemma monotonize_rcons raw x y : raw <> [::] -> monotonize (rcons raw x) = monotonize (rcons raw y).
Proof.
case: raw => // a raw _; rewrite /monotonize !size_rcons; congr cons.
apply/eq_in_map => i; rewrite mem_iota add1n ltnS => /andP[_ hi].
by congr np_amax; case: i hi => //= i hi; congr cons; rewrite -!cats1 !takel_cat.
Qed.
Lemma stars_blind raw x y : raw <> [::] -> stars_select (rcons raw x) = stars_select (rcons raw y).
Proof. by move=> h; rewrite /stars_select (monotonize_rcons x y). Qed.

(** * G-StARS *)
Lemma last_whereP (P : pred R) l :
  match last_where P l with
  | None => forall i, (i < size l)%N -> ~~ P (nth 0 l i)
  | Some k => [/\ (k < size l)%N, P (nth 0 l k) & forall i, (k < i < size l)%N -> ~~ P (nth 0 l i)]
  end.
Proof.
rewrite /last_where; set w := [seq i <- _ | _].
have mw i : (i \in w) = P (nth 0 l i) && (i < size l)%N by rewrite mem_filter mem_iota.
have sw : sorted ltn w by apply: sorted_filter; [exact: ltn_trans | exact: iota_ltn_sorted].
case: eqP => [/size0nil e i hi|h].
  by apply/negP => hp; have := mw i; rewrite e hp hi.
have hl : last 0%N w \in w by case: (w) h => //= a w' _; rewrite mem_last.
have := hl; rewrite mw => /andP[h1 h2]; split=> // i /andP[h3 h4]; apply/negP => hp.
have hi : i \in w by rewrite mw hp h4.
suff : (i <= last 0%N w)%N by rewrite leqNgt h3.
have key (w' : seq nat) : forall (a : nat), path ltn a w' -> forall j, j \in a :: w' -> (j <= last a w')%N.
  elim: w' => [|d w' IH] a /=; first by move=> _ j; rewrite inE => /eqP ->.
  case/andP=> ab sw' j; rewrite inE => /orP[/eqP ->|]; last exact: IH.
  by apply: leq_trans (ltnW ab) _; apply: IH => //; rewrite mem_head.
by case: (w) sw hi => //= a w' sw'; apply: key.
Qed.
Section G.
Variables (g raw ubs : seq R).
Let lb := (gstars_bounds raw ubs).1.
Let ub := (gstars_bounds raw ubs).2.
Let k := gstars_select g raw ubs.
Let masked := [seq if ((i < ub) || (lb < i))%N then PInf else Fin (nth 0 g i) | i <- iota 0 (size g)].
Let mE j : (j < size g)%N -> nth NaN masked j = if ((j < ub) || (lb < j))%N then PInf else Fin (nth 0 g j).
Proof. by move=> h; rewrite (nth_map 0%N) ?size_iota // nth_iota. Qed.
Lemma gstars_window j0 : (j0 < size g)%N -> (ub <= j0 <= lb)%N ->
  [/\ (k < size g)%N, (ub <= k <= lb)%N &
      forall j, (j < size g)%N -> (ub <= j <= lb)%N ->
        nth 0 g k <= nth 0 g j /\ ((j < k)%N -> nth 0 g k < nth 0 g j)].
Proof.
move=> hj0 w0.
have sm : size masked = size g by rewrite size_map size_iota.
have m0 : masked <> [::] by move=> h; move: hj0; rewrite -sm h.
have nnm : all notnan masked.
  apply/(all_nthP NaN) => j; rewrite sm => h; rewrite mE //; by case: ifP.
have [h1 h2 h3] := argmin_rank nnm m0.
have kE : k = argmin (rank_min masked) by rewrite /k /gstars_select; case: (gstars_bounds _ _) @lb @ub @masked.
rewrite -kE sm in h1 h2 h3.
have win j : (ub <= j <= lb)%N -> ((j < ub) || (lb < j))%N = false.
  by rewrite !ltnNge => /andP[-> ->].
have wk : (ub <= k <= lb)%N.
  have := h2 j0 hj0; rewrite !mE // (win j0) //.
  by case: ifP => [|/negbT] //; rewrite negb_or -!leqNgt.
split=> // j hj wj; split.
  by have := h2 j hj; rewrite !mE // !win //= -leNgt.
by move=> hjk; have := h3 j hjk; rewrite !mE // !win.
Qed.
(** the window is non-empty when the upper bounds dominate the instabilities *)
Lemma gstars_order : raw <> [::] -> size ubs = size raw ->
  (forall j, (j < size raw)%N -> nth 0 raw j <= nth 0 ubs j) -> (ub <= lb)%N.
Proof.
move=> r0 sz dom; rewrite /ub /lb /gstars_bounds /=.
have u0 : ubs <> [::] by move=> h; move: sz; rewrite h; case: (raw) r0.
have md j : (j < size raw)%N -> nth 0 (monotonize raw) j <= nth 0 (monotonize ubs) j.
  case: j => [|j] hj.
    by rewrite !monotonize0 -!nth0; apply: dom.
  have hr : (0 < j.+1 < size raw)%N by [].
  have hu : (0 < j.+1 < size ubs)%N by rewrite sz.
  have [_ [a ha ->]] := monotonize_max hr; have [h _] := monotonize_max hu.
  by apply: le_trans (h a ha); apply: dom; apply: ltn_trans hj.
have := last_whereP (fun m => m <= 1 / 20%:R) (monotonize ubs).
case: (last_where _ (monotonize ubs)) => // b; rewrite size_monotonize // sz => -[h1 h2 _].
have h3 : nth 0 (monotonize raw) b <= 1 / 20%:R by apply: le_trans (md b h1) h2.
have := last_whereP (fun m => m <= 1 / 20%:R) (monotonize raw); rewrite size_monotonize //.
case: (last_where _ (monotonize raw)) => [l [h4 h5 h6]|h].
  by rewrite leqNgt; apply/negP => hb; have := h6 b; rewrite hb h1 h3 => /(_ isT).
by have := h b h1; rewrite h3.
Qed.
End G.

(** * build_adjacency_matrix *)
Section Adj.
Variables (n : nat) (nb : 'I_n -> 'rV[R]_n.-1).
Notation c := (coef nb).
Lemma set_rowE (out : 'M[R]_n) i a b : set_row out i (nb i) a b =
  if a == i then (if a == b then out a b else c i b) else out a b.
Proof.
rewrite mxE; case: eqP => // ->; rewrite /coef; case: eqP => [<-|/eqP h]; first by rewrite unlift_none.
by case: unliftP h => [k ->|->] //; rewrite eqxx.
Qed.
Lemma half_sumE (M : 'M[R]_n) a b : half_sum M a b = (M a b + M b a) / 2%:R.
Proof. by rewrite !mxE. Qed.
Lemma half_id (x : R) : (x + x) / 2%:R = x. Proof. by toR; lra. Qed.
Definition ustate k (a b : 'I_n) : R :=
  let lo : 'I_n := if (a < b)%N then a else b in let hi : 'I_n := if (a < b)%N then b else a in
  if a == b then 1 else if (k <= lo)%N then 0 else if (k <= hi)%N then c lo hi / 2%:R
  else c hi lo / 2%:R + c lo hi / 4%:R.
Lemma ustate_sym k a b : ustate k a b = ustate k b a.
Proof. by rewrite /ustate eq_sym; case: (ltngtP a b) => // /ord_inj ->. Qed.
Lemma union_prefix k : (k <= n)%N ->
  forall a b, foldl (fun out i => half_sum (set_row out i (nb i))) 1%:M (take k (enum 'I_n)) a b = ustate k a b.
Proof.
elim: k => [|k IH] hk a b.
  by rewrite take0 /= mxE /ustate; case: eqP => //; rewrite leq0n mulr0n.
have hk' : (k < size (enum 'I_n))%N by rewrite size_enum_ord.
rewrite (take_nth (Ordinal hk)) // -cats1 foldl_cat /=; set out := foldl _ _ _.
have e := nth_enum_ord (Ordinal hk) hk; set i := nth _ _ _ in e *.
have oE x y : out x y = ustate k x y by apply: IH; apply: ltnW.
wlog: a b / (a <= b)%N.
  move=> W; case: (leqP a b) => h; first exact: W.
  by rewrite ustate_sym -(W b a (ltnW h)) !half_sumE; congr (_ / _); rewrite addrC.
rewrite leq_eqVlt => /orP[/eqP/val_inj <-|ab].
  by rewrite half_sumE half_id set_rowE eqxx if_same oE /ustate eqxx.
have nab : a != b by rewrite -val_eqE ltn_eqF.
have nba : b != a by rewrite eq_sym.
rewrite half_sumE !set_rowE (negbTE nab) (negbTE nba) !oE (ustate_sym k b a).
have ei (x : 'I_n) : (x == i) = (x == k :> nat) by rewrite -val_eqE /= e.
rewrite !ei /ustate ab (negbTE nab).
case: (ltngtP a k) => ak; case: (ltngtP b k) => bk; rewrite ?half_id //.
- by have -> : b = i; [apply/val_inj; rewrite /= e | toR; lra].
- by move: ab; rewrite bk ltnNge (ltnW ak).
- by move: (ltn_trans ab bk); rewrite ak ltnn.
- by have -> : a = i; [apply/val_inj; rewrite /= e | toR; lra].
- by move: ab; rewrite ak bk ltnn.
Qed.
Lemma unionE (a b : 'I_n) : (a < b)%N ->
  build_adjacency_matrix nb Union a b = c b a / 2%:R + c a b / 4%:R /\
  build_adjacency_matrix nb Union b a = c b a / 2%:R + c a b / 4%:R.
Proof.
move=> ab; have := @union_prefix n (leqnn n); rewrite take_oversize ?size_enum_ord // => h.
rewrite /build_adjacency_matrix !h (ustate_sym n b a) /ustate ab.
by rewrite leqNgt ltn_ord leqNgt ltn_ord -val_eqE /= (ltn_eqF ab).
Qed.
Lemma union_diag a : build_adjacency_matrix nb Union a a = 1.
Proof.
have := @union_prefix n (leqnn n); rewrite take_oversize ?size_enum_ord // => h.
by rewrite /build_adjacency_matrix h /ustate eqxx.
Qed.
Lemma inter_prefix k : (k <= n)%N -> forall a b : 'I_n,
  foldl (fun out i => set_row out i (nb i)) 1%:M (take k (enum 'I_n)) a b =
  if a == b then 1 else if (a < k)%N then c a b else 0.
Proof.
elim: k => [|k IH] hk a b; first by rewrite take0 /= mxE; case: eqP.
have hk' : (k < size (enum 'I_n))%N by rewrite size_enum_ord.
rewrite (take_nth (Ordinal hk)) // -cats1 foldl_cat /=; set out := foldl _ _ _.
have e := nth_enum_ord (Ordinal hk) hk; set i := nth _ _ _ in e *.
have oE x y : out x y = if x == y then 1 else if (x < k)%N then c x y else 0 by apply: IH; apply: ltnW.
rewrite set_rowE oE.
rewrite -(val_eqE a i) /= e ltnS (leq_eqVlt a k).
case: (a =P b) => [_|_]; first by case: ifP.
case: (nat_of_ord a =P k) => [h|//] /=.
by have -> : i = a; [apply/val_inj; rewrite /= e h |].
Qed.
Lemma interE a b : build_adjacency_matrix nb Intersection a b =
  if a == b then 1 else if (c a b != 0) && (c b a != 0) then (c a b + c b a) / 2%:R else 0.
Proof.
have := @inter_prefix n (leqnn n); rewrite take_oversize ?size_enum_ord // => h.
rewrite /build_adjacency_matrix [LHS]mxE !mxE !h !ltn_ord (eq_sym b a).
have two : (1 + 1 : R) / 2%:R = 1 by toR; lra.
have half1 : (1 + 0 : R) / 2%:R < 1 by mclra.
have half0 : (0 + 1 : R) / 2%:R < 1 by mclra.
have zz : (0 + 0 : R) / 2%:R < 1 by mclra.
have n10 : (1 == 0 :> R) = false by exact: oner_eq0.
case: (a == b); first by rewrite n10 /= two ltxx n10.
case: (c a b == 0); case: (c b a == 0); rewrite /= ?zz ?half1 ?half0 ?eqxx //.
by rewrite two ltxx n10.
Qed.
Lemma adj_shape h : (build_adjacency_matrix nb h)^T = build_adjacency_matrix nb h /\
  forall i, build_adjacency_matrix nb h i i = 1.
Proof.
case: h.
- split; last exact: union_diag; apply/matrixP => a b; rewrite mxE.
  case: (ltngtP a b) => [h|h|/ord_inj -> //]; by have [-> ->] := unionE h.
- split; last by move=> i; rewrite interE eqxx.
  apply/matrixP => a b; rewrite mxE !interE eq_sym andbC; case: eqP => // _.
  by case: ifP => // _; rewrite addrC.
- by split=> [|i]; rewrite /build_adjacency_matrix ?tr_scalar_mx // mxE eqxx.
Qed.
End Adj.
