(** Property theorem C192 (the labels of plot_circular). *)
From Coq Require Import Reals Lra.
From mathcomp Require Import all_ssreflect all_algebra.
From Verif Require Import RStruct RTac M_Circular.
Import Order.TTheory GRing.Theory Num.Theory.

Set Implicit Arguments.
Unset Strict Implicit.
Unset Printing Implicit Defensive.
Local Open Scope ring_scope.

(** * specification: the squared distance of two points *)
Definition dist2 (p q : R * R) : R := (p.1 - q.1) ^+ 2 + (p.2 - q.2) ^+ 2.

(** * minimum and maximum *)
Lemma aminP (l : seq R) m : m \in l -> (forall x, x \in l -> m <= x) -> amin l = m.
Proof.
move=> ml h; rewrite /amin; have h0 : m <= head 0 l by case: l ml h => // x l _ h; apply: h; rewrite mem_head.
move: (head 0 l) h0 => z h0; elim: l ml h => [|x l IH] //=; rewrite inE => /orP[/eqP <-|ml] h.
  suff hm : m <= foldr Num.min z l by rewrite min_l.
  have : forall y, y \in l -> m <= y by move=> y yl; apply: h; rewrite inE yl orbT.
  by elim: (l) => //= y l' IH' h'; rewrite le_minr h' ?mem_head // IH' // => u ul; apply: h'; rewrite inE ul orbT.
by rewrite IH // ?min_r ?h ?mem_head // => y yl; apply: h; rewrite inE yl orbT.
Qed.
Lemma amaxN (l : seq R) : amax l = - amin [seq - x | x <- l].
Proof.
rewrite /amax /amin; have -> : head 0 [seq - x | x <- l] = - head 0 l by case: l => //=; rewrite oppr0.
move: (head 0 l) => z; elim: l => [|x s IH] /=; first by rewrite opprK.
by rewrite oppr_min opprK -IH.
Qed.
Lemma amaxP (l : seq R) m : m \in l -> (forall x, x \in l -> x <= m) -> amax l = m.
Proof.
move=> ml h; rewrite amaxN (@aminP _ (- m)) ?opprK ?map_f // => x /mapP[y yl ->]; by rewrite ler_opp2 h.
Qed.
Lemma amin_mem (l : seq R) : l != [::] -> amin l \in l.
Proof.
rewrite /amin; case: l => // x l _ /=.
suff h : foldr Num.min x l \in x :: l by case: (leP x (foldr Num.min x l)) => _ //; rewrite mem_head.
elim: l => [|y l IH] /=; first exact: mem_head.
case: leP => _; first by rewrite !inE eqxx orbT.
by move: IH; rewrite !inE => /orP[->|->] //; rewrite !orbT.
Qed.
Lemma amin_le (l : seq R) x : x \in l -> amin l <= x.
Proof.
rewrite /amin; move: (head 0 l) => z; elim: l => //= y l IH; rewrite inE => /orP[/eqP ->|/IH h]; first by rewrite le_minl lexx.
by rewrite le_minl h orbT.
Qed.

(** * the circle *)
Section Circle.
Variable n : nat.
Hypothesis n2 : (1 < n)%N.
Let th := node_angle n.
Lemma n_pos : 0 < n%:R :> R. Proof. by rewrite ltr0n; apply: ltn_trans n2. Qed.
Lemma PI_pos : 0 < PI :> R. Proof. exact/RltP/PI_RGT_0. Qed.
Lemma th_range k : (k < n)%N -> 0 <= th k /\ th k < 2%:R * PI.
Proof.
move=> kn; rewrite /th /node_angle; have p := PI_pos; have p2 : 0 < 2%:R * PI :> R by rewrite mulr_gt0 ?ltr0n.
split; first by rewrite mulr_ge0 ?(ltW p2) // divr_ge0 ?ler0n.
by rewrite gtr_pmulr // ltr_pdivr_mulr ?n_pos // mul1r ltr_nat.
Qed.
Lemma trig1 (x : R) : cos x ^+ 2 + sin x ^+ 2 = 1.
Proof. by rewrite addrC !expr2; have := sin2_cos2 x; rewrite /Rsqr. Qed.
Lemma cos_range (x : R) : -1 <= cos x /\ cos x <= 1.
Proof. by have [a b] := COS_bound x; split; apply/RleP; toR. Qed.
Lemma sin0_cases k : (k < n)%N -> sin (th k) = 0 -> th k = 0 \/ th k = PI.
Proof.
move=> kn s0; have [a b] := th_range kn.
have h1 : Rle R0 (th k) by exact/RleP.
have h2 : Rle (th k) (Rmult (IZR 2) PI) by apply/RleP/ltW; exact: b.
case: (sin_eq_O_2PI_0 _ h1 h2 s0) => [->|[->|e]]; [by left|by right|].
by move: b; rewrite e => /RltP h; exfalso; move: h; toR; lra.
Qed.
Lemma cos_pm1 k : (k < n)%N -> cos (th k) ^+ 2 = 1 -> th k = 0 \/ th k = PI.
Proof.
move=> kn c; apply: sin0_cases => //; apply/eqP.
by have := trig1 (th k); rewrite c => /eqP; rewrite -subr_eq0 addrC addKr expf_eq0.
Qed.
Lemma th0 : th 0 = 0. Proof. by rewrite /th /node_angle mul0r mulr0. Qed.
Lemma th_half m : n = (2 * m)%N -> th m = PI.
Proof.
move=> e; rewrite /th /node_angle e natrM.
have m0 : m%:R != 0 :> R by rewrite pnatr_eq0; apply/eqP => m0; move: n2; rewrite e m0.
have num (p x : R) : x != 0 -> 2%:R * p * (x / (2%:R * x)) = p by move=> x0; mcfield.
exact: num.
Qed.
Lemma thPI k : th k = PI -> (2 * k)%N = n.
Proof.
rewrite /th /node_angle [2%:R * PI]mulrC -mulrA => e.
have : 2%:R * (k%:R / n%:R) = 1 :> R by apply: (mulfI (lt0r_neq0 PI_pos)); rewrite mulr1.
by rewrite mulrA => /(congr1 (fun x => x * n%:R)); rewrite mulfVK ?(lt0r_neq0 n_pos) // mul1r -natrM => /eqP; rewrite eqr_nat => /eqP.
Qed.
Lemma sin_sym k : (k <= n)%N -> sin (th (n - k)) = - sin (th k).
Proof.
move=> kn; have e : th (n - k) = Rplus (Ropp (th k)) (Rmult (Rmult (IZR 2) (INR 1)) PI).
  rewrite /th /node_angle natrB // mulrBl divff ?(lt0r_neq0 n_pos) // mulrBr mulr1 addrC; toR => /=; ring.
by rewrite e sin_period sin_neg.
Qed.
End Circle.

Lemma layoutE n : (1 < n)%N -> circular_layout n = [seq (cos (node_angle n k), sin (node_angle n k)) | k <- iota 0 n].
Proof. by rewrite /circular_layout; case: n => [|[|n]]. Qed.
Section Layout.
Variable n : nat.
Hypothesis n2 : (1 < n)%N.
Notation th := (node_angle n).
Let xs := [seq p.1 | p <- circular_layout n].
Let ys := [seq p.2 | p <- circular_layout n].
Lemma xsE : xs = [seq cos (th k) | k <- iota 0 n]. Proof. by rewrite /xs layoutE // -map_comp. Qed.
Lemma ysE : ys = [seq sin (th k) | k <- iota 0 n]. Proof. by rewrite /ys layoutE // -map_comp. Qed.
Lemma x_mem k : (k < n)%N -> cos (th k) \in xs. Proof. by move=> kn; rewrite xsE; apply: map_f; rewrite mem_iota. Qed.
Lemma y_mem k : (k < n)%N -> sin (th k) \in ys. Proof. by move=> kn; rewrite ysE; apply: map_f; rewrite mem_iota. Qed.
Lemma xmax : amax xs = 1.
Proof.
apply: amaxP; last by rewrite xsE => x /mapP[k _ ->]; case: (cos_range (th k)).
by have e : cos (th 0) = 1 :> R; [rewrite th0; exact: cos_0 | rewrite -e; apply: x_mem; exact: ltnW].
Qed.
Lemma ysym y : y \in ys -> - y \in ys.
Proof.
rewrite {1}ysE => /mapP[k]; rewrite mem_iota => /andP[_ kn] ->; rewrite add0n in kn.
case: k kn => [|k] kn; first by have e : sin (th 0) = 0 :> R; [rewrite th0; exact: sin_0 | rewrite e oppr0 -e; apply: y_mem; exact: ltnW].
by rewrite -sin_sym ?(ltnW kn) // y_mem // ltn_subrL /= ltnW.
Qed.
Lemma ycenter : (center (circular_layout n)).2 = 0.
Proof.
rewrite /center /= -/ys; suff -> : amax ys = - amin ys by rewrite subrr mul0r.
have ne : ys != [::] by rewrite ysE; case: (n) n2.
apply: amaxP; first by apply/ysym/amin_mem.
by move=> x /ysym /amin_le; rewrite ler_oppr.
Qed.
Lemma xcenter_even m : n = (2 * m)%N -> (center (circular_layout n)).1 = 0.
Proof.
move=> e; rewrite /center /= -/xs xmax; suff -> : amin xs = -1 by rewrite addNr mul0r.
apply: aminP; last by rewrite xsE => x /mapP[k _ ->]; case: (cos_range (th k)).
have -> : -1 = cos (th m) :> R by rewrite (th_half n2 e) cos_PI; toR.
by rewrite x_mem // e ltn_Pmull //; case: (m) e n2 => // ->.
Qed.
Lemma xcenter_odd : odd n -> 0 < (center (circular_layout n)).1.
Proof.
move=> on; rewrite /center /= -/xs xmax divr_gt0 ?ltr0n // -ltr_subl_addr sub0r.
have ne : xs != [::] by rewrite xsE; case: (n) n2.
have := amin_mem ne; rewrite {2}xsE => /mapP[k]; rewrite mem_iota add0n => /andP[_ kn] ->.
have [a _] := cos_range (th k); rewrite lt_neqAle a andbT; apply/eqP => e.
have : cos (th k) ^+ 2 = 1 by rewrite -e sqrrN expr1n.
case/(cos_pm1 n2 kn) => z; first by move: e; rewrite z cos_0 => /eqP; rewrite -subr_eq0 -opprD oppr_eq0 (_ : 1 + 1 = 2%:R) ?pnatr_eq0.
by move: on; rewrite -(thPI n2 z) oddM.
Qed.
Lemma cos1_neq1 : cos (th 1) <> 1.
Proof.
move=> e; have : cos (th 1) ^+ 2 = 1 by rewrite e expr1n.
case/(cos_pm1 n2 n2) => z.
  move/eqP: z; rewrite /node_angle mulf_eq0 mulf_eq0 pnatr_eq0 (gt_eqF PI_pos) /= mul1r invr_eq0 pnatr_eq0 => /eqP n0; by move: n2; rewrite n0.
by move: e; rewrite z cos_PI => e; exfalso; move: e; toR; lra.
Qed.
End Layout.

(** C192: with an even number of nodes, the labels are on a circle of radius dist_text around the origin, each on the ray of its node *)
Theorem C192_even m dist_text : (0 < m)%N -> let n := (2 * m)%N in
  pos_text dist_text (circular_layout n) = [seq (dist_text * p.1, dist_text * p.2) | p <- circular_layout n] /\
  (forall p, p \in pos_text dist_text (circular_layout n) -> dist2 p (0, 0) = dist_text ^+ 2).
Proof.
move=> m0 n; have n2 : (1 < n)%N by rewrite /n; case: (m) m0 => // k _; rewrite mulnS.
have cE : center (circular_layout n) = (0, 0).
  by rewrite [center _]surjective_pairing (xcenter_even n2 (erefl n)) (ycenter n2).
have e : pos_text dist_text (circular_layout n) = [seq (dist_text * p.1, dist_text * p.2) | p <- circular_layout n].
  by rewrite /pos_text cE; apply: eq_map => p /=; rewrite !subr0 !add0r.
split=> // p; rewrite e => /mapP[q]; rewrite layoutE // => /mapP[k _ ->] ->; rewrite /dist2 /= !subr0 !exprMn -mulrDr.
by rewrite (trig1 (node_angle n k)) mulr1.
Qed.
Print Assumptions C192_even.
(** in general they are scaled about the centre of the bounding box *)
Theorem C192_scaled dist_text n : (0 < n)%N -> let c := center (circular_layout n) in
  c.2 = 0 /\
  forall k, (k < n)%N -> dist2 (nth (0, 0) (pos_text dist_text (circular_layout n)) k) c = dist_text ^+ 2 * dist2 (nth (0, 0) (circular_layout n) k) c.
Proof.
move=> n0 c; have sz : size (circular_layout n) = n by rewrite /circular_layout; case: eqP => [->|_] //=; rewrite size_map size_iota.
split; last first.
  move=> k kn; rewrite /pos_text (nth_map (0, 0)) ?sz //= /dist2 /= -/c.
  by rewrite ![_ + _ - _]addrC !addKr !exprMn mulrDr.
rewrite /c; case: n n0 {c sz} => [|[|n]] // _; last exact: ycenter.
by rewrite /center /circular_layout /= /amin /amax /= minxx maxxx addr0 mul0r.
Qed.
Print Assumptions C192_scaled.
(** Refuted: with an odd number of nodes (three or more) the box is not centred at the origin, and the labels are not on a circle around the nodes' circle *)
Theorem C192_odd_refuted dist_text n : odd n -> (1 < n)%N -> dist_text <> 0 -> dist_text <> 1 ->
  0 < (center (circular_layout n)).1 /\
  dist2 (nth (0, 0) (pos_text dist_text (circular_layout n)) 0) (0, 0) <> dist2 (nth (0, 0) (pos_text dist_text (circular_layout n)) 1) (0, 0).
Proof.
move=> on n2 t0 t1; have c0 := xcenter_odd n2 on; split=> //.
have sz : size (circular_layout n) = n by rewrite layoutE // size_map size_iota.
have c1 : cos (node_angle n 0) = 1 by rewrite th0; exact: cos_0.
have s1 : sin (node_angle n 0) = 0 by rewrite th0; exact: sin_0.
have n1 := ltnW n2.
have p0 : nth (0, 0) (circular_layout n) 0 = (1, 0) by rewrite layoutE // (nth_map 0%N) ?size_iota // nth_iota // c1 s1.
have p1 : nth (0, 0) (circular_layout n) 1 = (cos (node_angle n 1), sin (node_angle n 1)) by rewrite layoutE // (nth_map 0%N) ?size_iota // nth_iota.
rewrite /pos_text !(nth_map (0, 0)) ?sz // p0 p1; have tr := trig1 (node_angle n 1); have ne := cos1_neq1 n2.
case: (center _) c0 (ycenter n2) => c cy /= c0 ->; move: (cos (node_angle n 1)) (sin (node_angle n 1)) tr ne => x y tr ne.
rewrite /dist2 /= !subr0 !add0r mulr0 => e.
have key : 2%:R * dist_text * (1 - dist_text) * c * (1 - x) = 0.
  have id1 : (c + dist_text * (1 - c)) ^+ 2 + 0 ^+ 2 - ((c + dist_text * (x - c)) ^+ 2 + (dist_text * y) ^+ 2) =
      2%:R * dist_text * (1 - dist_text) * c * (1 - x) + dist_text ^+ 2 * (1 - (x ^+ 2 + y ^+ 2)) by mcring.
  by move: id1; rewrite e subrr tr subrr mulr0 addr0 => <-.
move/eqP: key; rewrite !mulf_eq0 pnatr_eq0 (gt_eqF c0) /= orbF !subr_eq0 ![1 == _]eq_sym.
by case/orP => [/orP[]|] /eqP.
Qed.
Print Assumptions C192_odd_refuted.

(** the text lies along the ray from the centre to the node: at most a quarter turn, and its slope (the angle is clockwise) is the slope of the ray *)
Theorem C192_angle (ps : seq (R * R)) p : let c := center ps in
  (text_angle ps p = None <-> p = c) /\
  (forall a, text_angle ps p = Some a -> `|a| <= 90%:R) /\
  (p.1 <> c.1 -> exists a, text_angle ps p = Some a /\ tan (- a * PI / 180%:R) * (p.1 - c.1) = p.2 - c.2).
Proof.
move=> c; have pi0 := PI_pos; have pn := lt0r_neq0 pi0.
have w (x : R) : `|x| <= PI / 2%:R -> `|- 180%:R * x / PI| <= 90%:R.
  move=> h; rewrite !normrM normrN normrV ?unitfE // (gtr0_norm pi0) normr_nat ler_pdivr_mulr //.
  have -> : 90%:R * PI = 180%:R * (PI / 2%:R) :> R by mcfield.
  by rewrite ler_wpmul2l ?ler0n.
have at_b (x : R) : `|atan x| <= PI / 2%:R.
  have [a b] := atan_bound x; rewrite ler_norml; apply/andP; split; apply/ltW/RltP; [move: a|move: b]; toR; lra.
have h2 : `|PI / 2%:R| <= PI / 2%:R :> R by rewrite ger0_norm // divr_ge0 ?(ltW pi0) ?ler0n.
rewrite /text_angle -/c; split; last split.
- split=> [|->]; last by rewrite !subrr eqxx.
  by case: eqP => // /eqP; rewrite subr_eq0 => /eqP h1; case: eqP => // /eqP; rewrite subr_eq0 => /eqP h3; rewrite [p]surjective_pairing h1 h3 -surjective_pairing.
- move=> a; case: ifP => _; last by move=> [<-]; apply: w.
  by case: ifP => // _ [<-]; apply: w; case: ifP => _; rewrite ?normrN.
move=> ne; have d0 : p.1 - c.1 != 0 by rewrite subr_eq0; apply/eqP.
rewrite (negbTE d0); eexists; split; first by [].
have num (x : R) : - (- 180%:R * x / PI) * PI / 180%:R = x by mcfield.
by rewrite num [tan _]tan_atan divfK.
Qed.
Print Assumptions C192_angle.

(** the labels of the edges agree with the annotations if the nodes are 0, 1, ..., n - 1 in this order *)
Theorem C192_labels (L : Type) (labels : seq L) n (es : seq (nat * nat)) :
  (forall e, e \in es -> (e.1 < n)%N /\ (e.2 < n)%N) ->
  edge_texts es labels = [seq (nth None (annotations (iota 0 n) labels) (index e.1 (iota 0 n)), nth None (annotations (iota 0 n) labels) (index e.2 (iota 0 n))) | e <- es].
Proof.
move=> h; apply/eq_in_map => e /h[h1 h2].
have ix k : (k < n)%N -> nth None (annotations (iota 0 n) labels) (index k (iota 0 n)) = label_at labels k.
  move=> kn; have -> : index k (iota 0 n) = k by have := @index_uniq _ 0%N k (iota 0 n); rewrite size_iota iota_uniq nth_iota // add0n => ->.
  by rewrite /annotations (nth_map 0%N) !size_iota // nth_iota.
by rewrite !ix.
Qed.
Print Assumptions C192_labels.
(** Refuted: a graph whose nodes are listed in another order has the names of its edges' ends swapped with respect to the annotations *)
Theorem C192_labels_refuted : exists (nodes : seq nat) (es : seq (nat * nat)) (labels : seq bool),
  perm_eq nodes (iota 0 2) /\ es = [:: (0, 1)]%N /\
  edge_texts es labels <> [seq (nth None (annotations nodes labels) (index e.1 nodes), nth None (annotations nodes labels) (index e.2 nodes)) | e <- es].
Proof. by exists [:: 1; 0]%N, [:: (0, 1)]%N, [:: true; false]. Qed.
Print Assumptions C192_labels_refuted.

(** four nodes: labels on the circle of radius 1.2; three nodes: not *)
Example C192_case : (forall p, p \in pos_text (12%:R / 10%:R) (circular_layout 4) -> dist2 p (0, 0) = (12%:R / 10%:R) ^+ 2) /\
  0 < (center (circular_layout 3)).1.
Proof.
split; first by have [] := @C192_even 2 (12%:R / 10%:R) isT.
by have [||h _] := @C192_odd_refuted 2%:R 3 isT isT; [apply/eqP; rewrite pnatr_eq0 | apply/eqP; rewrite (eqr_nat _ 2 1) |].
Qed.
