(** Proofs about make_cluster_representative: the segments and the times. *)
From Coq Require Import Reals.
From mathcomp Require Import all_ssreflect all_algebra.
From Verif Require Import RStruct RTac NP M_ClusterRep P_ClusterRep.
Import Order.TTheory GRing.Theory Num.Theory.

Set Implicit Arguments.
Unset Strict Implicit.
Unset Printing Implicit Defensive.
Local Open Scope ring_scope.

Section Path.
Variable n : nat.
Notation M := 'M[R]_n.
Notation ij := ('I_n * 'I_n)%type.
Variables (epc : nat) (shuffle : nat -> seq ij -> seq ij) (rand : nat -> nat -> R) (start target : M).
Hypotheses (shP : forall i l, perm_eq (shuffle i l) l) (r0 : forall i k, 0 < rand i k < 1)
  (sT : supp_sym target) (sS : supp_sym start).
Let D0 := size (differs start target).

Definition between (A : M) : Prop := forall i j, A i j = start i j \/
  [/\ supp start i j != supp target i j, supp A i j = supp target i j, 0 <= A i j < 20%:R / 100%:R & A j i = A i j].
Definition inv (s : nat) (A : M) : Prop :=
  [/\ between A, supp_sym A, (size (differs A target) + minn (s * epc) D0 <= D0)%N & (D0 <= size (differs A target) + 2 * (s * epc))%N].
Lemma inv_start : inv 0 start.
Proof. by split=> //; [move=> i j; left | rewrite mul0n min0n addn0 | rewrite mul0n muln0 addn0]. Qed.
Lemma inv_step s i A : inv s A -> inv s.+1 (one_step epc (shuffle i) (rand i) target A).
Proof.
move=> [b sA c1 c2]; split.
- move=> a c; have [[t [h [rg [m df]]]]|[t h]] := newE epc (shP i) (r0 i) sT sA a c.
    right; split=> //; have [e|[_ e _ _]] := b a c; last by rewrite e eqxx in df.
    by move: df; rewrite /supp e.
  have [h'|[d1 d2 d3 d4]] := b a c; first by left; rewrite h.
  right; split=> //; rewrite ?h //; first by rewrite /supp h.
  have [[t' _]|[_ ->]] := newE epc (shP i) (r0 i) sT sA c a; last exact: d4.
  by move: t; rewrite orbC t'.
- exact: new_supp_sym (shP i) (r0 i) sT sA.
- have /andP[l1' l2'] := count_step epc (shP i) (r0 i) sT sA.
  move: l1'; set d' := size (differs (one_step _ _ _ _ _) _); set d := size (differs A target) in c1 c2 * => l1'.
  rewrite mulSn; have [e|e] := leqP epc d.
    move: l1'; rewrite (minn_idPl e) => l1'; rewrite (leq_trans _ c1) //.
    rewrite (leq_trans _ (leq_add l1' (leqnn _))) // -addnA leq_add2l.
    by rewrite addn_minr leq_min geq_minl (leq_trans (geq_minr _ _)) // leq_addl.
  move: l1'; rewrite (minn_idPr (ltnW e)) -{2}[d]add0n leq_add2r leqn0 => /eqP ->; rewrite add0n; exact: geq_minr.
- have /andP[l1' l2'] := count_step epc (shP i) (r0 i) sT sA.
  rewrite (leq_trans c2) // [(s.+1 * epc)%N]mulSn mulnDr addnA leq_add2r (leq_trans l2') // leq_add2l leq_mul2l /=.
  exact: geq_minl.
Qed.
Lemma path_inv steps i cur s : inv s cur ->
  forall k, (k < steps)%N -> inv (s + k.+1) (nth 0 (path_from epc shuffle rand target cur i steps) k).
Proof.
elim: steps i cur s => [|steps IH] // i cur s c [_|k kl] /=; first by rewrite addn1; exact: inv_step.
by rewrite -addSnnS; apply: IH => //; exact: inv_step.
Qed.
Lemma size_path steps i cur : size (path_from epc shuffle rand target cur i steps) = steps.
Proof. by elim: steps i cur => [|s IH] //= i cur; rewrite IH. Qed.
End Path.

(** * how many matrices, and where the representatives are *)
Section Times.
Variable n : nat.
Notation M := 'M[R]_n.
Notation ij := ('I_n * 'I_n)%type.
Variables (adj : seq M) (shuffle : nat -> nat -> seq ij -> seq ij) (rand : nat -> nat -> nat -> R).

Definition gap (p q : nat) : nat := (q - p).-1.+1.
Fixpoint gaps (pos : seq nat) : nat :=
  match pos with p :: ((q :: _) as pos') => (gap p q + gaps pos')%N | _ => 0%N end.
Lemma gaps_cons p q pos : gaps (p :: q :: pos) = (gap p q + gaps (q :: pos))%N.
Proof. by []. Qed.
Lemma size_segment sh rd (a b : M) h : size (segment sh rd a b h) = h.+1.
Proof. by rewrite /segment /= size_path. Qed.
Lemma segments_cons p q pos a b series k : segments adj shuffle rand (p :: q :: pos) (a :: b :: series) k =
  if (a < size adj)%N && (b < size adj)%N then
    match segments adj shuffle rand (q :: pos) (b :: series) k.+1 with
    | COk rest => COk (segment (shuffle k) (rand k) (nth 0 adj a) (nth 0 adj b) (q - p).-1 ++ rest)
    | CRaise e => CRaise e
    end
  else CRaise CIndexError.
Proof. by []. Qed.
Lemma segmentsP pos series k : size pos = size series -> all (fun a => a < size adj)%N series ->
  exists2 rest, segments adj shuffle rand pos series k = COk rest & size rest = gaps pos /\
    forall i o, (i.+1 < size pos)%N -> (o < gap (nth 0%N pos i) (nth 0%N pos i.+1))%N ->
      nth 0 rest (gaps (take i.+1 pos) + o) =
      nth 0 (segment (shuffle (k + i)%N) (rand (k + i)%N) (nth 0 adj (nth 0%N series i)) (nth 0 adj (nth 0%N series i.+1))
               (nth 0%N pos i.+1 - nth 0%N pos i).-1) o.
Proof.
elim: pos series k => [|p [|q pos] IH] [|a [|b series]] k //; try by exists [::].
move=> [sz] /andP[al /andP[bl rl]]; have al' : all (fun a => a < size adj)%N (b :: series) by rewrite /= bl.
have [rest re [rs rn]] := IH (b :: series) k.+1 (congr1 S sz) al'.
rewrite segments_cons al bl re; eexists; first by reflexivity.
split; first by rewrite size_cat size_segment rs.
move=> [|i] o il ol.
  by rewrite -[gaps (take 1 _)]/(0%N) add0n nth_cat size_segment (ol : (o < (q - p).-1.+1)%N) addn0.
rewrite -[gaps (take i.+2 _)]/(gap p q + gaps (take i.+1 (q :: pos)))%N nth_cat size_segment /gap -addnA ltnNge leq_addr addKn.
rewrite addnS -addSn; exact: (rn i o).
Qed.
Lemma segments_index pos series k : size pos = size series -> (1 < size pos)%N -> ~~ all (fun a => a < size adj)%N series ->
  segments adj shuffle rand pos series k = CRaise CIndexError.
Proof.
elim: pos series k => [|p [|q pos] IH] [|a [|b series]] k // [sz] _ nl.
rewrite segments_cons; case al: (a < size adj)%N => //; case bl: (b < size adj)%N => //.
have nl' : ~~ all (fun a => a < size adj)%N (b :: series) by move: nl; rewrite /= al.
case: pos sz IH => [|r pos] sz IH; first by case: series sz nl nl' => //= _ _; rewrite bl.
by rewrite (IH (b :: series) k.+1 (congr1 S sz) isT nl').
Qed.
End Times.

Lemma gaps_arith step a m : (0 < step)%N -> gaps [seq (i * step)%N | i <- iota a m.+1] = (m * step)%N.
Proof.
move=> s0; elim: m a => [|m IH] a //.
rewrite -[LHS]/(gap (a * step) (a.+1 * step) + gaps [seq (i * step)%N | i <- iota a.+1 m.+1])%N IH.
by rewrite /gap mulSn addnK prednK // mulSn.
Qed.
Lemma gaps_rcons pos e : gaps (rcons pos e) = (gaps pos + (if pos is [::] then 0 else gap (last 0%N pos) e))%N.
Proof.
elim: pos => [|p [|q pos] IH] //=; first by rewrite addn0.
by rewrite -addnA; congr addn; exact: IH.
Qed.
Lemma gaps_ge pos i : (i.+1 < size pos)%N -> (gaps (take i.+1 pos) + gap (nth 0%N pos i) (nth 0%N pos i.+1) <= gaps pos)%N.
Proof.
elim: pos i => [|p [|q pos] IH] [|i] //= il; first by rewrite add0n leq_addr.
by rewrite -addnA leq_add2l; exact: (IH i).
Qed.
Definition n_pos (T step : nat) : nat := ((T + step).-1 %/ step)%N.
Lemma n_posE T step : (0 < step)%N -> (0 < T)%N -> n_pos T step = (T.-1 %/ step).+1.
Proof. by move=> s0; case: T => // T _; rewrite /n_pos addSn /= divnDr // divnn s0 addn1. Qed.
Lemma positionsE T k : (k < T)%N -> let step := (T %/ k.+1)%N in [/\ (0 < step)%N, positions T k =
    COk (rcons [seq (i * step)%N | i <- iota 0 (T.-1 %/ step).+1] T.-1) &
    gaps (rcons [seq (i * step)%N | i <- iota 0 (T.-1 %/ step).+1] T.-1) = if (step %| T.-1)%N then T else T.-1].
Proof.
move=> kT step; have s0 : (0 < step)%N by rewrite divn_gt0.
have T0 : (0 < T)%N by exact: leq_ltn_trans kT.
split=> //.
  rewrite /positions -/step; case e: step s0 => [|s] // _; rewrite -e -/(n_pos T step) n_posE ?e // -cats1 //.
set m := (T.-1 %/ step)%N; rewrite gaps_rcons gaps_arith //.
have -> : last 0%N [seq (i * step)%N | i <- iota 0 m.+1] = (m * step)%N.
  by rewrite -addn1 iotaD map_cat last_cat /=.
rewrite /gap; have e := divn_eq T.-1 step; rewrite -/m in e.
have -> : (T.-1 - m * step = T.-1 %% step)%N by rewrite {1}e addKn.
rewrite /= /dvdn; case: eqP => r; first by move: e; rewrite r addn0 => <-; rewrite addn1 prednK.
by rewrite prednK ?lt0n -?e //; apply/eqP.
Qed.
Lemma size_tile k m : size (tile k m) = (m * k)%N.
Proof. by rewrite /tile size_flatten /shape map_nseq size_iota sumn_nseq mulnC. Qed.
Lemma nth_tile k m i : (i < m * k)%N -> nth 0%N (tile k m) i = (i %% k)%N.
Proof.
elim: m i => [|m IH] i; first by rewrite mul0n.
rewrite mulSn /tile /= nth_cat size_iota; case: (ltnP i k) => [ik _|ki l]; first by rewrite nth_iota // modn_small.
rewrite -/(tile k m) IH; last by rewrite -(ltn_add2l k) subnKC.
by rewrite -{2}(subnK ki) modnDr.
Qed.

(** * the whole function *)
Lemma make_times n (adj : nat -> seq 'M[R]_n) shuffle rand T k : (0 < k < T)%N -> size (adj k) = k ->
  let step := (T %/ k.+1)%N in
  exists thetas series, [/\ make_cluster_representative adj shuffle rand T k None = COk (thetas, series),
    size thetas = (if (step %| T.-1)%N then T.+1 else T),
    last 0 thetas = nth 0 (adj k) (last 0%N series), size series = (T.-1 %/ step).+2 /\ (forall i, (i < size series)%N -> nth 0%N series i = (i %% k)%N) &
    forall i o, (i <= T.-1 %/ step)%N -> (o < (if (i < T.-1 %/ step)%N then step else (T.-1 - i * step).-1.+1))%N -> nth 0 thetas (i * step + o) =
      nth 0 (segment (shuffle i) (rand i) (nth 0 (adj k) (i %% k)) (nth 0 (adj k) (i.+1 %% k))
        (if (i < T.-1 %/ step)%N then step.-1 else (T.-1 - i * step).-1)) o].
Proof.
move=> /andP[k0 kT] ak step; have [s0 pE gE] := positionsE kT; rewrite -/step in s0 pE gE.
set m := (T.-1 %/ step)%N in pE gE *; set pos := rcons _ _ in pE gE.
have szp : size pos = m.+2 by rewrite size_rcons size_map size_iota.
set series := take (size pos) (tile k (size pos %/ k).+1).
have szl : (size pos <= (size pos %/ k).+1 * k)%N by exact: ltnW (ltn_ceil _ k0).
have szs : size series = size pos by rewrite size_takel // size_tile.
have ns i : (i < size pos)%N -> nth 0%N series i = (i %% k)%N.
  by move=> il; rewrite nth_take // nth_tile //; exact: leq_trans il szl.
have al : all (fun a => a < size (adj k))%N series.
  by apply/(all_nthP 0%N) => i; rewrite szs => il; rewrite ns // ak ltn_mod.
have [rest re [rs rn]] := segmentsP shuffle rand 0 (esym szs) al.
exists (rcons rest (nth 0 (adj k) (last 0%N series))), series.
have np i : (i <= m)%N -> nth 0%N pos i = (i * step)%N.
  by move=> im; rewrite nth_rcons size_map size_iota ltnS im (nth_map 0%N) ?size_iota // nth_iota.
have nl : nth 0%N pos m.+1 = T.-1 by rewrite nth_rcons size_map size_iota ltnn eqxx.
split.
- rewrite /make_cluster_representative /n_clusters_of pE /series_of; case e: k k0 => [|k'] // _; rewrite -e -/series re //.
- by rewrite size_rcons rs gE; case: ifP => // _; rewrite prednK // (leq_ltn_trans _ kT).
- by rewrite last_rcons.
- by rewrite szs szp; split=> // i il; rewrite ns // szp.
move=> i o im ol.
have g : gap (nth 0%N pos i) (nth 0%N pos i.+1) = (if (i < m)%N then step else (T.-1 - i * step).-1.+1).
  rewrite /gap (np i im); case: (ltnP i m) => [im'|mi]; first by rewrite (np i.+1 im') mulSn addnK prednK.
  have -> : i = m by apply/eqP; rewrite eqn_leq im.
  by rewrite nl.
have tk : gaps (take i.+1 pos) = (i * step)%N.
  rewrite /pos -cats1 takel_cat; last by rewrite size_map size_iota ltnS.
  by rewrite -map_take take_iota (minn_idPl _) ?ltnS // gaps_arith.
have i1 : (i.+1 < size pos)%N by rewrite szp !ltnS.
have := rn i o i1; rewrite g tk => /(_ ol) e.
rewrite nth_rcons -/step.
have -> : (i * step + o < size rest)%N.
  by rewrite rs (leq_trans _ (gaps_ge i1)) // tk g ltn_add2l.
rewrite e add0n !ns ?szp //; last by rewrite -szp ltnW.
congr (nth _ (segment _ _ _ _ _) _).
by move: g; rewrite /gap; case: ifP => _ [<-].
Qed.
