(** glo_prox: from the kept blocks back to all blocks. *)
From Coq Require Import Reals.
From mathcomp Require Import all_ssreflect all_algebra.
From Verif Require Import RStruct RTac LinTac NP S_Mat RMx M_Utils M_Glopridu P_Glopridu P_Glopridu2.
Import Order.TTheory GRing.Theory Num.Theory.

Set Implicit Arguments.
Unset Strict Implicit.
Unset Printing Implicit Defensive.
Local Open Scope ring_scope.

Section Scatter.
Variables (d : nat) (keepb : {set 'I_d} * R -> bool).
Implicit Types bw : seq ({set 'I_d} * R).
Notation sc bw l := (scatter (map keepb bw) l).

Lemma scatter_size mask (l : seq R) : size (scatter mask l) = size mask.
Proof. by elim: mask l => [|[] mask IH] l //=; rewrite IH. Qed.
Lemma scatter_drop mask (l : seq R) i : nth false mask i = false -> nth 0 (scatter mask l) i = 0.
Proof. by elim: mask l i => [|[] mask IH] l [|i] //=; apply: IH. Qed.
Lemma scatter_ge0 mask (l : seq R) i : (forall k, 0 <= nth 0 l k) -> 0 <= nth 0 (scatter mask l) i.
Proof.
elim: mask l i => [|[] mask IH] l [|i] h //=; first by rewrite -nth0.
  by apply: IH => k; rewrite nth_behead.
exact: IH.
Qed.
Lemma scatter_sum (F : {set 'I_d} * R -> R -> R) bw l : (forall b, F b 0 = 0) -> size l = size [seq b <- bw | keepb b] ->
  \sum_(p <- zip bw (sc bw l)) F p.1 p.2 = \sum_(p <- zip [seq b <- bw | keepb b] l) F p.1 p.2.
Proof.
move=> F0; elim: bw l => [|b bw IH] l /=; first by case: l => [|? ?]; rewrite !big_nil.
case: ifP => kb; last by move=> s; rewrite big_cons F0 add0r IH.
by case: l => [|a l] //= [s]; rewrite !big_cons IH.
Qed.
Lemma sum_kept (F : {set 'I_d} * R -> R -> R) (k : seq ({set 'I_d} * R)) (lam : 'I_(size k) -> R) :
  \sum_(p <- zip k [seq lam g | g <- enum 'I_(size k)]) F p.1 p.2 = \sum_g F (tnth (in_tuple k) g) (lam g).
Proof.
have {1}-> : k = [seq tnth (in_tuple k) g | g <- enum 'I_(size k)] by rewrite map_tnth_enum.
by rewrite zip_map big_map big_enum.
Qed.
Lemma sum_zip_nth (F : {set 'I_d} * R -> R -> R) (k : seq ({set 'I_d} * R)) (l : seq R) : size l = size k ->
  \sum_(p <- zip k l) F p.1 p.2 = \sum_(i < size k) F (nth (set0, 0) k i) (nth 0 l i).
Proof.
move=> s; rewrite (big_nth ((set0, 0), 0)) size_zip s minnn big_mkord.
by apply: eq_bigr => i _; rewrite nth_zip.
Qed.
End Scatter.

Lemma nth_all_ge0 (s : seq R) k : all (fun x => 0 <= x) s -> 0 <= nth 0 s k.
Proof.
move=> /(all_nthP 0) h; case: (ltnP k (size s)) => ks; first exact: h.
by rewrite nth_default.
Qed.
Lemma unzip2_zip_sub (A : eqType) (B : eqType) (s : seq A) (t : seq B) : subseq (unzip2 (zip s t)) t.
Proof. by elim: s t => [|a s IH] [|b t] //=; rewrite ?sub0seq // eqxx IH. Qed.

Section Result.
Variables (pinv : forall n, 'M[R]_n -> 'M[R]_n) (d : nat).
Hypothesis pinv_psd : forall n (A : 'M[R]_n), psd A -> psd (pinv A).
Variables (w0 : 'I_d -> R) (tau : R) (blocks : seq {set 'I_d}) (weights : seq R).
Hypothesis sz : size weights = size blocks.
Notation bw := [seq (b.1, (b.2 * tau) ^+ 2) | b <- zip blocks weights].
Lemma bw_size : size bw = size blocks.
Proof. by rewrite size_map size_zip sz minnn. Qed.
Lemma bw_nth i : (i < size blocks)%N -> nth (set0, 0) bw i = (nth set0 blocks i, (nth 0 weights i * tau) ^+ 2).
Proof.
move=> h; rewrite (nth_map (set0, 0)); last by rewrite size_zip sz minnn.
by rewrite nth_zip.
Qed.
Lemma nseq_ge0 B k : 0 <= nth (0 : R) (nseq B 0) k.
Proof. by rewrite nth_nseq if_same. Qed.

Lemma glo_prox_result fuel lamda0 tol max_iter beta sigma s_beta epsilon w it l :
  0 <= beta -> 0 <= sigma -> 0 <= s_beta ->
  (forall l0, lamda0 = Some l0 -> forall k, 0 <= nth 0 l0 k) ->
  glo_prox pinv fuel w0 tau blocks weights lamda0 tol max_iter beta sigma s_beta epsilon = Some (Val (w, it, l)) ->
  [/\ size l = size blocks, forall i, 0 <= nth 0 l i,
    forall j, w j = w0 j * (1 - 1 / (1 + \sum_(i < size blocks | j \in nth set0 blocks i) nth 0 l i)),
    forall i, (i < size blocks)%N -> block_norm w0 (nth set0 blocks i) < (nth 0 weights i * tau) ^+ 2 -> nth 0 l i = 0 &
    lamda0 = None -> \sum_j w0 j ^+ 2 / (1 + \sum_(i < size blocks | j \in nth set0 blocks i) nth 0 l i) +
      \sum_(i < size blocks) (nth 0 weights i * tau) ^+ 2 * nth 0 l i <= \sum_j w0 j ^+ 2].
Proof.
move=> b0 s0 sb0 l00; rewrite /glo_prox; case eI : (lamda_init _ _) => [l0|] //.
have l0_ge0 k : 0 <= nth 0 l0 k.
  move: eI; rewrite /lamda_init; case eL : lamda0 => [[|x [|y s]]|] //=; try by move=> [<-]; exact: nseq_ge0.
  case: ifP => _ [<-]; [exact: nseq_ge0|exact: l00 eL k].
case: ifP => [_ [<- _ <-]|_].
  have z j : \sum_(i < size blocks | j \in nth set0 blocks i) nth 0 (nseq (size blocks) 0) i = 0 :> R.
    by apply: big1 => i _; rewrite nth_nseq if_same.
  split; first by rewrite size_nseq.
  - exact: nseq_ge0.
  - by move=> j; rewrite z addr0 div1r invr1 subrr mulr0.
  - by move=> i _ _; rewrite nth_nseq if_same.
  move=> _; rewrite [X in _ + X]big1 ?addr0; last by move=> i _; rewrite nth_nseq if_same mulr0.
  by apply: ler_sum => j _; rewrite z addr0 divr1.
case en : (newton _ _ _ _ _ _ _ _ _ _ _ _ _ _) => [[lam it']|] // [<- _ <-].
set kp := [seq b <- bw | keep w0 b] in lam en *.
have init_ge0 (g : 'I_(size kp)) : 0 <= nth 0 [seq bl.2 | bl <- zip bw l0 & keep w0 bl.1] g.
  apply: nth_all_ge0; apply/allP => x /mapP [[b y]]; rewrite mem_filter => /andP [_ /(map_f snd)] /= h ->.
  have : y \in l0 by move: h; rewrite -/(unzip2 _) => /mem_subseq; apply; exact: unzip2_zip_sub.
  by move=> /(nthP 0) [i _ <-].
have [r0 ro] := newton_ok pinv_psd b0 s0 sb0 init_ge0 en.
set ll := scatter _ _.
have kpE : size [seq lam g | g <- enum 'I_(size kp)] = size [seq b <- bw | keep w0 b] by rewrite size_map size_enum_ord.
have ls : size ll = size blocks by rewrite scatter_size size_map bw_size.
have bs j : block_sum (fun g : 'I_(size kp) => (tnth (in_tuple kp) g).1) lam j = \sum_(i < size blocks | j \in nth set0 blocks i) nth 0 ll i.
  rewrite /block_sum big_mkcond /=.
  rewrite -(@sum_kept d (fun b x => if j \in b.1 then x else 0)).
  rewrite -(@scatter_sum d (keep w0) (fun b x => if j \in b.1 then x else 0)) //; last by move=> b; rewrite if_same.
  rewrite -/ll (@sum_zip_nth d (fun b x => if j \in b.1 then x else 0)) ?ls ?bw_size // [in RHS]big_mkcond /=; apply: eq_bigr => i _; by rewrite bw_nth.
have ws : \sum_g (tnth (in_tuple kp) g).2 * lam g = \sum_(i < size blocks) (nth 0 weights i * tau) ^+ 2 * nth 0 ll i.
  rewrite -(@sum_kept d (fun b x => b.2 * x)).
  rewrite -(@scatter_sum d (keep w0) (fun b x => b.2 * x)) //; last by move=> b; rewrite mulr0.
  by rewrite -/ll (@sum_zip_nth d (fun b x => b.2 * x)) ?ls ?bw_size //; apply: eq_bigr => i _; rewrite bw_nth.
have lam0 k : 0 <= nth 0 [seq lam g | g <- enum 'I_(size kp)] k.
  by apply: nth_all_ge0; apply/allP => x /mapP [g _ ->].
split=> //.
- by move=> i; apply: scatter_ge0.
- by move=> j; rewrite /primal bs.
- move=> i ib h; apply: scatter_drop; rewrite (nth_map (set0, 0)) ?bw_size //.
  by rewrite bw_nth // /keep /= leNgt h.
move=> lN; move: ro; rewrite /dual_obj.
have z k : nth 0 [seq bl.2 | bl <- zip bw l0 & keep w0 bl.1] k = 0.
  move: eI; rewrite lN => -[<-]; set s := map _ _; have : all (fun x => x == 0) s.
    apply/allP => x /mapP [[b y]]; rewrite mem_filter => /andP [_ /(map_f snd)] /= h ->.
    have : y \in nseq (size blocks) (0 : R) by move: h; rewrite -/(unzip2 _) => /mem_subseq; apply; exact: unzip2_zip_sub.
    by rewrite mem_nseq => /andP [].
  move=> /(all_nthP 0) h; case: (ltnP k (size s)) => ks; first by apply/eqP; exact: h.
  by rewrite nth_default.
have -> : \sum_j w0 j ^+ 2 / (1 + block_sum (fun g : 'I_(size kp) => (tnth (in_tuple kp) g).1) (fun g => nth 0 [seq bl.2 | bl <- zip bw l0 & keep w0 bl.1] g) j) = \sum_j w0 j ^+ 2.
  by apply: eq_bigr => j _; rewrite /block_sum big1 ?addr0 ?divr1 // => g _; rewrite z.
rewrite [X in _ <= _ + X -> _]big1 ?addr0; last by move=> g _; rewrite z mulr0.
by rewrite ws; under eq_bigr do rewrite bs.
Qed.
End Result.
