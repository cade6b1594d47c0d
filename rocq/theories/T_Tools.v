(** Property theorems C150: retain_top_n. *)
From Coq Require Import Reals.
From mathcomp Require Import all_ssreflect all_algebra.
From Verif Require Import RStruct RTac NP M_Utils M_Tools.
Import Order.TTheory GRing.Theory Num.Theory.

Set Implicit Arguments.
Unset Strict Implicit.
Unset Printing Implicit Defensive.
Local Open Scope ring_scope.

(** what argpartition promises: all positions once, those before the k-th have smaller or equal values, those after it larger or equal ones *)
Definition partitions (argpartition : seq R -> nat -> seq nat) : Prop := forall v k, (k < size v)%N ->
  perm_eq (argpartition v k) (iota 0 (size v)) /\
  forall i, (i < size v)%N ->
    ((i <= k)%N -> nth 0 v (nth 0%N (argpartition v k) i) <= nth 0 v (nth 0%N (argpartition v k) k)) /\
    ((k <= i)%N -> nth 0 v (nth 0%N (argpartition v k) k) <= nth 0 v (nth 0%N (argpartition v k) i)).

Lemma sum_flat (V : Type) (idx : V) (op : Monoid.law idx) (F : nat -> nat -> V) h w :
  \big[op/idx]_(i < h) \big[op/idx]_(j < w) F i j = \big[op/idx]_(p < h * w) F (p %/ w)%N (p %% w)%N.
Proof.
case: w => [|w].
  by rewrite muln0 big_ord0 big1 // => i _; rewrite big_ord0.
rewrite -(big_mkord xpredT (fun i => \big[op/idx]_(j < w.+1) F i j)) -(big_mkord xpredT (fun p => F (p %/ w.+1)%N (p %% w.+1)%N)).
elim: h => [|h IH]; first by rewrite !big_geq.
rewrite big_nat_recr //= IH mulSn addnC [RHS](@big_cat_nat _ _ _ (h * w.+1)%N) //= ?leq_addr //; congr (op _ _).
rewrite -{1}[(h * w.+1)%N]add0n big_addn addnC addnK big_mkord; apply: eq_bigr => j _.
by rewrite addnC divnMDl // divn_small // addn0 modnMDl modn_small.
Qed.

Lemma foldl_put (A : grid) idxs m i j :
  foldl (fun mask_array idx => put mask_array idx (A idx.1 idx.2)) m idxs i j = if (i, j) \in idxs then A i j else m i j.
Proof.
elim: idxs m => [|[a b] l IH] m //=; rewrite IH inE /put /= xpair_eqE; case: (_ \in l); rewrite ?orbT ?orbF //.
by case: andP => // -[/eqP -> /eqP ->].
Qed.

Lemma count_kept (K : seq nat) N : uniq K -> (forall p, p \in K -> (p < N)%N) -> (\sum_(p < N) (nat_of_ord p \in K) = size K)%N.
Proof.
move=> uK sub; rewrite -(big_mkord xpredT (fun p => nat_of_bool (p \in K))).
transitivity (count (mem K) (index_iota 0 N)).
  by rewrite -sum1_count [RHS]big_mkcond; apply: eq_bigr => p _ /=; case: (p \in K).
rewrite -size_filter; apply: perm_size; apply: uniq_perm => //; first by rewrite filter_uniq // iota_uniq.
by move=> p; rewrite mem_filter mem_index_iota /=; case pK: (p \in K) => //=; rewrite sub.
Qed.

(** the kept flat positions *)
Lemma retain_flat argp h w (A : grid) n : partitions argp -> (0 < n)%N -> (n <= h * w)%N ->
  exists K (t : R) Rr, retain_top_n argp h w A n = Val Rr /\ uniq K /\ size K = n /\
    (forall p, p \in K -> (p < h * w)%N) /\
    (forall p, (p < h * w)%N -> Rr (p %/ w)%N (p %% w)%N = if p \in K then A (p %/ w)%N (p %% w)%N else 0) /\
    (forall p, (p < h * w)%N -> if p \in K then t <= `|A (p %/ w)%N (p %% w)%N| else `|A (p %/ w)%N (p %% w)%N| <= t) /\ 0 <= t.
Proof.
move=> hp n0 nh; rewrite /retain_top_n /top_n_indexes -[(n == 0)%N]negbK -lt0n n0 ltnNge nh /=.
set flat := [seq `|A (p %/ w)%N (p %% w)%N| | p <- iota 0 (h * w)]; have sf : size flat = (h * w)%N by rewrite size_map size_iota.
have kf : (size flat - n < size flat)%N by rewrite sf -[X in (_ < X)%N](subnKC nh) addnC -{1}[(_ - _)%N]addn0 ltn_add2l.
have [pi hv] := hp _ _ kf; set P := argp _ _ in pi hv *.
have sP : size P = (h * w)%N by rewrite (perm_size pi) size_iota.
have uP : uniq P by rewrite (perm_uniq pi) iota_uniq.
have mP p : (p \in P) = (p < h * w)%N by rewrite (perm_mem pi) mem_iota sf.
have vf p : (p < h * w)%N -> nth 0 flat p = `|A (p %/ w)%N (p %% w)%N|.
  by move=> ph; rewrite (nth_map 0%N) ?size_iota // nth_iota.
set k := (size flat - n)%N in hv kf *; set K := drop (size P - n) P; have ek : (size P - n)%N = k by rewrite sP /k sf.
have kP : (k < size P)%N by rewrite sP -sf.
exists K, (nth 0 flat (nth 0%N P k)), (foldl (fun m idx => put m idx (A idx.1 idx.2)) (fun _ _ => 0) [seq (i %/ w, i %% w)%N | i <- K]).
split=> //; split; first exact: drop_uniq.
split; first by rewrite size_drop sP subKn.
have sub p : p \in K -> (p < h * w)%N by rewrite -mP; exact: mem_drop.
split=> //; split.
  move=> p ph; rewrite foldl_put; congr (if _ then _ else _); apply/mapP/idP => [[q qK [e1 e2]]|pK]; last by exists p.
  by rewrite (divn_eq p w) e1 e2 -divn_eq.
split; last first.
  have : (nth 0%N P k < h * w)%N by rewrite -mP mem_nth.
  by move=> /vf ->; rewrite normr_ge0.
move=> p ph; rewrite -vf //; have pP : p \in P by rewrite mP.
have ip : (index p P < size P)%N by rewrite index_mem.
have ip' : (index p P < size flat)%N by rewrite sf -sP.
have [h1 h2] := hv _ ip'; rewrite nth_index // in h1 h2.
have -> : (p \in K) = (k <= index p P)%N.
  rewrite /K ek; apply/idP/idP => [pK|kp]; last by rewrite -(nth_index 0%N pP) -(subnKC kp) -nth_drop mem_nth // size_drop ltn_sub2r.
  rewrite leqNgt; apply/negP => lt'; have : p \in take k P by rewrite -(nth_index 0%N pP) -(nth_take _ lt') mem_nth // size_take kP.
  by have := uP; rewrite -{1}(cat_take_drop k P) cat_uniq => /and3P[_ /hasPn /(_ p pK) /= /negP].
by case: leqP => [/h2|/ltnW /h1].
Qed.

(** exactly n entries are retained, the others are 0, and no entry that is discarded is larger than one that is retained *)
Theorem C150_retained : forall argpartition h w (A : grid) n, partitions argpartition -> (0 < n)%N -> (n <= h * w)%N ->
  exists (keep : nat -> nat -> bool) Rr, retain_top_n argpartition h w A n = Val Rr /\
    (\sum_(i < h) \sum_(j < w) keep i j = n)%N /\
    (forall i j, (i < h)%N -> (j < w)%N -> Rr i j = if keep i j then A i j else 0) /\
    (forall i j i' j', (i < h)%N -> (j < w)%N -> (i' < h)%N -> (j' < w)%N -> keep i j -> ~~ keep i' j' -> `|A i' j'| <= `|A i j|).
Proof.
move=> argp h w A n hp n0 nh; have [K [t [Rr [-> [uK [sK [sub [hR [ht _]]]]]]]]] := retain_flat A hp n0 nh.
have fl i j : (i < h)%N -> (j < w)%N -> [/\ (i * w + j < h * w)%N, ((i * w + j) %/ w = i)%N & ((i * w + j) %% w = j)%N].
  move=> ih jw; have w0 : (0 < w)%N by apply: leq_trans jw.
  rewrite divnMDl // divn_small // addn0 modnMDl modn_small //; split=> //.
  by apply: leq_trans (_ : i.+1 * w <= _)%N; rewrite ?leq_mul2r ?ih ?orbT // mulSn addnC ltn_add2r.
exists (fun i j => (i * w + j)%N \in K), Rr; split=> //; split; [|split].
- rewrite (sum_flat [law of addn] (fun i j => nat_of_bool ((i * w + j)%N \in K))) /=.
  under eq_bigr => p _ do rewrite -divn_eq.
  by rewrite count_kept.
- by move=> i j ih jw; have [f1 f2 f3] := fl _ _ ih jw; have := hR _ f1; rewrite f2 f3.
- move=> i j i' j' ih jw ih' jw' k1 /negbTE k2; have [f1 f2 f3] := fl _ _ ih jw; have [g1 g2 g3] := fl _ _ ih' jw'.
  have := ht _ f1; have := ht _ g1; rewrite f2 f3 g2 g3 k1 k2; exact: le_trans.
Qed.
Print Assumptions C150_retained.

(** the result is a best approximation in the Frobenius norm by a matrix with at most n nonzero entries *)
Theorem C150_best : forall argpartition h w (A : grid) n Rr, partitions argpartition -> retain_top_n argpartition h w A n = Val Rr ->
  forall B : grid, (\sum_(i < h) \sum_(j < w) (B i j != 0%R) <= n)%N ->
  \sum_(i < h) \sum_(j < w) (A i j - Rr i j) ^+ 2 <= \sum_(i < h) \sum_(j < w) (A i j - B i j) ^+ 2.
Proof.
move=> argp h w A n Rr hp e B; have [n0 nh] : (0 < n)%N /\ (n <= h * w)%N.
  by move: e; rewrite /retain_top_n /top_n_indexes; case: posnP => //= n0; case: ltnP.
have [K [t [Rr' []]]] := retain_flat A hp n0 nh; rewrite e => -[<-] [uK [sK [sub [hR [ht t0]]]]].
rewrite (sum_flat [law of addn] (fun i j => nat_of_bool (B i j != 0))) /=.
rewrite (sum_flat [law of +%R] (fun i j => (A i j - Rr i j) ^+ 2)) (sum_flat [law of +%R] (fun i j => (A i j - B i j) ^+ 2)) /= => cB.
pose a p := A (p %/ w)%N (p %% w)%N; pose b p := B (p %/ w)%N (p %% w)%N.
rewrite -/(a _) -/(b _).
have cK : (\sum_(p < h * w) (nat_of_ord p \in K))%N = n by rewrite count_kept.
have term (p : 'I_(h * w)) : (a p - Rr (p %/ w)%N (p %% w)%N) ^+ 2 + t ^+ 2 * (nat_of_ord p \in K)%:R <= (a p - b p) ^+ 2 + t ^+ 2 * (b p != 0)%:R.
  have ph := ltn_ord p; rewrite hR // -/(a p); have := ht _ ph; rewrite -/(a p).
  have sq1 (x : R) : t <= `|x| -> t ^+ 2 <= x ^+ 2 by move=> h1; rewrite -(real_normK (num_real x)) ler_expn2r // nnegrE.
  have sq2 (x : R) : `|x| <= t -> x ^+ 2 <= t ^+ 2 by move=> h1; rewrite -(real_normK (num_real x)) ler_expn2r // nnegrE.
  case: (nat_of_ord p \in K) => h'; case: eqP => [->|_] /=; rewrite ?subrr ?subr0 ?mulr1 ?mulr0 ?expr0n /= ?addr0 ?add0r.
  - exact: sq1.
  - by rewrite ler_addr sqr_ge0.
  - by [].
  - by apply: le_trans (sq2 _ h') _; rewrite ler_addr sqr_ge0.
have := ler_sum (index_enum _) (fun p (_ : true) => term p); rewrite !big_split /= -!mulr_sumr -!natr_sum cK.
have : t ^+ 2 * (\sum_(p < h * w) (b p != 0%R))%:R <= t ^+ 2 * n%:R by rewrite ler_wpmul2l ?sqr_ge0 // ler_nat.
have num (x y z u : R) : z <= u -> x + u <= y + z -> x <= y by move=> h1 h2; mclra.
exact: num.
Qed.
Print Assumptions C150_best.

(** no entry, or more entries than there are *)
Theorem C150_raises : forall argpartition h w (A : grid) n, n = 0%N \/ (h * w < n)%N -> retain_top_n argpartition h w A n = Raise ValueError.
Proof. by move=> argp h w A n [->|hn] //; rewrite /retain_top_n /top_n_indexes hn orbT. Qed.
Print Assumptions C150_raises.

(** sorting is such a partition *)
Definition argsort (v : seq R) (k : nat) : seq nat := sort (fun i j => nth 0 v i <= nth 0 v j) (iota 0 (size v)).
Lemma argsort_ok : partitions argsort.
Proof.
move=> v k kv; split; first by rewrite perm_sort.
pose r i j := nth 0 v i <= nth 0 v j; have tr : transitive r by move=> y x z; exact: le_trans.
have so : sorted r (argsort v k) by apply: sort_sorted => i j; exact: le_total.
have sz : size (argsort v k) = size v by rewrite size_sort size_iota.
have mono i j : (i <= j)%N -> (j < size v)%N -> r (nth 0%N (argsort v k) i) (nth 0%N (argsort v k) j).
  move=> ij js; apply: (sorted_leq_nth tr (fun x => lexx _) 0%N so) => //; rewrite inE sz //.
  exact: leq_ltn_trans ij js.
by move=> i iv; split=> h; apply: mono.
Qed.
Example C150_case : exists Rr, retain_top_n argsort 2 2 (fun i j => if i == j then 3%:R else - 1) 2 = Val Rr /\ Rr 0%N 0%N = 3%:R /\ Rr 0%N 1%N = 0.
Proof.
have [keep [Rr [-> [ck [hR hk]]]]] := @C150_retained argsort 2 2 (fun i j => if i == j then 3%:R else - 1) 2 argsort_ok isT isT.
exists Rr; split=> //; rewrite !hR //=; move: ck; rewrite !big_ord_recr !big_ord0 /= !add0n => ck.
have n31 : `|3%:R : R| <= `|- 1 : R| -> False by rewrite normrN normr1 normr_nat lern1.
have h1 := hk 0%N 1%N 0%N 0%N; have h2 := hk 0%N 1%N 1%N 1%N; have h3 := hk 1%N 0%N 0%N 0%N; have h4 := hk 1%N 0%N 1%N 1%N.
move: ck h1 h2 h3 h4 => /=; case: (keep 0%N 0%N); case: (keep 0%N 1%N); case: (keep 1%N 0%N); case: (keep 1%N 1%N) => //= _ g1 g2 g3 g4; exfalso.
all: by [apply: n31; apply: g1|apply: n31; apply: g2|apply: n31; apply: g3|apply: n31; apply: g4].
Qed.
