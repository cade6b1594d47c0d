(** Proofs about M_Dataset. *)
From Coq Require Import Reals String.
From mathcomp Require Import all_ssreflect all_algebra.
From Verif Require Import RStruct NP Str S_Mat RMx RTac M_Utils M_Fit P_Fit M_Ising S_Ising P_Ising7 T_Ising M_Poisson P_Poisson M_Dataset.
Import Order.TTheory GRing.Theory Num.Theory.

Set Implicit Arguments.
Unset Strict Implicit.
Unset Printing Implicit Defensive.
Local Open Scope ring_scope.

(** * labels *)

Lemma flat_nseq_size n s T : size (flatten [seq nseq n t | t <- iota s T]) = (T * n)%N.
Proof. by elim: T s => [|T IH] s //=; rewrite size_cat size_nseq IH mulSn. Qed.
Lemma np_repeat_size T n : size (np_repeat T n) = (T * n)%N.
Proof. exact: flat_nseq_size. Qed.

Lemma flat_nseq_nth n s T t i : (t < T)%N -> (i < n)%N ->
  nth 0%N (flatten [seq nseq n t | t <- iota s T]) (t * n + i) = (s + t)%N.
Proof.
elim: T s t => [|T IH] s t //=; case: t => [|t] tT iN; rewrite nth_cat size_nseq.
  by rewrite mul0n add0n iN nth_nseq iN addn0.
by rewrite mulSn -addnA ltnNge leq_addr /= addKn IH // addSnnS.
Qed.
Lemma np_repeat_nth T n t i : (t < T)%N -> (i < n)%N -> nth 0%N (np_repeat T n) (t * n + i) = t.
Proof. by move=> tT iN; rewrite flat_nseq_nth. Qed.

Lemma flat_size (A : Type) n (l : seq (seq A)) : (forall t, (t < size l)%N -> size (nth [::] l t) = n) ->
  size (flatten l) = (size l * n)%N.
Proof.
elim: l => [|a l IH] h //=; rewrite size_cat mulSn (h 0%N) // IH // => t tl; exact: (h t.+1).
Qed.
Lemma flat_nth (A : Type) (x0 : A) n (l : seq (seq A)) t i : (forall t, (t < size l)%N -> size (nth [::] l t) = n) ->
  (t < size l)%N -> (i < n)%N -> nth x0 (flatten l) (t * n + i) = nth x0 (nth [::] l t) i.
Proof.
elim: l t => [|a l IH] t //= h; rewrite nth_cat (h 0%N) //; case: t => [|t] tl iN; first by rewrite mul0n add0n iN.
rewrite mulSn -addnA ltnNge leq_addr /= addKn IH // => u ul; exact: (h u.+1).
Qed.

Lemma np_repeat_mem T n t : (0 < n)%N -> (t \in np_repeat T n) = (t < T)%N.
Proof.
move=> n0; apply/flattenP/idP => [[l /mapP [s]]|tT].
  by rewrite mem_iota add0n => /andP [_ sT] -> /nseqP [->].
by exists (nseq n t); [apply: map_f; rewrite mem_iota | rewrite mem_nseq n0 eqxx].
Qed.

Lemma np_repeat_unique T n : (0 < n)%N -> np_unique (np_repeat T n) = iota 0 T.
Proof.
move=> n0; apply: lt_sorted_eq; [exact: npu_sorted | exact: iota_ltn_sorted |].
by move=> t; rewrite npu_mem np_repeat_mem // mem_iota.
Qed.

Lemma rows_of_cat p (D D' : seq ('rV[R]_p * nat)) cl : rows_of (D ++ D') cl = rows_of D cl ++ rows_of D' cl.
Proof. by rewrite /rows_of filter_cat map_cat. Qed.

Lemma rows_of_const p (l : seq 'rV[R]_p) (s cl : nat) : rows_of (zip l (nseq (size l) s)) cl = if s == cl then l else [::].
Proof.
rewrite /rows_of; elim: l => [|x l IH] /=; first by case: ifP.
by move: IH; case: (s == cl) => /= ->.
Qed.

Lemma rows_repeat p n (l : seq (seq 'rV[R]_p)) s t : (forall t, (t < size l)%N -> size (nth [::] l t) = n) ->
  rows_of (zip (flatten l) (flatten [seq nseq n u | u <- iota s (size l)])) t =
  if (s <= t < s + size l)%N then nth [::] l (t - s) else [::].
Proof.
elim: l s => [|a l IH] s h /=; first by rewrite addn0; case: ltngtP.
have sa : size a = n by exact: (h 0%N).
rewrite zip_cat ?size_nseq // rows_of_cat -{1}sa rows_of_const IH; last by move=> u ul; exact: (h u.+1).
rewrite addnS; case: (ltngtP s t) => [st|ts|->] //=; last by rewrite subnn cats0 ltnS leq_addr.
by rewrite -addSn; case: ifP => // _; rewrite -[(t - s)%N]prednK ?subn_gt0 // subnS.
Qed.

(** what a data set with labels is: [T] blocks of [n] rows, in order *)
Definition labelled p T n (data : seq (seq 'rV[R]_p)) (X : seq 'rV[R]_p) (y : seq nat) :=
  [/\ size data = T, forall t, (t < T)%N -> size (nth [::] data t) = n, X = flatten data & y = np_repeat T n].

Lemma labelled_rows p T n data (X : seq 'rV[R]_p) y : labelled T n data X y ->
  [/\ size X = (T * n)%N /\ size y = (T * n)%N,
      forall t i, (t < T)%N -> (i < n)%N -> nth 0%N y (t * n + i) = t /\ nth 0 X (t * n + i) = nth 0 (nth [::] data t) i,
      forall t, (t < T)%N -> rows_of (zip X y) t = nth [::] data t &
      (0 < n)%N -> np_unique y = iota 0 T].
Proof.
case=> sz szn -> ->; rewrite -sz in szn *; split.
- by rewrite (flat_size szn) np_repeat_size.
- by move=> t i tT iN; rewrite np_repeat_nth // (flat_nth _ szn).
- by move=> t tT; rewrite rows_repeat //= add0n tT subn0.
- exact: np_repeat_unique.
Qed.

Lemma pack_ok p n axis flat data thetas latent (b : bunch p) : (forall t, (t < size data)%N -> size (nth [::] data t) = n) ->
  pack n axis flat data thetas latent = DOk b ->
  [/\ labelled (size data) n data (b_X b) (b_y b), b_thetas b = thetas, b_latent b = latent, (0 < size data)%N &
      b_data b = if axis == "last"%string then TimeLast (transpose120 n data) else TimeFirst data].
Proof.
move=> h; rewrite /pack; case E: (size data) => [|m] //; case: ifP => _.
  by case: flat => // -[<-] /=; split=> //; rewrite E in h *; split.
by case=> <-; split=> //; rewrite E in h *; split.
Qed.

Lemma gaussian_ok p n mode axis default gens mvn (b : bunch p) : gaussian_case n mode axis default gens mvn = DOk b ->
  exists thetas obs ells data, [/\ labelled (size obs) n data (b_X b) (b_y b), b_thetas b = thetas, b_latent b = Some (obs, ells),
    match mode with NoMode => default | Func v => v | Mode s => if s \in modes then mode_value gens s else IRaise IValueError end
      = IOk (Three thetas obs ells) &
    [/\ (0 < size obs)%N, forall A, A \in obs -> A \in unitmx,
        b_data b = if axis == "last"%string then TimeLast (transpose120 n data) else TimeFirst data &
        forall t i, (t < size obs)%N -> (i < n)%N -> nth 0 (nth [::] data t) i = mvn t (invmx (nth 0 obs t)) i]].
Proof.
rewrite /gaussian_case; case: (match mode with NoMode => _ | _ => _ end) => [[thetas obs ells|]|] //.
case: ifP => // /negbT /hasPn u; set data := [seq _ | t <- iota 0 _] => e.
have sd : size data = size obs by rewrite size_map size_iota size_map.
have rd t : (t < size obs)%N -> nth [::] data t = [seq mvn t (invmx (nth 0 obs t)) i | i <- iota 0 n].
  move=> tT; rewrite (nth_map 0%N) ?size_iota ?size_map // nth_iota ?size_map // add0n; apply: eq_map => i.
  by rewrite (nth_map 0).
have [|lb e1 e2 s0 e3] := pack_ok _ e.
  by move=> t; rewrite sd => tT; rewrite rd // size_map size_iota.
rewrite sd in lb s0; exists thetas, obs, ells, data; split=> //; split=> //.
  by move=> A /u; rewrite negbK.
by move=> t i tT iN; rewrite rd // (nth_map 0%N) ?size_iota // nth_iota.
Qed.

(** * Ising, Poisson *)

Lemma none_pvalues p : ([ffun=> minimum] : istate p) = pvalues (- 1, 1) minimum (free p).
Proof. by apply/ffunP => i; rewrite !ffunE. Qed.
Lemma minimum_lt : minimum < - 1.
Proof. by rewrite /minimum ltr_opp2 exprn_egt1 // ltr1n. Qed.

Lemma ising_samples_ok p n d t (thetas : seq 'M[R]_p) data ths : ising_samples n d t thetas = IOk (data, ths) ->
  [/\ size data = size thetas, forall s, (s < size thetas)%N -> size (nth [::] data s) = n,
      ths = [seq zero_diagonal A | A <- thetas],
      forall A, A \in thetas -> A = A^T /\ (0 < n)%N &
      forall rows x j, rows \in data -> x \in rows -> x 0 j = - 1 \/ x 0 j = 1].
Proof.
have st A (dr : draws p) s j :
  let: x := ising_metropolis_hastings (zero_diagonal A) (fun=> 0) 1 (- 1, 1) 100 ([ffun=> minimum] : istate p) (dr_unif dr s) in
  x j = - 1 \/ x j = 1.
  rewrite none_pvalues; have ne : forall r : R, r = - 1 \/ r = 1 -> r != minimum.
    move=> r h; rewrite gt_eqF //; apply: lt_le_trans minimum_lt _; case: h => ->; rewrite ?lexx //; mclra.
  have [] := @C44_states p (zero_diagonal A) (fun=> 0) 1 (- 1, 1) (free p) 100 (dr_unif dr s).
  - by apply: ne; left.
  - by apply: ne; right.
  - by move=> h _; exact: h.
elim: thetas t data ths => [|A r IH] t data ths /=; first by case=> <- <-; split.
rewrite /ising_sampler; case: (eqVneq A A^T) => [sy|] //=.
have fin m (rows0 : seq (istate p)) : (forall z, z \in rows0 -> forall j, z j = - 1 \/ z j = 1) -> size rows0 = n -> (0 < n)%N ->
  match ising_samples m d t.+1 r with
  | IRaise e => IRaise e
  | IOk (data, ths) => IOk ([seq \row_j x j | x : istate p <- rows0] :: data, zero_diagonal A :: ths)
  end = IOk (data, ths) -> m = n -> 
  [/\ size data = (size r).+1, forall s, (s < (size r).+1)%N -> size (nth [::] data s) = n,
      ths = zero_diagonal A :: [seq zero_diagonal A0 | A0 <- r],
      forall A0, A0 \in A :: r -> A0 = A0^T /\ (0 < n)%N &
      forall rows x j, rows \in data -> x \in rows -> x 0 j = - 1 \/ x 0 j = 1].
  move=> h0 sz n0; case E: ising_samples => [[dt tt]|] // -[<- <-] mn; rewrite mn in E.
  have [s1 s2 s3 s4 s5] := IH _ _ _ E; split.
  - by rewrite /= s1.
  - by case=> [|s] /= sl; [rewrite size_map | exact: s2].
  - by rewrite s3.
  - by move=> B; rewrite inE => /orP [/eqP -> //|/s4].
  move=> rows x j; rewrite inE => /orP [/eqP -> /mapP [z zr ->]|/s5 h /h //]; rewrite mxE; exact: h0.
case: n fin {IH} => [|[|n]] fin // e; apply: fin e _ => //.
- by move=> z; rewrite inE => /eqP -> j; exact: st.
- by move=> z /mapP [s _ ->] j; exact: st.
- by rewrite size_map size_iota.
Qed.

Lemma ising_ok p n axis thetas d (b : bunch p) : ising_case n axis thetas d = DOk b ->
  exists ths data, [/\ thetas = IOk ths, labelled (size ths) n data (b_X b) (b_y b),
    b_thetas b = [seq zero_diagonal A | A <- ths], (0 < size ths)%N /\ (0 < n)%N &
    b_data b = (if axis == "last"%string then TimeLast (transpose120 n data) else TimeFirst data) /\
    forall x j, x \in b_X b -> x 0 j = - 1 \/ x 0 j = 1].
Proof.
rewrite /ising_case; case: thetas => // ths; case E: ising_samples => [[data tt]|] // e.
have [s1 s2 s3 s4 s5] := ising_samples_ok E.
have [|lb e1 e2 s0 e3] := pack_ok _ e; first by rewrite s1.
exists ths, data; rewrite s1 in lb s0; split=> //; [by rewrite e1 | |].
  by split=> //; case: ths s0 s4 {E s1 s2 s3 lb} => // A r _ h; have [] := h A (mem_head _ _).
by split=> // x j; case: lb => _ _ -> _ /flattenP [rows]; exact: s5.
Qed.

Lemma poisson_samples_ok p n pois noise t (thetas : seq 'M[R]_p) data : poisson_samples n pois noise t thetas = IOk data ->
  size data = size thetas /\ forall s, (s < size thetas)%N -> size (nth [::] data s) = n.
Proof.
elim: thetas t data => [|A r IH] t data /=; first by case=> <-.
case: lpgm_sampler => // X; case E: poisson_samples => [dt|] // [<-]; have [s1 s2] := IH _ _ E; split; first by rewrite /= s1.
by case=> [|s] //=; [rewrite size_map size_iota | exact: s2].
Qed.

Lemma poisson_ok p n axis thetas pois noise (b : bunch p) : poisson_case n axis thetas pois noise = DOk b ->
  exists ths data, [/\ thetas = IOk ths, labelled (size ths) n data (b_X b) (b_y b), b_thetas b = ths, (0 < size ths)%N &
    b_data b = (if axis == "last"%string then TimeLast (transpose120 n data) else TimeFirst data)].
Proof.
rewrite /poisson_case; case: thetas => // ths; case E: poisson_samples => [data|] // e.
have [s1 s2] := poisson_samples_ok E; have [|lb e1 e2 s0 e3] := pack_ok _ e; first by rewrite s1.
by exists ths, data; rewrite s1 in lb s0; split.
Qed.

(** * classes *)

Lemma rewriteE p (pos : seq ('I_p * 'I_p)) i turns draws (K K' : 'M[R]_p) : rewrite_edge pos i turns draws K = IOk K' ->
  K' = K \/ (i < size pos)%N /\ exists x, K' = set_sym K (nth x pos i).1 (nth x pos i).2 (draws turns.-1)%:R.
Proof.
rewrite /rewrite_edge; case: turns => [|m] /=; first by case=> ->; left.
case: (ltnP i (size pos)) => h; last first.
  rewrite (drop_oversize h) /=; elim: (iota 1 m) => [|k l IH] //=; exact: IH.
have [x dr] : exists x : 'I_p * 'I_p, drop i pos = x :: drop i.+1 pos.
  by case E: pos h => [|x q] // h; exists (nth x (x :: q) i); rewrite -drop_nth.
have nx y : nth y pos i = x by rewrite -[i]addn0 -nth_drop dr.
rewrite dr /=; case: x {dr} nx => r c nx e; right; split=> //; exists (r, c); rewrite nx /=.
have tw (L : 'M[R]_p) u v : set_sym (set_sym L r c u) r c v = set_sym L r c v.
  by apply/matrixP=> a b; rewrite !set_symE; case: (_ || _).
suff h0 l k0 : foldl (fun (acc : ires 'M[R]_p) k => match acc with IOk K => IOk (set_sym K r c (draws k)%:R) | _ => acc end)
    (IOk (set_sym K r c (draws k0)%:R)) l = IOk (set_sym K r c (draws (last k0 l))%:R).
  by move: e; rewrite h0 => -[<-]; congr (set_sym _ _ _ (draws _)%:R); rewrite (last_nth 0%N) size_iota -[0%N :: _]/(iota 0 m.+1) nth_iota.
by elim: l k0 => [|k l IH] k0 //=; rewrite tw IH.
Qed.

Lemma rewrite_sym p (pos : seq ('I_p * 'I_p)) i turns draws (K K' : 'M[R]_p) : K = K^T ->
  rewrite_edge pos i turns draws K = IOk K' -> K' = K'^T.
Proof. by move=> s /rewriteE [-> //|[_ [x ->]]]; exact: set_sym_sym. Qed.

Lemma positions_mem p (f : 'I_p -> 'I_p -> bool) i x : (i < size (positions f))%N ->
  f (nth x (positions f) i).1 (nth x (positions f) i).2.
Proof. by move=> /(mem_nth x); rewrite mem_filter => /andP []. Qed.

Lemma new_class_sym p (B : 'M[R]_p) i add remove K : B = B^T -> new_class B i add remove = IOk K -> K = K^T.
Proof. by move=> s; rewrite /new_class; case E: rewrite_edge => [A|] //; apply: rewrite_sym; exact: rewrite_sym E. Qed.

(** a class differs from the first graph in one absent and one present position *)
Lemma new_class_changes p (B : 'M[R]_p) i add remove K : (0 < p)%N -> B = B^T -> new_class B i add remove = IOk K ->
  exists r c r' c', forall a b, K a b != B a b ->
    (B a b = 0 /\ ((a, b) = (r, c) \/ (a, b) = (c, r))) \/ (B a b != 0 /\ ((a, b) = (r', c') \/ (a, b) = (c', r'))).
Proof.
move=> p0 sB; rewrite /new_class; case E: rewrite_edge => [A|] // E'.
pose o := Ordinal p0.
have fr (f : 'I_p -> 'I_p -> bool) turns dr (L L' : 'M[R]_p) : rewrite_edge (positions f) i turns dr L = IOk L' -> (forall a b, f a b = f b a) ->
    exists r c, forall a b, L' a b != L a b -> f a b /\ ((a, b) = (r, c) \/ (a, b) = (c, r)).
  move=> + fs => /rewriteE [->|[h [x ->]]]; first by exists o, o => a b; rewrite eqxx.
  have := positions_mem x h; case: (nth x _ i) => r c /= frc; exists r, c => a b; rewrite set_symE.
  case: ifP => [/orP [] /andP [/eqP -> /eqP ->] _|]; last by rewrite eqxx.
    by split=> //; left.
  by rewrite fs; split=> //; right.
have BB a b : B a b = B b a by rewrite {1}sB mxE.
have [r [c h1]] : exists r c, forall a b, A a b != B a b -> B a b == 0 /\ ((a, b) = (r, c) \/ (a, b) = (c, r)).
  by apply: fr E _ => a b; rewrite BB.
have [r' [c' h2]] : exists r c, forall a b, K a b != A a b -> B a b != 0 /\ ((a, b) = (r, c) \/ (a, b) = (c, r)).
  by apply: fr E' _ => a b; rewrite BB.
exists r, c, r', c' => a b ne; case: (eqVneq (A a b) (B a b)) => e.
  by right; apply: h2; rewrite e.
by have [/eqP z q] := h1 _ _ e; left.
Qed.

Lemma binaries_ok p (B : 'M[R]_p) nc add remove l : class_binaries B nc add remove = IOk l ->
  [/\ size l = maxn 1 nc, nth 0 l 0 = B &
      forall i, (i.+1 < size l)%N -> new_class B i (add i) (remove i) = IOk (nth 0 l i.+1)].
Proof.
rewrite /class_binaries; set F := (fun acc i => _) => e.
have run : forall m l, foldl F (IOk [:: B]) (iota 0 m) = IOk l -> [/\ size l = m.+1, nth 0 l 0 = B &
      forall i, (i < m)%N -> new_class B i (add i) (remove i) = IOk (nth 0 l i.+1)].
  elim=> [|m IH] l'; first by case=> <-.
  rewrite -addn1 iotaD foldl_cat /= add0n; case E: (foldl F _ _) => [l0|] //; rewrite {1}/F.
  have [sz z h] := IH _ E; case K: new_class => [A|] // -[<-]; split.
  - by rewrite size_rcons sz addn1.
  - by rewrite nth_rcons sz.
  - move=> i; rewrite addn1 ltnS leq_eqVlt => /orP [/eqP ->|im]; rewrite nth_rcons sz ltnS.
      by rewrite ltnn eqxx.
    by rewrite im h.
have [sz z h] := run _ _ e; have szE : size l = maxn 1 nc by rewrite sz; case: (nc) => [|[|]].
by split=> // i; rewrite sz ltnS; exact: h.
Qed.

Lemma zeros_head q (B : 'M[R]_q.+1) : B ord0 ord0 = 0 -> exists r, zeros B = (ord0, ord0) :: r.
Proof.
move=> z; rewrite /zeros /positions; have [r ->] : exists r, [seq (i, j) | i <- enum 'I_q.+1, j <- enum 'I_q.+1] = (ord0, ord0) :: r.
  by rewrite enum_ordSl /=; eexists.
by rewrite /= z eqxx; eexists.
Qed.

(** the first new class: position 0 among the zeros is the loop at the first vertex *)
Lemma first_class q (B : 'M[R]_q.+1) add remove K : B = B^T -> B ord0 ord0 = 0 -> new_class B 0 add remove = IOk K ->
  (forall a b, a != b -> K a b != 0 -> B a b != 0) /\
  ((10 <= size (zeros B))%N -> K ord0 ord0 = (add (size (zeros B) %/ 10).-1)%:R).
Proof.
move=> sB z; have [r zE] := zeros_head z; rewrite /new_class; case E: rewrite_edge => [A|] // E'.
have nzE : A ord0 ord0 = K ord0 ord0 /\ forall a b, K a b != 0 -> A a b != 0 \/ B a b != 0.
  case: (rewriteE E') => [->|[h [x ->]]]; first by split=> // a b; left.
  have := positions_mem x h; rewrite -/(nonzero B); case: (nth x _ 0) => u v /= uv; split.
    rewrite set_symE; case: ifP => // /orP [] /andP [/eqP eu /eqP ev]; move: uv; rewrite -eu -ev z ?eqxx //.
  move=> a b; rewrite set_symE; case: ifP => [|_ ?]; last by left.
  by move=> /orP [] /andP [/eqP -> /eqP ->] _; right=> //; rewrite sB mxE.
case: nzE => <- nz; split.
  move=> a b ab /nz [|//]; case: (rewriteE E) => [-> //|[h [x ->]]].
  rewrite zE /= set_symE; case: ifP => // /orP [] /andP [/eqP ea /eqP eb]; by move: ab; rewrite ea eb eqxx.
move=> big; move: E; rewrite /rewrite_edge.
have : (0 < size (zeros B) %/ 10)%N by rewrite divn_gt0.
case: (size (zeros B) %/ 10)%N => // m _; rewrite zE drop0 /=.
set F := (fun acc k => _).
have h0 l k0 : foldl F (IOk (set_sym B ord0 ord0 (add k0)%:R)) l = IOk (set_sym B ord0 ord0 (add (last k0 l))%:R).
  elim: l k0 => [|k l IH] k0 //=; rewrite -[RHS]IH; congr (foldl F (IOk _) l); apply/matrixP => a b.
  by rewrite !set_symE; case: (_ || _).
by rewrite h0 => -[<-]; rewrite set_symE !eqxx /= (last_nth 0%N) size_iota -[0%N :: _]/(iota 0 m.+1) nth_iota.
Qed.

(** * weights *)

Lemma gaussian_weights_ok p (U : 'M[R]_p) i j : (forall i j, 0 <= U i j < 1) ->
  gaussian_weights U i j = gaussian_weights U j i /\ `|gaussian_weights U i j| <= 1 / 2%:R.
Proof.
move=> h; rewrite !mxE; split; first by rewrite addrC.
rewrite ler_norml; have num (x y : R) : 0 <= y < 1 -> 0 <= x < 1 -> - (1 / 2%:R) <= 2%:R^-1 * (x - 2%:R^-1 + (y - 2%:R^-1)) <= 1 / 2%:R.
  by move=> /andP [a b] /andP [c d]; apply/andP; split; mclra.
by exact: num.
Qed.

Lemma weightedE p (A B : 'M[R]_p) : (forall i j, A i j = A j i) -> B = B^T ->
  [/\ weighted A B = (weighted A B)^T, forall i, weighted A B i i = 1 &
      forall i j, i != j -> weighted A B i j = if B i j == 0 then 0 else A i j].
Proof.
move=> sA sB; have BB a b : B a b = B b a by rewrite {1}sB mxE.
split.
- by apply/matrixP=> i j; rewrite [RHS]mxE !mxE eq_sym sA BB.
- by move=> i; rewrite mxE eqxx.
- by move=> i j ij; rewrite mxE (negbTE ij); case: eqP => // ->.
Qed.

Lemma set_sym_mem p (B : 'M[R]_p) r c (x : bool) : (forall i j, B i j = 0 \/ B i j = 1) ->
  forall i j, set_sym B r c x%:R i j = 0 \/ set_sym B r c x%:R i j = 1.
Proof. by move=> h i j; rewrite set_symE; case: ifP => // _; case: x; [right|left]. Qed.

Lemma new_class_01 p (B : 'M[R]_p) i add remove K : (forall i j, B i j = 0 \/ B i j = 1) -> new_class B i add remove = IOk K ->
  forall a b, K a b = 0 \/ K a b = 1.
Proof.
move=> h; rewrite /new_class; case E: rewrite_edge => [A|] // E'.
have hA a b : A a b = 0 \/ A a b = 1 by case: (rewriteE E) => [-> //|[_ [x ->]]]; exact: set_sym_mem.
by move=> a b; case: (rewriteE E') => [-> //|[_ [x ->]]]; exact: set_sym_mem.
Qed.

Lemma class_bunch_ok p n nc data thetas (b : bunch p) : (forall t, (t < size data)%N -> size (nth [::] data t) = n) ->
  size data = nc -> class_bunch n nc data thetas = DOk b ->
  [/\ labelled nc n data (b_X b) (b_y b), b_data b = TimeFirst data & b_thetas b = thetas].
Proof. by move=> h e; rewrite /class_bunch; case E: (size data) => [|m] // [<-] /=; split=> //; rewrite e in h; split. Qed.

Lemma class_gaussian_ok p n nc nets mvn (b : bunch p) : size nets = nc -> class_gaussian n nc nets mvn = DOk b ->
  exists data, [/\ labelled nc n data (b_X b) (b_y b), b_thetas b = nets, forall A, A \in nets -> A \in unitmx &
    forall t i, (t < nc)%N -> (i < n)%N -> nth 0 (nth [::] data t) i = mvn t (invmx (nth 0 nets t)) i].
Proof.
move=> sn; rewrite /class_gaussian; case: ifP => // /negbT /hasPn u; set data := [seq _ | t <- _] => e.
have rd t : (t < nc)%N -> nth [::] data t = [seq mvn t (invmx (nth 0 nets t)) i | i <- iota 0 n].
  by move=> tT; rewrite (nth_map 0%N) ?size_iota ?sn // nth_iota ?sn.
have sd : size data = nc by rewrite size_map size_iota.
have [|//|lb _ eb] := class_bunch_ok _ _ e; first by move=> t; rewrite sd => tT; rewrite rd // size_map size_iota.
exists data; split=> //; first by move=> A /u; rewrite negbK.
by move=> t i tT iN; rewrite rd // (nth_map 0%N) ?size_iota // nth_iota.
Qed.

Lemma class_ising_ok p n nc nets d (b : bunch p) : size nets = nc -> class_ising n nc nets d = DOk b ->
  exists data, [/\ labelled nc n data (b_X b) (b_y b), b_thetas b = [seq zero_diagonal A | A <- nets] &
    forall x j, x \in b_X b -> x 0 j = - 1 \/ x 0 j = 1].
Proof.
move=> sn; rewrite /class_ising; case E: ising_samples => [[data tt]|] // e.
have [s1 s2 s3 s4 s5] := ising_samples_ok E.
have [||lb _ eb] := class_bunch_ok _ _ e; [by rewrite s1 | by rewrite s1 |].
exists data; split=> //; first by rewrite eb s3.
by move=> x j; case: lb => _ _ -> _ /flattenP [rows]; exact: s5.
Qed.

Lemma class_poisson_ok p n nc nets pois noise (b : bunch p) : size nets = nc -> class_poisson n nc nets pois noise = DOk b ->
  exists data, labelled nc n data (b_X b) (b_y b) /\ b_thetas b = nets.
Proof.
move=> sn; rewrite /class_poisson; case E: poisson_samples => [data|] // e; have [s1 s2] := poisson_samples_ok E.
have [||lb _ eb] := class_bunch_ok _ _ e; [by rewrite s1 | by rewrite s1 |].
by exists data.
Qed.
