(** Coupling from the past: brackets, coalescence, the law of what is returned. *)
From Coq Require Import Reals.
From mathcomp Require Import all_ssreflect all_algebra.
From Verif Require Import RStruct RTac S_Prob P_Prob S_Ising M_Ising P_Ising P_Ising2 P_Ising3.
Import Order.TTheory GRing.Theory Num.Theory.

Set Implicit Arguments.
Unset Strict Implicit.
Unset Printing Implicit Defensive.
Local Open Scope ring_scope.

Lemma exp_le (x y : R) : x <= y -> exp x <= exp y.
Proof.
move/RleP => [h|->]; last exact: lexx.
by apply/RleP; left; apply: exp_increasing.
Qed.

Section CFTP.
Variable p : nat.
Variables (theta : 'M[R]_p) (thr : 'I_p -> R) (beta : R) (r : R * R).
Local Notation config := (config p).
Local Notation pconfig := (pconfig p).
Local Notation pp := (pp theta thr beta r).
Local Notation pv := (pvalues r minimum).
Hypotheses (m0 : r.1 != minimum) (m1 : r.2 != minimum).

Lemma known (d : pconfig) j : (pv d j != minimum) = (d j != None).
Proof. by rewrite ffunE; case: (d j) => [[]|] /=; rewrite ?m0 ?m1 ?eqxx. Qed.

Definition up2 (i j : 'I_p) : bool := (theta i j * r.2 * r.1 < theta i j * r.2 * r.2)%R.
Definition lo (i : 'I_p) (d : pconfig) : config := [ffun j => odflt (~~ up2 i j) (d j)].
Definition hi (i : 'I_p) (d : pconfig) : config := [ffun j => odflt (up2 i j) (d j)].

Lemma minmaxE i d : p_plus_minmax theta thr beta r i (pv d) = (pp i (lo i d), pp i (hi i d)).
Proof.
rewrite /p_plus_minmax /pp /p_plus /p_plus_H.
have E l A B C D : foldl (minmax_step theta r i (pv d)) (A, B, C, D) l =
  (foldl (fun H j => if i == j then H else H + theta i j * r.1 * values r (lo i d) j) A l,
   foldl (fun H j => if i == j then H else H + theta i j * r.1 * values r (hi i d) j) B l,
   foldl (fun H j => if i == j then H else H + theta i j * r.2 * values r (lo i d) j) C l,
   foldl (fun H j => if i == j then H else H + theta i j * r.2 * values r (hi i d) j) D l).
  elim: l A B C D => [|j l IH] A B C D //.
  rewrite [foldl _ _ _]/= -IH; congr (foldl _ _ _); rewrite /minmax_step known.
  case: (i == j) => //; rewrite !ffunE.
  case: (d j) => [b|] //=; rewrite /up2 /response.
  by case: (_ < _).
by rewrite E.
Qed.

Section Bracket.
Hypotheses (b0 : 0 <= beta) (rr : 0 < r.2 * (r.2 - r.1)).
Lemma pp_mono i c c' : (r.2 - r.1) * field theta thr r i c <= (r.2 - r.1) * field theta thr r i c' -> pp i c <= pp i c'.
Proof.
rewrite /pp /p_plus !fieldE; move: (field _ _ _ _ c) (field _ _ _ _ c') => F F' h.
have num (X0 X1 Y0 Y1 : R) : 0 < X0 -> 0 < X1 -> 0 < Y0 -> 0 < Y1 -> X1 * Y0 <= Y1 * X0 ->
    X1 / (X0 + X1) <= Y1 / (Y0 + Y1).
  move=> ? ? ? ? H; rewrite ler_pdivr_mulr ?addr_gt0 // mulrAC ler_pdivl_mulr ?addr_gt0 // !mulrDr.
  by rewrite (mulrC X1 Y1) ler_add2r.
apply: num; rewrite ?exp_gt0 // -!expD; apply: exp_le.
move: (ler_wpmul2l b0 h); move: (r.1) (r.2) (beta) => u v b H.
rewrite -subr_ge0; rewrite -subr_ge0 in H; apply: le_trans H _; rewrite le_eqVlt; apply/orP; left; apply/eqP; mcring.
Qed.

Lemma field_mono (i : 'I_p) (c c' : config) : (forall j, j != i -> (r.2 - r.1) * (theta i j * response r (c j)) <= (r.2 - r.1) * (theta i j * response r (c' j))) ->
  (r.2 - r.1) * field theta thr r i c <= (r.2 - r.1) * field theta thr r i c'.
Proof. by move=> h; rewrite /field !mulrDr ler_add2l !mulr_sumr; apply: ler_sum. Qed.

Lemma up2P i j b : (r.2 - r.1) * (theta i j * response r (~~ up2 i j)) <= (r.2 - r.1) * (theta i j * response r b)
  /\ (r.2 - r.1) * (theta i j * response r b) <= (r.2 - r.1) * (theta i j * response r (up2 i j)).
Proof.
have num1 (t u v : R) : 0 < v * (v - u) -> t * v * u < t * v * v -> (v - u) * (t * u) <= (v - u) * (t * v).
  move=> h1 h2; have t0 : 0 < t.
    have e : t * v * v - t * v * u = t * (v * (v - u)) by mcring.
    by move: h2; rewrite -subr_gt0 e pmulr_lgt0.
  have e : (v - u) * (t * v) - (v - u) * (t * u) = t * ((v - u) * (v - u)) by mcring.
  by rewrite -subr_ge0 e mulr_ge0 ?(ltW t0) // -expr2 sqr_ge0.
have num2 (t u v : R) : 0 < v * (v - u) -> t * v * v <= t * v * u -> (v - u) * (t * v) <= (v - u) * (t * u).
  move=> h1 h2; have t0 : t <= 0.
    have e : t * v * v - t * v * u = t * (v * (v - u)) by mcring.
    by move: h2; rewrite -subr_le0 e pmulr_lle0.
  have e : (v - u) * (t * v) - (v - u) * (t * u) = t * ((v - u) * (v - u)) by mcring.
  by rewrite -subr_le0 e mulr_le0_ge0 // -expr2 sqr_ge0.
rewrite /up2 /response; case: ltrP => h; case: b => /=; split; rewrite ?lexx //; by [apply: num1 | apply: num2].
Qed.

Lemma bracket i d c : agrees d c -> pp i (lo i d) <= pp i c <= pp i (hi i d).
Proof.
move=> /forallP ac; apply/andP; split; apply: pp_mono; apply: field_mono => j ne; rewrite ffunE;
  have := ac j; case: (d j) => [b /eqP ->|_] /=; rewrite ?lexx //; by case: (up2P i j (c j)).
Qed.
End Bracket.

(** one step on partial configurations *)
Definition pset (d : pconfig) (i : 'I_p) (o : option bool) : pconfig := [ffun j => if j == i then o else d j].
Definition pstep (u : R) (d : pconfig) (i : 'I_p) : pconfig :=
  pset d i (if u < pp i (lo i d) then Some true else if pp i (hi i d) <= u then Some false else None).
Lemma exact_siteE u d i : exact_site theta thr beta r u (pv d) i = pv (pstep u d i).
Proof.
rewrite /exact_site minmaxE /=; apply/ffunP=> j; rewrite !ffunE; case: eqP => // _.
by case: (_ < _) => //; case: (_ <= _).
Qed.

Section K.
Variable K : eqType.
Definition prun (d : K -> R) (x : pconfig) (L : seq (K * 'I_p)) : pconfig := foldl (fun x ki => pstep (d ki.1) x ki.2) x L.
Lemma prun_cat d x L L' : prun d x (L ++ L') = prun d (prun d x L) L'.
Proof. exact: foldl_cat. Qed.

Lemma prun_agrees d x c L : 0 <= beta -> 0 < r.2 * (r.2 - r.1) -> agrees x c ->
  agrees (prun d x L) (run theta thr beta r d c L).
Proof.
move=> b0 rr; elim: L x c => [|[k i] L IH] x c ac //=; apply: IH => /=.
have /andP [B1 B2] := bracket b0 rr i ac.
move/forallP: ac => ac; apply/forallP=> j; rewrite /pstep /rstep !ffunE; case: (eqVneq j i) => [_|_] //=.
case: ltrP => [lt1|ge1]; first by rewrite (lt_le_trans lt1).
by case: (lerP (pp i (hi i x))) => // h; rewrite ltNge (le_trans B2 h).
Qed.

Definition total (x : pconfig) : bool := [forall i, x i != None].
Lemma lo_hi_total i x : total x -> lo i x = hi i x.
Proof. by move=> /forallP t; apply/ffunP=> j; rewrite !ffunE; have := t j; case: (x j). Qed.
Lemma pstep_total u x i : total x -> total (pstep u x i).
Proof.
move=> tx; apply/forallP=> j; rewrite ffunE; case: (j == i); last by move/forallP: tx.
by rewrite (lo_hi_total i tx); case: ltrP.
Qed.
Lemma prun_total d x L : total x -> total (prun d x L).
Proof. by elim: L x => [|ki L IH] x tx //=; apply: IH; apply: pstep_total. Qed.

Lemma prun_all (d : K -> R) (x : pconfig) (L : seq (K * 'I_p)) (a : R) : (forall i c, a <= pp i c) -> all (fun k => d k < a)%R (map fst L) ->
  forall i, (i \in map snd L) || (x i != None) -> prun d x L i != None.
Proof.
move=> al; elim: L x => [|[k i] L IH] x //= /andP [ka aL] j; rewrite inE => h.
apply: IH => //; rewrite ffunE; case: (eqVneq j i) h => [_|_] //= _.
by rewrite (lt_le_trans ka (al _ _)) orbT.
Qed.
End K.

Lemma total_values x c : total x -> agrees x c -> pv x = values r c.
Proof.
move=> /forallP t /forallP a; apply/ffunP=> i; rewrite !ffunE; have := t i; have := a i.
by case: (x i) => // b /eqP ->.
Qed.
Lemma known_total x : ~~ [exists i, pv x i == minimum] = total x.
Proof. by rewrite negb_exists; apply: eq_forallb => i; rewrite known. Qed.

Variable M : nat.
Definition key : Type := (nat * nat * 'I_p)%type.
Definition blockL (t : nat) : seq (nat * nat * 'I_p * 'I_p) := [seq ((t, it, i), i) | it <- iota 0 M, i <- enum 'I_p].
Definition timeL (K : nat) : seq (nat * nat * 'I_p * 'I_p) := flatten [seq blockL t | t <- rev (iota 0 K)].
Definition blockk (t : nat) : seq (nat * nat * 'I_p) := [seq (t, it, i) | it <- iota 0 M, i <- enum 'I_p].
Definition timek (K : nat) : seq (nat * nat * 'I_p) := flatten [seq blockk t | t <- rev (iota 0 K)].

Lemma rev_iota K : rev (iota 0 K.+1) = K :: rev (iota 0 K).
Proof. by rewrite -addn1 iota_add rev_cat. Qed.
Lemma timeLS K : timeL K.+1 = blockL K ++ timeL K.
Proof. by rewrite /timeL rev_iota. Qed.
Lemma timekS K : timek K.+1 = blockk K ++ timek K.
Proof. by rewrite /timek rev_iota. Qed.
Lemma timeL_split k n : exists L, timeL (k + n) = L ++ timeL k.
Proof.
elim: n => [|n [L e]]; first by exists [::]; rewrite addn0.
by exists (blockL (k + n) ++ L); rewrite addnS timeLS e catA.
Qed.
Lemma fst_block t : map fst (blockL t) = blockk t.
Proof.
rewrite /blockL /blockk; elim: (iota 0 M) => //= it l IH; rewrite map_cat IH; congr (_ ++ _).
by rewrite -map_comp.
Qed.
Lemma fst_time K : map fst (timeL K) = timek K.
Proof. by elim: K => // K IH; rewrite timeLS timekS map_cat IH fst_block. Qed.
Lemma block_uniq t : uniq (blockk t).
Proof.
apply: allpairs_uniq; rewrite ?iota_uniq ?enum_uniq //; by case=> a b [a' b'] _ _ [-> ->].
Qed.
Lemma block_key t k : k \in blockk t -> k.1.1 = t.
Proof. by case/allpairsP=> -[it i] [_ _ ->]. Qed.
Lemma time_key K k : k \in timek K -> (k.1.1 < K)%N.
Proof.
elim: K => // K IH; rewrite timekS mem_cat => /orP [/block_key -> //|/IH h]; exact: ltnW.
Qed.
Lemma time_uniq K : uniq (timek K).
Proof.
elim: K => // K IH; rewrite timekS cat_uniq block_uniq IH andbT /=.
by apply/hasPn => k /time_key h; apply/negP => /block_key e; rewrite e ltnn in h.
Qed.
Lemma size_block t : size (blockk t) = (M * p)%N.
Proof. by rewrite size_allpairs size_iota size_enum_ord. Qed.

Variables (start : nat -> 'I_p -> R).
Definition blocks (d : nat * nat * 'I_p -> R) : nat -> nat -> 'I_p -> R := fun t it i => d (t, it, i).

Lemma exact_blockE d t x : exact_block theta thr beta r M (blocks d t) (pv x) = pv (prun d x (blockL t)).
Proof.
rewrite /exact_block /blockL; elim: (iota 0 M) x => [|it l IH] x //=; rewrite prun_cat -IH; congr (foldl _ _ _).
elim: (enum _) x => [|i s IHs] x //=; by rewrite exact_siteE IHs.
Qed.
Lemma exact_passE d T : exact_pass theta thr beta r M true (blocks d) start T = pv (prun d (free p) (timeL T.+1)).
Proof.
rewrite /exact_pass.
have -> : ([ffun i => if true then minimum else if 1 / 2%:R < start T i then r.1 else r.2] : istate p) = pv (free p).
  by apply/ffunP=> i; rewrite !ffunE.
rewrite /timeL; elim: (rev _) (free p) => [|t l IH] x //=; by rewrite prun_cat exact_blockE IH.
Qed.

Lemma loop_some d fuel k s : 0 <= beta -> 0 < r.2 * (r.2 - r.1) ->
  exact_loop theta thr beta r M true (blocks d) start fuel k (pv (prun d (free p) (timeL k))) = Some s ->
  forall c0, s = values r (run theta thr beta r d c0 (timeL (k + fuel))).
Proof.
move=> b0 rr.
have ag L c : agrees (prun d (free p) L) (run theta thr beta r d c L).
  by apply: prun_agrees => //; apply/forallP=> i; rewrite ffunE.
elim: fuel k => [|fuel IH] k /=; rewrite known_total; case: ifP => // t.
- by case=> <- c0; rewrite addn0; apply: total_values.
- by case=> <- c0; have [L ->] := timeL_split k fuel.+1; rewrite run_cat; apply: total_values.
by rewrite exact_passE => /IH h c0; rewrite addnS -addSn.
Qed.
Lemma loop_none d fuel k :
  exact_loop theta thr beta r M true (blocks d) start fuel k (pv (prun d (free p) (timeL k))) = None ->
  forall t, (k <= t <= k + fuel)%N -> ~~ total (prun d (free p) (timeL t)).
Proof.
elim: fuel k => [|fuel IH] k /=; rewrite known_total; case: ifP => // tn.
  by move=> _ t; rewrite addn0 -eqn_leq => /eqP <-; rewrite tn.
rewrite exact_passE => /IH h t /andP [kt tf]; case: (ltngtP k t) kt => // [kt|<-] _; last by rewrite tn.
by apply: h; rewrite kt addSn -addnS.
Qed.
Lemma loop0 : [ffun=> minimum] = pv (prun (fun=> 0) (free p) (timeL 0)).
Proof. by apply/ffunP=> i; rewrite !ffunE. Qed.

Lemma not_regenerated d (a : R) K : (0 < M)%N -> (forall i c, a <= pp i c) ->
  ising_exact theta thr beta r M true (blocks d) start K = None ->
  all (fun t => ~~ all (fun k => d k < a)%R (blockk t)) (rev (iota 0 K)).
Proof.
move=> M0 al; rewrite /ising_exact loop0 => /loop_none h; apply/allP=> t; rewrite mem_rev mem_iota add0n /= => tK.
apply/negP => reg; have /negP := h t.+1 tK; apply; rewrite timeLS prun_cat; apply: prun_total.
apply/forallP=> i; apply: (prun_all al); rewrite ?fst_block // ; apply/orP; left.
apply/mapP; exists ((t, 0%N, i), i) => //; apply/allpairsP; exists (0%N, i).
by rewrite mem_iota mem_enum.
Qed.

Lemma expect_regen g (a : R) K d0 : grid_ok g -> a \in g ->
  expect g (timek K) (fun d => (all (fun t => ~~ all (fun k => d k < a)%R (blockk t)) (rev (iota 0 K)))%:R) d0
    <= (1 - a ^+ (M * p)) ^+ K.
Proof.
move=> gok ag; elim: K d0 => [|K IH] d0; first by rewrite /= expr0 lexx.
have q0 : 0 <= (1 - a ^+ (M * p)) ^+ K.
  by apply: le_trans (IH d0); rewrite -(expect_const gok (timek K) 0 d0); apply: (expect_le gok);
     rewrite ?time_uniq // => d _; exact: ler0n.
rewrite timekS expect_cat rev_iota.
apply: le_trans (_ : expect g (blockk K) (fun d => (1 - a ^+ (M * p)) ^+ K * (1 - (all (fun k => d k < a)%R (blockk K))%:R)) d0 <= _).
  apply: (expect_le gok); rewrite ?block_uniq // => d _.
  rewrite (expect_eq_in gok (h := fun d' => (1 - (all (fun k => d k < a)%R (blockk K))%:R) *
      (all (fun t => ~~ all (fun k => d' k < a)%R (blockk t)) (rev (iota 0 K)))%:R)) ?time_uniq //.
    rewrite expectZ // mulrC; apply: ler_wpmul2r; last exact: IH.
    by case: (all _ _); rewrite ?subrr ?subr0 ?ler01.
  move=> d' [_ o] /=.
  have -> : all (fun k => d' k < a)%R (blockk K) = all (fun k => d k < a)%R (blockk K).
    by apply: eq_in_all => k /block_key e; rewrite o //; apply/negP => /time_key; rewrite e ltnn.
  by case: (all _ (blockk K)) => /=; rewrite ?subrr ?mul0r ?subr0 ?mul1r.
rewrite expectZ // expectB // expect_const // expect_all ?block_uniq // size_block exprSr //.
Qed.

Lemma cftp_none g (a : R) K : (0 < M)%N -> grid_ok g -> a \in g -> (forall i c, a <= pp i c) ->
  prob g (timek K) (fun d => ~~ isSome (ising_exact theta thr beta r M true (blocks d) start K)) <=
    (1 - a ^+ (M * p)) ^+ K.
Proof.
move=> M0 gok ag al; apply: le_trans (expect_regen K (fun=> 0) gok ag); apply: (expect_le gok); rewrite ?time_uniq // => d _.
case e : (ising_exact _ _ _ _ _ _ _ _ _) => [s|]; first exact: ler0n.
by rewrite (not_regenerated M0 al e).
Qed.

Lemma cftp_law g K c : 0 <= beta -> 0 < r.2 * (r.2 - r.1) -> r.1 != r.2 -> theta = theta^T ->
  grid_ok g -> (forall i c, pp i c \in g) ->
  forall P N, P = prob g (timek K) (fun d => ising_exact theta thr beta r M true (blocks d) start K == Some (values r c)) ->
  N = prob g (timek K) (fun d => ~~ isSome (ising_exact theta thr beta r M true (blocks d) start K)) ->
  ising_law theta thr beta r (free p) c - N <= P <= ising_law theta thr beta r (free p) c.
Proof.
move=> b0 rr ne sym gok gp P N eP eN.
pose h c' : R := (c' == c)%:R.
have key0 : exists u : R, forall c0, P <= hbs theta thr beta r (map snd (timeL K)) h c0 <= P + N.
  exists 0 => c0; rewrite eP eN.
  rewrite -(expect_run h c0 (fun=> 0) gok gp) ?fst_time ?time_uniq //; apply/andP; split.
    apply: (expect_le gok); rewrite ?time_uniq // => d _.
    case: eqP => [e|_]; last exact: ler0n.
    have := loop_some (d := d) b0 rr (k := 0) (fuel := K) (s := values r c).
    by rewrite -[timeL 0]/[::] -loop0 => /(_ e c0) /(values_inj ne) <-; rewrite /h eqxx lexx.
  rewrite -expectD //; apply: (expect_le gok); rewrite ?time_uniq // => d _.
  rewrite /h; case: eqP => [e|_]; last by apply: addr_ge0; exact: ler0n.
  case E : (ising_exact _ _ _ _ _ _ _ _ _) => [s|] /=; last by rewrite ler_addr ler0n.
  have := loop_some (d := d) b0 rr (k := 0) (fuel := K) (s := s).
  rewrite -[timeL 0]/[::] -loop0 => /(_ E c0) ->; by rewrite add0n e eqxx addr0 lexx.
case: key0 => _ B.
set Z := \sum_(c' | agrees (free p) c') weight theta thr beta r c'.
have af c' : agrees (free p) c' by apply/forallP=> i; rewrite ffunE.
have Z0 : 0 < Z.
  by rewrite /Z (bigD1 c) //= ltr_spaddl ?weight_gt0 // sumr_ge0 // => *; exact/ltW/weight_gt0.
have E : ising_law theta thr beta r (free p) c =
   (\sum_(c' | agrees (free p) c') weight theta thr beta r c' * hbs theta thr beta r (map snd (timeL K)) h c') / Z.
  rewrite hbs_stat //; last by move=> i _; rewrite ffunE.
  rewrite (bigD1 c) //= big1 ?addr0 => [|c' /andP [_ nc]]; last by rewrite /h (negbTE nc) mulr0.
  by rewrite /h eqxx mulr1 /ising_law af.
rewrite E; apply/andP; split.
  rewrite ler_subl_addr ler_pdivr_mulr // /Z mulr_sumr; apply: ler_sum => c' _; rewrite mulrC; apply: ler_wpmul2r.
    exact/ltW/weight_gt0.
  by case/andP: (B c').
rewrite ler_pdivl_mulr // /Z mulr_sumr; apply: ler_sum => c' _; rewrite mulrC; apply: ler_wpmul2l.
  exact/ltW/weight_gt0.
by case/andP: (B c').
Qed.
End CFTP.
