(** C44, C121-C125: the Ising samplers and the generator of Ising graphs. *)
From Coq Require Import Reals String.
From mathcomp Require Import all_ssreflect all_algebra.
From Verif Require Import RStruct RTac Str S_Prob P_Prob S_Ising M_Ising P_Ising P_Ising2 P_Ising3 P_Ising4 P_Ising5 P_Ising6 P_Ising7.
Import Order.TTheory GRing.Theory Num.Theory.

Set Implicit Arguments.
Unset Strict Implicit.
Unset Printing Implicit Defensive.
Local Open Scope ring_scope.

(** * C44: states, constraints, brackets *)

(** Metropolis-Hastings: after any number of sweeps, for every stream, each entry is one of the two responses, and the fixed
    entries have their values. *)
Theorem C44_states p (theta : 'M[R]_p) thresholds beta r (x : pconfig p) max_iter unif :
  r.1 != minimum -> r.2 != minimum ->
  let state := ising_metropolis_hastings theta thresholds beta r max_iter (pvalues r minimum x) unif in
  (forall i, state i = r.1 \/ state i = r.2) /\
  (forall i b, x i = Some b -> state i = response r b).
Proof.
move=> m0 m1 state.
have ag c L : agrees x c -> (forall ki, ki \in L -> x ki.2 = None) -> agrees x (run theta thresholds beta r unif c L).
  elim: L c => [|ki L IH] c ac free //=; apply: IH => [|k kL]; last by apply: free; rewrite inE kL orbT.
  by rewrite agrees_setb // free // mem_head.
rewrite /state (mhE theta thresholds beta x m0 m1).
set L := zip _ _; set c := c_start _ _.
have /forallP A : agrees x (run theta thresholds beta r unif c L).
  apply: ag; first exact: agrees_start.
  case=> k i kiL; apply: (@sweeps_free p x (frees x (enum 'I_p)) _ max_iter) => /=.
    by move=> j; rewrite mem_filter => /andP [/eqP].
  have : i \in unzip2 L by apply/mapP; exists (k, i).
  by rewrite unzip2_zip // size_iota size_sweeps nfreeE.
split=> [i|i b e]; rewrite ffunE; first by rewrite /response; case: (run _ _ _ _ _ _ _ i); [right|left].
by have := A i; rewrite e => /eqP ->.
Qed.
Print Assumptions C44_states.

(** Coupling from the past: whatever the entries still unknown, the two numbers enclose the conditional probability of the
    second response, if the second response r1 satisfies r1 (r1 - r0) > 0, as (-1, 1) and (0, 1) do. *)
Theorem C44_brackets p (theta : 'M[R]_p) thresholds beta r (x : pconfig p) (c : config p) i :
  r.1 != minimum -> r.2 != minimum -> 0 <= beta -> 0 < r.2 * (r.2 - r.1) -> agrees x c ->
  let P := p_plus_minmax theta thresholds beta r i (pvalues r minimum x) in
  P.1 <= p_plus theta thresholds beta r i (values r c) /\ p_plus theta thresholds beta r i (values r c) <= P.2.
Proof. by move=> m0 m1 b0 rr ac P; rewrite /P minmaxE //; apply/andP; apply: bracket. Qed.
Print Assumptions C44_brackets.

(** ... and not with the responses (-1, 0): the lower number can be above the upper one. *)
Theorem C44_brackets_refuted : exists (theta : 'M[R]_2) (c : config 2) i,
  let r := (- 1, 0) in
  let P := p_plus_minmax theta (fun=> 0) 1 r i (pvalues r minimum (free 2)) in
  theta = theta^T /\ agrees (free 2) c /\ p_plus theta (fun=> 0) 1 r i (values r c) < P.1 /\ P.2 < P.1.
Proof.
have lt1 : pp th2 t0 1 rN i0 (hi th2 rN i0 (free 2)) < 1 / 2%:R.
  rewrite /pp /p_plus !fieldE field0 !ffunE /= up2N /response /= mul0r mulr0 exp0R.
  have -> : 1 * (- 1 * - 1) = 1 :> R by rewrite mulrN1 opprK mulr1.
  have := exp1_gt1; move: (exp 1) => v v1.
  rewrite ltr_pdivr_mulr; last by mclra.
  by rewrite mulrAC ltr_pdivl_mulr ?ltr0n //; mclra.
exists th2, (hi th2 rN i0 (free 2)), i0 => /=; rewrite -[(- 1, 0)]/rN -[fun=> 0]/t0 (minmaxE _ _ _ m0N m1N) /= ppN_lo.
split; first exact: th2_sym.
split; first by apply/forallP=> i; rewrite ffunE.
by split; exact: lt1.
Qed.
Print Assumptions C44_brackets_refuted.

(** Through the sampler: coupling from the past ignores the fixed entries. *)
Theorem C44_fixed_refuted : exists (x : pconfig 1) (d : draws 1) (row : istate 1) theta',
  x ord0 = Some false /\
  ising_sampler (0 : 'M[R]_1) (fun=> 0) 1 1 1 (0, 1) "CFTP" 10 (Some (fun=> pvalues (0, 1) minimum x)) d 1 =
    Some (IOk (Rows [:: row]), theta') /\ row ord0 = 1.
Proof.
pose x : pconfig 1 := [ffun=> Some false]; pose row : istate 1 := [ffun=> 1].
exists x, (Draws (fun _ _ => 0) (fun _ _ _ _ => 0) (fun=> [::])), row, (zero_diagonal 0).
split; first by rewrite ffunE.
split; last by rewrite ffunE.
rewrite /ising_sampler trmx0 eqxx /=.
have p01 : 0 <= 1 :> R by exact: ler01.
have en : enum 'I_1 = [:: ord0] by apply: (inj_map val_inj); rewrite val_enum_ord.
have ex (s : istate 1) : [exists i, s i == minimum] = (s ord0 == minimum).
  by apply/existsP/idP => [[i]|h]; [rewrite ord1 | exists ord0].
have -> : ising_exact (zero_diagonal 0) (fun=> 0) 1 (0, 1) 1 true (fun _ _ _ => 0) (fun _ _ => 0) 1 = Some row; last by [].
rewrite /ising_exact /= ex ffunE eqxx /= ex.
have -> : exact_pass (zero_diagonal 0) (fun=> 0) 1 (0, 1) 1 true (fun _ _ _ => 0) (fun _ _ => 0) 0 = row.
  rewrite /exact_pass /exact_block /= en /= /exact_site /=.
  apply/ffunP=> i; rewrite ffunE [RHS]ffunE (ord1 i) eqxx ifT //.
  by rewrite /p_plus_minmax en /= divr_gt0 ?addr_gt0 ?exp_gt0.
by rewrite /row ffunE not_minimum // (le_trans _ p01) // oppr_le0.
Qed.
Print Assumptions C44_fixed_refuted.

Example C44_case : let x : pconfig 2 := [ffun i => if i == i0 then Some true else None] in
  [/\ rD.1 != minimum, rD.2 != minimum, 0 < rD.2 * (rD.2 - rD.1) & agrees x (mk2 true false)].
Proof.
split; [exact: m0D | exact: m1D | by rewrite /= opprK mul1r addr_gt0 ?ltr01 | ].
by apply/forallP=> i; rewrite !ffunE; case: (i == i0).
Qed.

(** * C121: Metropolis-Hastings converges to the Ising law *)

(** The numbers drawn are independent and uniform; the cut points contain every number they are compared with. The
    probability that the sampler returns a configuration tends to its probability under the Ising law given the fixed
    entries, at a geometric rate in the number of sweeps. *)
Theorem C121_law p (theta : 'M[R]_p) thresholds beta r (x : pconfig p) :
  theta = theta^T -> r.1 != r.2 -> r.1 != minimum -> r.2 != minimum ->
  exists q : R, 0 <= q < 1 /\
  forall (g : seq R) (max_iter : nat) (c : config p),
    grid_ok g -> 1 / 2%:R \in g -> (forall i c', p_plus theta thresholds beta r i (values r c') \in g) ->
    `|prob g (iota 0 (p + max_iter * #|[pred i | x i == None]|)) (fun u : nat -> R =>
        ising_metropolis_hastings theta thresholds beta r max_iter (pvalues r minimum x) u == values r c)
      - ising_law theta thresholds beta r x c| <= q ^+ max_iter.
Proof.
move=> sym ne m0 m1; have [a [a0 a1 _ al]] := pp_min theta thresholds beta r.
exists (1 - a ^+ nfree x); split.
  by apply/andP; split; [rewrite subr_ge0 exprn_ile1 // ltW | rewrite -subr_gt0 subKr exprn_gt0].
move=> g N c gok _ gp; exact: mh_close.
Qed.
Print Assumptions C121_law.

(** the Ising law is a probability on the configurations that agree with the fixed entries *)
Theorem C121_C122_law_total p (theta : 'M[R]_p) thresholds beta r (x : pconfig p) :
  (forall c, 0 <= ising_law theta thresholds beta r x c) /\ \sum_c ising_law theta thresholds beta r x c = 1.
Proof.
pose c0 : config p := [ffun i => odflt true (x i)].
have ac0 : agrees x c0 by apply/forallP=> i; rewrite ffunE; case: (x i) => /=.
set Z := \sum_(c' | agrees x c') weight theta thresholds beta r c'.
have Z0 : 0 < Z.
  by rewrite /Z (bigD1 c0) //= ltr_spaddl ?weight_gt0 // sumr_ge0 // => *; exact/ltW/weight_gt0.
split=> [c|]; first by rewrite /ising_law; case: ifP => // _; rewrite divr_ge0 ?(ltW Z0) // ltW // weight_gt0.
by rewrite /ising_law -big_mkcond -mulr_suml /= mulfV // gt_eqF.
Qed.
Print Assumptions C121_C122_law_total.

(** cut points as required exist, for every graph *)
Theorem C121_C122_grid p (theta : 'M[R]_p) thresholds beta r : exists g : seq R,
  [/\ grid_ok g, 1 / 2%:R \in g & forall i c, p_plus theta thresholds beta r i (values r c) \in g].
Proof. exact: ising_grid. Qed.
Print Assumptions C121_C122_grid.

Example C121_case : exists g : seq R, [/\ grid_ok g, th2 = th2^T, rD.1 != rD.2, 1 / 2%:R \in g &
  forall i c', p_plus th2 t0 1 rD i (values rD c') \in g].
Proof.
have [g [gok h gp]] := ising_grid th2 t0 1 rD; exists g; split=> //; first exact: th2_sym.
by rewrite lt_eqF //= (lt_trans _ ltr01) // oppr_lt0 ltr01.
Qed.

(** * C122: coupling from the past samples exactly from the Ising law *)

(** For non-negative beta and responses with r1 (r1 - r0) > 0: the probability that the loop has ended within [K] passes
    with configuration [c] is at most the Ising law of [c], and tends to it; the probability that the loop goes on for more
    than [K] passes tends to 0, at a geometric rate. *)
Theorem C122_law p (theta : 'M[R]_p) thresholds beta r max_iter :
  theta = theta^T -> r.1 != minimum -> r.2 != minimum -> 0 <= beta -> 0 < r.2 * (r.2 - r.1) -> (0 < max_iter)%N ->
  exists q : R, 0 <= q < 1 /\
  forall (g : seq R) start (K : nat) (c : config p),
    grid_ok g -> (forall i c', p_plus theta thresholds beta r i (values r c') \in g) ->
    let run (u : nat * nat * 'I_p -> R) :=
      ising_exact theta thresholds beta r max_iter true (fun t it i => u (t, it, i)) start K in
    let P := prob g (past p max_iter K) (fun u => run u == Some (values r c)) in
    [/\ P <= ising_law theta thresholds beta r (free p) c,
        ising_law theta thresholds beta r (free p) c - q ^+ K <= P &
        prob g (past p max_iter K) (fun u => ~~ isSome (run u)) <= q ^+ K].
Proof.
move=> sym m0 m1 b0 rr M0; have [a [a0 a1 ag al]] := pp_min theta thresholds beta r.
exists (1 - a ^+ (max_iter * p)); split.
  by apply/andP; split; [rewrite subr_ge0 exprn_ile1 // ltW | rewrite -subr_gt0 subKr exprn_gt0].
move=> g start K c gok gp run P.
have ne : r.1 != r.2 by apply/eqP => e; move: rr; rewrite e subrr mulr0 ltxx.
have g1 : 1 \in g.
  case: (gok) => s1 _ _ <-; apply: mem_nth; by rewrite prednK // (ltnW s1).
have none := cftp_none m0 m1 start K M0 gok (ag _ g1 gp) al.
have /andP [lo hi] := cftp_law m0 m1 b0 rr ne sym gok gp (erefl P) (erefl _) (M := max_iter) (start := start).
split=> //; apply: le_trans lo; by rewrite ler_add2l ler_opp2.
Qed.
Print Assumptions C122_law.

(** ... false for the responses (-1, 0): on two variables with coupling 1 the loop always ends in one pass, and the first
    variable takes the second response with probability 1/2 although its probability under the Ising law is smaller *)
Theorem C122_responses_refuted : exists theta : 'M[R]_2, theta = theta^T /\
  let r := (- 1, 0) in
  let run (u : nat * nat * 'I_2 -> R) := ising_exact theta (fun=> 0) 1 r 1 true (fun t it i => u (t, it, i)) (fun _ _ => 0) 1 in
  (forall u, isSome (run u)) /\
  (forall g, grid_ok g -> 1 / 2%:R \in g ->
    prob g (past 2 1 1) (fun u => if run u is Some s then s ord0 == r.2 else false) = 1 / 2%:R) /\
  \sum_(c : config 2 | c ord0) ising_law theta (fun=> 0) 1 r (free 2) c < 1 / 2%:R.
Proof.
exists th2; split; first exact: th2_sym.
split; first by move=> u; have [b ->] := rN_pass u.
by split; [exact: rN_prob | exact: rN_law].
Qed.
Print Assumptions C122_responses_refuted.

(** without sweeps the loop never ends, and with one there are streams for which it never ends (there is no cap on the number
    of passes) *)
Theorem C122_no_sweeps p (theta : 'M[R]_p) thresholds beta r blocks start K : (0 < p)%N ->
  ising_exact theta thresholds beta r 0 true blocks start K = None.
Proof. exact: no_iterations. Qed.
Print Assumptions C122_no_sweeps.
Theorem C122_never : exists theta : 'M[R]_2, theta = theta^T /\ forall start K,
  ising_exact theta (fun=> 0) 1 (- 1, 1) 1 true (fun _ _ _ => 1 / 2%:R) start K = None.
Proof. by exists th2; split; [exact: th2_sym | exact: never_returns]. Qed.
Print Assumptions C122_never.

(** with exact = False the loop always ends after one pass *)
Theorem C122_inexact p (theta : 'M[R]_p) thresholds beta r max_iter blocks start K :
  r.1 != minimum -> r.2 != minimum -> (0 < p)%N ->
  exists c : config p, ising_exact theta thresholds beta r max_iter false blocks start K.+1 = Some (values r c).
Proof.
move=> m0 m1 p0; have [c e] := inexact_known theta thresholds beta max_iter blocks start 0 m0 m1.
exists c; rewrite /ising_exact /=.
have -> : [exists i, ([ffun=> minimum] : istate p) i == minimum] by apply/existsP; exists (Ordinal p0); rewrite ffunE.
have E : [exists i, values r c i == minimum] = false.
  by apply/negbTE; rewrite negb_exists; apply/forallP=> i; rewrite ffunE /response; case: (c i).
by rewrite /= e; case: K => [|K] /=; rewrite E.
Qed.
Print Assumptions C122_inexact.

Example C122_case : [/\ th2 = th2^T, rD.1 != minimum, rD.2 != minimum & 0 < rD.2 * (rD.2 - rD.1)].
Proof. by split; [exact: th2_sym | exact: m0D | exact: m1D | rewrite /= opprK mul1r addr_gt0 ?ltr01]. Qed.

(** * C123: direct sampling *)

(** The probabilities given to the draw sum to 1, and their ratios are those of the Ising law with the coupling doubled: each
    pair of variables is counted twice. *)
Theorem C123_law p (theta : 'M[R]_p) thresholds beta r : theta = theta^T ->
  let P := direct_probabilities theta thresholds beta r in
  \sum_(q <- P) q = 1 /\
  forall k l (c c' : config p), (k < 1024)%N -> (l < 1024)%N ->
    (forall i : 'I_p, nth 0 (nth [::] (products r 10) k) i = response r (c i)) ->
    (forall i : 'I_p, nth 0 (nth [::] (products r 10) l) i = response r (c' i)) ->
    nth 0 P k * weight (2%:R *: theta) thresholds beta r c' = nth 0 P l * weight (2%:R *: theta) thresholds beta r c.
Proof. by move=> sym P; split; [exact: direct_total | move=> k l c c' kl ll ck cl; apply: direct_ratio]. Qed.
Print Assumptions C123_law.

(** with as many draws as states, the rows are all the states, each once, whatever the graph *)
Theorem C123_exhausted p (theta : 'M[R]_p) thresholds beta r choice : (p <= 10)%N -> theta = theta^T ->
  (forall P, let ixs := choice P in [/\ uniq ixs, size ixs = 1024%N & forall k, k \in ixs -> (k < 1024)%N]) ->
  exists rows, direct_sampling theta thresholds 1024 beta r choice = IOk rows /\ perm_eq rows (products r 10).
Proof. exact: direct_all. Qed.
Print Assumptions C123_exhausted.

(** every row has 10 entries, whatever the number of variables; more than 10 variables or more than 1024 draws are errors *)
Theorem C123_rows p (theta : 'M[R]_p) thresholds n beta r choice :
  (forall P k, k \in choice P -> (k < 1024)%N) -> theta = theta^T ->
  match direct_sampling theta thresholds n beta r choice with
  | IOk rows => [/\ (p <= 10)%N, (n <= 1024)%N & forall s, s \in rows -> size s = 10%N]
  | IRaise e => (10 < p)%N /\ e = IIndexError \/ (1024 < n)%N /\ e = IValueError
  end.
Proof.
move=> ch sym; case e : (direct_sampling _ _ _ _ _ _) => [rows|er].
  have [p10 rs] := direct_rows e ch; split=> //; move: e; rewrite /direct_sampling.
  have -> : size (products r 10) = 1024%N by apply: size_products.
  by case: ifP => // _; case: ifP => // _; case: (ltnP 1024 n).
have sz : size (products r 10) = 1024%N by apply: size_products.
move: e; rewrite /direct_sampling; move: (products r 10) sz => st sz; rewrite -sym eqxx sz /=.
by case: ltnP => // p10; [case=> <-; left | case: ltnP => // n10 [<-]; right].
Qed.
Print Assumptions C123_rows.

(** * C124: the sampler's interface *)

(** what is returned, and what happens to the argument *)
Theorem C124_returns p (theta : 'M[R]_p) thresholds n beta max_iter r method CFTP_retry x d fuel out theta' :
  ising_sampler theta thresholds n beta max_iter r method CFTP_retry x d fuel = Some (out, theta') ->
  [/\ theta != theta^T -> out = IRaise IAssertionError /\ theta' = theta,
      theta = theta^T -> forall i j, theta' i j = if i == j then 0 else theta i j,
      theta = theta^T -> method \notin [:: "CFTP"; "MH"; "DIRECT"]%string -> out = IRaise IValueError,
      theta = theta^T -> method = "CFTP"%string ->
        (CFTP_retry <= 1)%N /\ out = IRaise IUnboundLocalError \/
        (1 < CFTP_retry)%N /\ exists rows, out = IOk (Rows rows) /\ size rows = n &
      theta = theta^T -> method = "MH"%string ->
        match n with
        | 0%N => out = IRaise IIndexError
        | 1%N => exists row, out = IOk (OneRow row)
        | _ => exists rows, out = IOk (Rows rows) /\ size rows = n
        end].
Proof.
rewrite /ising_sampler; case: (eqVneq theta theta^T) => [sym|ns]; last first.
  by case=> <- <-; split=> // e; move: ns; rewrite {1}e eqxx.
rewrite /=; set z := zero_diagonal theta => H.
have tz : theta' = z.
  move: H; case: ifP => _; first by case: ifP => _; [case=> _ <- | case: (all_rows _ _) => // rows [_ <-]].
  by case: ifP => _; [case: n => [|[|n]] [_ <-] | case: ifP => _ [_ <-]].
split.
- by [].
- by move=> _ i j; rewrite tz !mxE.
- by move=> _; rewrite !inE !negb_or => /and3P [/negbTE c /negbTE m /negbTE di]; move: H; rewrite c m di => -[<-].
- move=> _ e; move: H; rewrite e /=; case: (leqP CFTP_retry 1) => h; first by case=> <- _; left.
  set f := fun s => _; have sz : forall l rows, all_rows f l = Some rows -> size rows = size l.
    elim=> [|s l IH] rows /=; first by case=> <-.
    by case: (f s) => // y; case E: (all_rows f l) => [rs|] // [<-]; rewrite /= (IH _ E).
  case E: (all_rows f _) => [rows|] // [<- _]; right; split=> //; exists rows; split=> //.
  by rewrite (sz _ _ E) size_iota.
- move=> _ e; move: H; rewrite e /=; case: n => [|[|n]] [<- _] //; first by eexists.
  by eexists; split; [reflexivity | rewrite /= size_map size_iota].
Qed.
Print Assumptions C124_returns.

Example C124_case (d : draws 2) : exists out theta',
  ising_sampler th2 t0 1 1 100 rD "MH" 10 None d 0 = Some (IOk (OneRow out), theta').
Proof. by rewrite /ising_sampler -th2_sym eqxx /=; eexists; eexists. Qed.

(** * C125: the generator of Ising graphs *)

(** for every stream: the number of matrices, symmetry, and entries in {-1, 0, 1} if the first matrix is so and the draws are
    choices between the two proposed values *)
Theorem C125_symmetric p (graph : 'M[R]_p) T mode change pairs pick fuel out : graph = graph^T ->
  ising_theta_generator graph T mode change pairs pick fuel = Some out ->
  (((1 < T)%N && ((mode == "switch"%string) || (mode == "diffusion"%string))) /\ out = IRaise IValueError) \/
  exists thetas, [/\ out = IOk thetas, size thetas = maxn 1 T, forall theta, theta \in thetas -> theta = theta^T &
    (forall t k l a b, pick t k l a b \in [:: a; b]) -> (forall i j, graph i j \in [:: - 1; 0; 1]) ->
    forall theta, theta \in thetas -> forall i j, theta i j \in [:: - 1; 0; 1]].
Proof. exact: generator_ok. Qed.
Print Assumptions C125_symmetric.

(** the diagonal need not stay zero, and more edges than asked can change: from the empty graph on two vertices, one change
    asked, a run ends with two distinct entries (up to symmetry) changed, one of them on the diagonal *)
Theorem C125_diagonal_refuted : exists pairs pick theta,
  update_ising_l1 (0 : 'M[R]_2) 1 pairs pick 2 = Some (IOk theta) /\ (forall k, size (pairs k) = 1%N) /\
  (forall k l a b, pick k l a b \in [:: a; b]) /\ theta ord0 ord0 = 1 /\ theta ord0 (lift ord0 ord0) = 1.
Proof.
pose pairs (k : nat) : seq ('I_2 * 'I_2) := if k == 0%N then [:: (i0, i0)] else [:: (i0, i1)].
pose pick (k l : nat) (a b : R) : R := b.
pose theta1 : 'M[R]_2 := set_sym 0 i0 i0 1.
pose theta2 : 'M[R]_2 := set_sym theta1 i0 i1 1.
have e1 : ising_changes (0 : 'M[R]_2) (pairs 0%N) (pick 0%N) = theta1 by rewrite /ising_changes /= mxE eqxx.
have e2 : ising_changes theta1 (pairs 1%N) (pick 1%N) = theta2.
  by rewrite /ising_changes /= /theta1 set_symE /= mxE eqxx.
have s1 : theta1 = theta1^T by apply: set_sym_sym; rewrite trmx0.
have s2 : theta2 = theta2^T by apply: set_sym_sym.
exists pairs, pick, theta2; split.
  by rewrite /update_ising_l1 /= e1 /= e2 -s2 eqxx.
split; first by case.
split; first by move=> k l a b; rewrite !inE eqxx orbT.
by rewrite /theta2 /theta1 !set_symE.
Qed.
Print Assumptions C125_diagonal_refuted.

(** with a single variable and a change to make, it never ends *)
Theorem C125_one_variable (theta : 'M[R]_1) no pairs pick fuel :
  (forall k, size (pairs k) = no.+1) -> update_ising_l1 theta no.+1 pairs pick fuel = None.
Proof.
move=> sz; rewrite /update_ising_l1.
have -> // : forall k theta, ising_update_loop pairs pick fuel k theta = None.
elim: fuel => [|fuel IH] k th //=; rewrite ifT ?IH //.
by have := sz k; case: (pairs k) => // rc l _ /=; rewrite !ord1 eqxx.
Qed.
Print Assumptions C125_one_variable.

Example C125_case : exists out,
  ising_theta_generator (0 : 'M[R]_2) 2 "l1" 1 (fun _ _ => [:: (i0, i1)]) (fun _ _ _ a b => b) 1 = Some out.
Proof. by rewrite /ising_theta_generator /= /update_ising_l1 /=; case: ifP => _; eexists; reflexivity. Qed.
