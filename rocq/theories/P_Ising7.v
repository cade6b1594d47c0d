(** Passes that never end; the direct sampler; the graph generator. *)
From Coq Require Import Reals Lra String.
From mathcomp Require Import all_ssreflect all_algebra.
From Verif Require Import RStruct RTac Str S_Prob P_Prob S_Ising M_Ising P_Ising P_Ising2 P_Ising3 P_Ising4 P_Ising5 P_Ising6.
Import Order.TTheory GRing.Theory Num.Theory.

Set Implicit Arguments.
Unset Strict Implicit.
Unset Printing Implicit Defensive.
Local Open Scope ring_scope.

Lemma loop_stuck p (theta : 'M[R]_p) thr beta r M blocks start :
  (0 < p)%N -> (forall T, exact_pass theta thr beta r M true blocks start T = [ffun=> minimum]) ->
  forall fuel k, exact_loop theta thr beta r M true blocks start fuel k [ffun=> minimum] = None.
Proof.
move=> p0 st; have ex : [exists i, ([ffun=> minimum] : istate p) i == minimum].
  by apply/existsP; exists (Ordinal p0); rewrite ffunE.
elim=> [|fuel IH] k /=; rewrite ex //= st; exact: IH.
Qed.
Lemma no_iterations p (theta : 'M[R]_p) thr beta r blocks start K : (0 < p)%N ->
  ising_exact theta thr beta r 0 true blocks start K = None.
Proof.
move=> p0; apply: loop_stuck => // T; rewrite /exact_pass /exact_block /=.
by elim: (rev _) => [|t l IH]; [apply/ffunP=> i; rewrite !ffunE | rewrite /= IH].
Qed.

Definition rD : R * R := (- 1, 1).
Lemma m0D : rD.1 != minimum. Proof. by apply: not_minimum; rewrite lexx. Qed.
Lemma m1D : rD.2 != minimum. Proof. by apply: (@not_minimum 1); mclra. Qed.
Lemma up2D i j : th2 i j = 1 -> up2 th2 rD i j = true.
Proof. by move=> e; rewrite /up2 e /= !mulr1 mulrN1; apply: lt_trans ltr01; rewrite oppr_lt0 ltr01. Qed.
Lemma ppD i c v : field th2 t0 rD i c = v -> pp th2 t0 1 rD i c = exp v / (exp (- v) + exp v).
Proof. by move=> e; rewrite /pp /p_plus !fieldE e /= !mul1r mulN1r. Qed.
Lemma halfD : exp 1 / (exp (- 1) + exp 1) > 1 / 2%:R /\ exp (- 1) / (exp (- - 1) + exp (- 1)) < 1 / 2%:R.
Proof.
have h : exp (- 1) < exp 1.
  by apply/RltP; apply: exp_increasing; apply/RltP; mclra.
have := exp_gt0 (- 1); have := exp_gt0 1; rewrite opprK; move: h; move: (exp _) (exp _) => u v h v0 u0.
rewrite ltr_pdivl_mulr; last by mclra.
rewrite ltr_pdivr_mulr; last by mclra.
by split; mclra.
Qed.
Lemma never_returns start K :
  ising_exact th2 t0 1 rD 1 true (fun _ _ _ => 1 / 2%:R) start K = None.
Proof.
apply: loop_stuck => // T.
rewrite (@exact_passE 2 th2 t0 1 rD m0D m1D 1 start (fun=> 1 / 2%:R) T).
have -> : [ffun=> minimum] = pvalues rD minimum (free 2) by apply/ffunP=> i; rewrite !ffunE.
congr (pvalues _ _ _); rewrite /timeL; elim: (rev _) => [|t l IH] //=; rewrite prun_cat.
have -> // : prun th2 t0 1 rD (fun=> 1 / 2%:R) (free 2) (blockL 2 1 t) = free 2.
have [h1 h2] := halfD.
have st i : pstep th2 t0 1 rD (1 / 2%:R) (free 2) i = free 2.
  have [v [w [e1 e2 fl fh]]] : exists v w, [/\ v = 1, w = - 1, field th2 t0 rD i (hi th2 rD i (free 2)) = v &
      field th2 t0 rD i (lo th2 rD i (free 2)) = w].
    exists 1, (- 1); split=> //; case: (boolP (i == i0)) => [/eqP ->|ne];
    rewrite ?field0 ?ffunE /= ?ffunE /= ?up2D ?th2E //; have -> : i = i1 by [apply/val_inj; case: i ne => [[|[|k]]]];
    by rewrite ?field1 ?ffunE /= ?ffunE /= ?up2D ?th2E.
  rewrite /pstep (ppD fl) (ppD fh) e1 e2 ltNge (ltW h2) /= leNgt h1 /=.
  by apply/ffunP=> j; rewrite !ffunE; case: eqP.
by rewrite /prun /blockL /= enum2 /= !st.
Qed.

(** exact = False: one pass *)
Lemma inexact_known p (theta : 'M[R]_p) thr beta r M (blocks : nat -> nat -> 'I_p -> R) start T :
  r.1 != minimum -> r.2 != minimum -> exists c : config p, exact_pass theta thr beta r M false blocks start T = values r c.
Proof.
move=> m0 m1; pose d (k : nat * nat * 'I_p) := blocks k.1.1 k.1.2 k.2.
pose x : pconfig p := [ffun i => Some (~~ (1 / 2%:R < start T i)%R)].
have tx : total x by apply/forallP=> i; rewrite ffunE.
have e : exact_pass theta thr beta r M false blocks start T = pvalues r minimum (prun theta thr beta r d x (timeL p M T.+1)).
  rewrite /exact_pass.
  have -> : ([ffun i => if false then minimum else if 1 / 2%:R < start T i then r.1 else r.2] : istate p) = pvalues r minimum x.
    by apply/ffunP=> i; rewrite !ffunE; case: (_ < _).
  rewrite /timeL; elim: (rev _) (x) => [|t l IH] y //=; rewrite prun_cat -IH; congr (foldl _ _ _).
  exact: (exact_blockE theta thr beta m0 m1 M d t y).
have t2 := prun_total theta thr beta r d (timeL p M T.+1) tx.
pose c : config p := [ffun i => odflt true (prun theta thr beta r d x (timeL p M T.+1) i)].
exists c; rewrite e; apply: total_values => //; apply/forallP=> i; rewrite ffunE; by case: (prun _ _ _ _ _ _ _ i).
Qed.

(** * direct *)
Section Direct.
Variable p : nat.
Variables (theta : 'M[R]_p) (thr : 'I_p -> R) (beta : R) (r : R * R).

Lemma hamiltonianE (s : seq R) (c : config p) : theta = theta^T -> (forall i : 'I_p, nth 0 s i = response r (c i)) ->
  hamiltonian theta thr s = - energy (2%:R *: theta) thr r c.
Proof.
move=> sym sc; rewrite /hamiltonian.
have E l a : foldl (fun res (i : 'I_p) => res - thr i * nth 0 s i + \sum_(j <- enum 'I_p | j != i) - theta i j * nth 0 s i * nth 0 s j) a l
   = a - (\sum_(i <- l) thr i * response r (c i) + \sum_(i <- l) \sum_(j | j != i) theta i j * response r (c i) * response r (c j)).
  elim: l a => [|i l IH] a /=; first by rewrite !big_nil addr0 subr0.
  rewrite IH !big_cons big_enum_cond /= sc.
  have -> : \sum_(j | j != i) - theta i j * response r (c i) * nth 0 s j = - \sum_(j | j != i) theta i j * response r (c i) * response r (c j).
    by rewrite -sumrN; apply: eq_bigr => j _; rewrite sc !mulNr.
  move: (\sum_(j <- l) _) (\sum_(j <- l) _) (\sum_(j | _) _) (thr i * _) => x y z t; mcring.
rewrite E sub0r !big_enum /= /energy; congr (- (_ + _)).
under eq_bigr => i _ do rewrite (bigID (fun j : 'I_p => (i < j)%N)) /=.
rewrite big_split /= [X in _ + X](exchange_big_dep xpredT) //= -big_split /=.
apply: eq_bigr => i _.
have -> : \sum_(j | (j != i) && (i < j)%N) theta i j * response r (c i) * response r (c j) =
          \sum_(j : 'I_p | (i < j)%N) theta i j * response r (c i) * response r (c j).
  by apply: eq_bigl => j; rewrite -val_eqE /= neq_ltn; case: ltngtP.
have -> : \sum_(j | (i != j) && ~~ (j < i)%N) theta j i * response r (c j) * response r (c i) =
          \sum_(j : 'I_p | (i < j)%N) theta i j * response r (c i) * response r (c j).
  apply: eq_big => [j|j _]; first by rewrite -val_eqE /= neq_ltn; case: ltngtP.
  by rewrite (symE sym) mulrAC.
by rewrite -big_split; apply: eq_bigr => j _ /=; rewrite mxE; move: (theta i j) (response _ _) (response _ _) => x y z; mcring.
Qed.

Lemma size_products k : size (products r k) = (2 ^ k)%N.
Proof. by elim: k => //= k IH; rewrite !size_cat !size_map IH addn0 addnn -mul2n expnS. Qed.
Lemma products_row k s : s \in products r k -> size s = k.
Proof.
elim: k s => [|k IH] s; first by rewrite inE => /eqP ->.
by case/allpairsP=> -[a t] /= [_ /IH st ->] /=; rewrite st.
Qed.

Lemma direct_ratio (k l : nat) (c c' : config p) : theta = theta^T -> (k < 1024)%N -> (l < 1024)%N ->
  (forall i : 'I_p, nth 0 (nth [::] (products r 10) k) i = response r (c i)) ->
  (forall i : 'I_p, nth 0 (nth [::] (products r 10) l) i = response r (c' i)) ->
  nth 0 (direct_probabilities theta thr beta r) k * weight (2%:R *: theta) thr beta r c' =
  nth 0 (direct_probabilities theta thr beta r) l * weight (2%:R *: theta) thr beta r c.
Proof.
move=> sym kl ll ck cl; rewrite /direct_probabilities; move: ck cl.
have sz : size (products r 10) = 1024%N by rewrite size_products.
move: (products r 10) sz => st sz ck cl.
rewrite !(nth_map 0) ?size_map ?sz // !(nth_map [::]) ?sz // (hamiltonianE sym ck) (hamiltonianE sym cl) !mulrNN.
by rewrite !weightE; move: (_^-1) (exp _) (exp _) => x y z; mcring.
Qed.
Lemma direct_total : \sum_(q <- direct_probabilities theta thr beta r) q = 1.
Proof.
rewrite /direct_probabilities; move: (size_products 10); move: (products r 10) => st sz.
set w := [seq exp (- beta * hamiltonian theta thr s) | s <- st]; set Z := \sum_(y <- w) y; have -> : \sum_(q <- [seq x / Z | x <- w]) q = Z / Z by rewrite big_map -mulr_suml.
rewrite mulfV // gt_eqF // /Z /w.
case: st sz {Z w} => // s st _; rewrite /= big_cons big_map ltr_spaddl ?exp_gt0 // sumr_ge0 // => *; exact/ltW/exp_gt0.
Qed.
Lemma direct_all choice : (p <= 10)%N -> theta = theta^T ->
  (forall P, let ixs := choice P in [/\ uniq ixs, size ixs = 1024%N & forall k, k \in ixs -> (k < 1024)%N]) ->
  exists rows, direct_sampling theta thr 1024 beta r choice = IOk rows /\ perm_eq rows (products r 10).
Proof.
move=> p10 sym ch; rewrite /direct_sampling.
have sz : size (products r 10) = 1024%N := size_products 10.
move: (products r 10) sz => st sz.
rewrite -sym eqxx ltnNge p10 sz ltnn /=.
set P := direct_probabilities _ _ _ _; have [un sc lt] := ch P; move: (choice P) un sc lt => ixs un sc lt1.
eexists; split; first by [].
have pe : perm_eq ixs (iota 0 1024).
  apply: uniq_perm; rewrite ?iota_uniq // => k; rewrite mem_iota /= add0n.
  have sub : {subset ixs <= iota 0 1024} by move=> j /lt1; rewrite mem_iota.
  have [|_ ->] := uniq_min_size un sub; first by rewrite sc size_iota.
  by rewrite mem_iota.
rewrite -{2}(mkseq_nth [::] st) /mkseq sz; exact: perm_map.
Qed.
Lemma direct_rows n choice rows : direct_sampling theta thr n beta r choice = IOk rows ->
  (forall P k, k \in choice P -> (k < 1024)%N) -> (p <= 10)%N /\ (forall s, s \in rows -> size s = 10%N).
Proof.
rewrite /direct_sampling.
have sz : size (products r 10) = 1024%N := size_products 10.
have pr s : s \in products r 10 -> size s = 10%N by apply: products_row.
move: (products r 10) sz pr => st sz pr.
case: ifP => // _; case: (ltnP 10 p) => // p10; case: ifP => // _ [<-] ch.
by split=> // s /mapP [k kc ->]; apply: pr; rewrite mem_nth // sz; exact: ch kc.
Qed.
End Direct.

(** * generator *)
Lemma set_symE p (theta : 'M[R]_p) r c v i j : set_sym theta r c v i j =
  if ((i == r) && (j == c)) || ((i == c) && (j == r)) then v else theta i j.
Proof.
rewrite /set_sym !mxE !eqxx /=; case: ifP => h2; first by rewrite orbT.
by rewrite orbF.
Qed.
Lemma set_sym_sym p (theta : 'M[R]_p) r c v : theta = theta^T -> set_sym theta r c v = (set_sym theta r c v)^T.
Proof.
move=> s; apply/matrixP=> i j; rewrite [RHS]mxE !set_symE orbC (andbC (i == c)) (andbC (i == r)).
by case: ifP => // _; rewrite {1}s mxE.
Qed.
Lemma changes_sym p (theta : 'M[R]_p) pairs pick : theta = theta^T ->
  ising_changes theta pairs pick = (ising_changes theta pairs pick)^T.
Proof.
rewrite /ising_changes; move: 0%N => k; elim: pairs theta k => [|rc l IH] theta k s //=.
by apply: IH; apply: set_sym_sym.
Qed.
Lemma update_sym p (theta : 'M[R]_p) pairs pick fuel k theta' : theta = theta^T ->
  ising_update_loop pairs pick fuel k theta = Some theta' -> theta' = theta'^T.
Proof.
elim: fuel k theta => [|fuel IH] k theta s //=; case: ifP => _; last by case=> <-; apply: changes_sym.
by apply: IH; apply: changes_sym.
Qed.

Section Gen.
Variable p : nat.
Definition ternary (theta : 'M[R]_p) : Prop := forall i j, theta i j \in [:: - 1; 0; 1 : R].
Definition choices (pick : nat -> R -> R -> R) : Prop := forall k a b, pick k a b \in [:: a; b].
Lemma changes_ternary (theta : 'M[R]_p) pairs pick : choices pick -> ternary theta -> ternary (ising_changes theta pairs pick).
Proof.
move=> ch; rewrite /ising_changes; move: 0%N => k; elim: pairs theta k => [|[r c] l IH] theta k t //=.
apply: IH => i j; rewrite set_symE; case: ifP => // _; case: ifP => _.
  by have := ch k (- 1) 1; rewrite !inE => /orP [/eqP ->|/eqP ->]; rewrite eqxx ?orbT.
by have := ch k (theta r c) 0; rewrite inE => /orP [/eqP ->|]; [exact: t | rewrite inE => /eqP ->; rewrite !inE eqxx orbT].
Qed.
Lemma update_ternary (theta : 'M[R]_p) pairs pick fuel k theta' : (forall k, choices (pick k)) -> ternary theta ->
  ising_update_loop pairs pick fuel k theta = Some theta' -> ternary theta'.
Proof.
move=> ch; elim: fuel k theta => [|fuel IH] k theta s //=; case: ifP => _; last by case=> <-; apply: changes_ternary.
by apply: IH; apply: changes_ternary.
Qed.
Lemma update_l1_ok (theta : 'M[R]_p) no pairs pick fuel o : theta = theta^T ->
  update_ising_l1 theta no pairs pick fuel = Some o -> exists theta', [/\ o = IOk theta', theta' = theta'^T &
    (forall k, choices (pick k)) -> ternary theta -> ternary theta'].
Proof.
move=> s; rewrite /update_ising_l1; case: no => [|no].
  by case=> <-; exists theta; rewrite -s eqxx.
case e: (ising_update_loop _ _ _ _ _) => [theta'|] // [<-]; have s' := update_sym s e.
by exists theta'; rewrite {1}s' eqxx; split=> // ch tt; exact: update_ternary ch tt e.
Qed.
Lemma generator_ok (graph : 'M[R]_p) T mode change pairs pick fuel o : graph = graph^T ->
  ising_theta_generator graph T mode change pairs pick fuel = Some o ->
  (((1 < T)%N && ((mode == "switch"%string) || (mode == "diffusion"%string))) /\ o = IRaise IValueError) \/
  exists thetas, [/\ o = IOk thetas, size thetas = maxn 1 T, forall theta, theta \in thetas -> theta = theta^T &
    (forall t k, choices (pick t k)) -> ternary graph -> forall theta, theta \in thetas -> ternary theta].
Proof.
move=> s; rewrite /ising_theta_generator; set bad := (mode == _) || _.
set step := fun acc t => _.
have IH : forall l thetas, thetas != [::] -> (forall theta, theta \in thetas -> theta = theta^T) ->
   foldl step (Some (IOk thetas)) l = Some o ->
   ((l != [::]) && bad /\ o = IRaise IValueError) \/
   exists th, [/\ o = IOk th, size th = (size thetas + size l)%N, forall theta, theta \in th -> theta = theta^T &
    (forall t k, choices (pick t k)) -> ternary graph -> (forall theta, theta \in thetas -> ternary theta) ->
     forall theta, theta \in th -> ternary theta].
  elim=> [|t l IHl] thetas ne sy /=; first by case=> <-; right; exists thetas; rewrite addn0.
  case: (boolP bad) => [bd|nbd].
    have -> : foldl step (Some (IRaise IValueError)) l = Some (IRaise IValueError) by elim: l {IHl}.
    by case=> <-; left.
  have lm : last graph thetas \in thetas by case: (thetas) ne => //= a l' _; apply: mem_last.
  have sl := sy _ lm.
  case e: (update_ising_l1 _ _ _ _ _) => [o'|]; last first.
    by have -> : foldl step None l = None by elim: l {IHl}.
  have [theta' [-> s' t']] := update_l1_ok sl e.
  have ne' : rcons thetas theta' != [::] by case: (thetas).
  move/(IHl _ ne') => [|[]|[th [eo sz sth tth]]].
  - by move=> theta; rewrite mem_rcons inE => /orP [/eqP ->|/sy].
  - by rewrite (negbTE nbd) andbF.
  right; exists th; rewrite eo sz size_rcons addSnnS; split=> // ch tg tt; apply: tth => // theta.
  rewrite mem_rcons inE => /orP [/eqP ->|/tt //]; apply: t' => //; exact: tt.
move/(IH _ [:: graph] isT) => [theta|[h eo]|[th [eo sz sth tth]]].
- by rewrite inE => /eqP ->.
- by left; split=> //; case: T h {IH step} => [|[|T]].
right; exists th; split=> //; first by rewrite sz size_iota maxnE subn1.
by move=> ch tg; apply: tth => // theta; rewrite inE => /eqP ->.
Qed.
End Gen.
