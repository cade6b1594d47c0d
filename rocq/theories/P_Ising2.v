(** The heat-bath chain: stationarity of the Ising law, geometric mixing. *)
From Coq Require Import Reals.
From mathcomp Require Import all_ssreflect all_algebra.
From Verif Require Import RStruct RTac S_Prob P_Prob S_Ising M_Ising P_Ising.
Import Order.TTheory GRing.Theory Num.Theory.

Set Implicit Arguments.
Unset Strict Implicit.
Unset Printing Implicit Defensive.
Local Open Scope ring_scope.

Section Mix.
Variable p : nat.
Variables (theta : 'M[R]_p) (thr : 'I_p -> R) (beta : R) (r : R * R).
Local Notation config := (config p).
Local Notation pconfig := (pconfig p).
Local Notation w := (weight theta thr beta r).
Local Notation pp := (pp theta thr beta r).
Variable x : pconfig.

Definition hb (i : 'I_p) (h : config -> R) (c : config) : R :=
  pp i c * h (setb c i true) + (1 - pp i c) * h (setb c i false).
Definition hbs (l : seq 'I_p) (h : config -> R) : config -> R := foldr hb h l.

Lemma hbs_cat l l' h : hbs (l ++ l') h = hbs l (hbs l' h).
Proof. by rewrite /hbs foldr_cat. Qed.

Lemma agrees_setb c i b : x i = None -> agrees x (setb c i b) = agrees x c.
Proof.
move=> xi; apply/forallP/forallP => H j; have := H j; rewrite ffunE; case: eqP => // ->; by rewrite xi.
Qed.

Section Stat.
Hypothesis sym : theta = theta^T.
Lemma hb_weight i h c : hb i h c * (w (setb c i true) + w (setb c i false)) =
  w (setb c i true) * h (setb c i true) + w (setb c i false) * h (setb c i false).
Proof.
have E := ppE thr beta r sym i c; rewrite /hb.
move: E (h _) (h _); move: (pp i c) (w _) (w _) => q a b E u v.
have -> : (q * v + (1 - q) * u) * (b + a) = v * (q * (b + a)) + u * ((b + a) - q * (b + a)) by mcring.
rewrite E; mcring.
Qed.

Definition flip (i : 'I_p) (c : config) : config := setb c i (~~ c i).
Lemma flipK i : involutive (flip i).
Proof. by move=> c; rewrite /flip setb2 setbE negbK setb_id. Qed.
Lemma flip_sum (T : config -> R) i c (S : R -> R -> R) : (forall a b, S a b = S b a) ->
  S (T c) (T (flip i c)) = S (T (setb c i true)) (T (setb c i false)).
Proof.
move=> sy; rewrite /flip; case e: (c i); rewrite -{1}(setb_id c i) e //=.
Qed.

Lemma hb_stat1 i h : x i = None ->
  \sum_(c | agrees x c) w c * hb i h c = \sum_(c | agrees x c) w c * h c.
Proof.
move=> xi.
have dbl (F : config -> R) : \sum_(c | agrees x c) F c + \sum_(c | agrees x c) F c =
    \sum_(c | agrees x c) (F (setb c i true) + F (setb c i false)).
  rewrite {2}(reindex_inj (inv_inj (flipK i))) /=.
  rewrite [X in _ + X](eq_bigl (agrees x)) -?big_split /=; last by move=> c; rewrite /flip agrees_setb.
  by apply: eq_bigr => c _; apply: (flip_sum F i c (S := fun a b => a + b)) => a b; exact: addrC.
have inj (a b : R) : a + a = b + b -> a = b by move=> e; mclra.
apply: inj; rewrite !dbl; apply: eq_bigr => c _; rewrite -[RHS]hb_weight.
have E b : hb i h (setb c i b) = hb i h c by rewrite /hb !setb2 pp_setb.
by rewrite !E -mulrDl mulrC.
Qed.
Lemma hbs_stat l h : (forall i, i \in l -> x i = None) ->
  \sum_(c | agrees x c) w c * hbs l h c = \sum_(c | agrees x c) w c * h c.
Proof.
elim: l => [|i l IH] //= xl; rewrite hb_stat1 ?IH //; last by apply: xl; rewrite mem_head.
by move=> j jl; apply: xl; rewrite inE jl orbT.
Qed.
End Stat.

(** bounds *)
Lemma hb_le i h h' c : (forall b, h (setb c i b) <= h' (setb c i b)) -> hb i h c <= hb i h' c.
Proof.
move=> hh; apply: ler_add; apply: ler_wpmul2l; rewrite ?hh // ?subr_ge0 ltW ?pp_gt0 ?pp_lt1 //.
Qed.
Lemma hb_const i k c : hb i (fun=> k) c = k.
Proof. rewrite /hb; move: (pp i c) => q; mcring. Qed.
Lemma hbs_bounds l h (m M : R) c : (forall i, i \in l -> x i = None) ->
  (forall c, agrees x c -> m <= h c <= M) -> agrees x c -> m <= hbs l h c <= M.
Proof.
move=> xl hb0; elim: l xl c => [|i l IH] xl c ac; first exact: hb0.
have xi : x i = None by apply: xl; rewrite mem_head.
have H b : m <= hbs l h (setb c i b) <= M.
  by apply: IH; [move=> j jl; apply: xl; rewrite inE jl orbT | rewrite agrees_setb].
rewrite /= -(hb_const i m c) -{1}(hb_const i M c); apply/andP; split; apply: hb_le => b; by case/andP: (H b).
Qed.

Definition setall (l : seq 'I_p) (c : config) : config := foldl (fun c i => setb c i true) c l.

Section Minor.
Variable a : R.
Hypothesis a0 : 0 < a.
Hypothesis al : forall i c, a <= pp i c.
Lemma hb_opp i h c : hb i (fun c => - h c) c = - hb i h c.
Proof. rewrite /hb; move: (pp i c) (h _) (h _) => q u v; mcring. Qed.
Lemma hb_eq i h h' c : h =1 h' -> hb i h c = hb i h' c.
Proof. by move=> e; rewrite /hb !e. Qed.
Lemma hbs_opp l h c : hbs l (fun c => - h c) c = - hbs l h c.
Proof.
elim: l c => [|i l IH] c //=; rewrite -hb_opp; exact: hb_eq.
Qed.

Lemma hbs_lower l h m c : (forall i, i \in l -> x i = None) ->
  (forall c, agrees x c -> m <= h c) -> agrees x c ->
  a ^+ size l * h (setall l c) + (1 - a ^+ size l) * m <= hbs l h c.
Proof.
move=> xl hm; elim: l xl c => [|i l IH] xl c ac.
  by rewrite /= expr0 subrr mul0r mul1r addr0.
have xi : x i = None by apply: xl; rewrite mem_head.
have xl' j : j \in l -> x j = None by move=> jl; apply: xl; rewrite inE jl orbT.
have H := IH xl' (setb c i true); rewrite agrees_setb // in H; move/(_ ac): H => H.
have Hm b : m <= hbs l h (setb c i b).
  pose M := \sum_c `|h c|.
  have : m <= hbs l h (setb c i b) <= M; last by case/andP.
  apply: hbs_bounds => // [c' ac'|]; last by rewrite agrees_setb.
  rewrite hm //= (le_trans (ler_norm _)) // /M (bigD1 c') //= ler_addl sumr_ge0 // => *; exact: normr_ge0.
have hmS := hm (setall l (setb c i true)).
rewrite /= /hb exprS; move: (Hm true) (Hm false) H (al i c) (ltW (pp_lt1 theta thr beta r i c)) a0.
move: (hbs l h _) (hbs l h _) (pp i c) (h _) (a ^+ size l) => u v q k b; move: (a) (m) => a' m' H1 H2 H3 H4 H5 H6.
have e : q * v + (1 - q) * u - (a' * b * k + (1 - a' * b) * m') =
   a' * (v - (b * k + (1 - b) * m')) + (q - a') * (v - m') + (1 - q) * (u - m') by mcring.
have [f1 f2 f3] : [/\ 0 <= a', 0 <= q - a' & 0 <= 1 - q] by rewrite !subr_ge0 (ltW H6).
have [f4 f5 f6] : [/\ 0 <= v - m', 0 <= u - m' & 0 <= v - (b * k + (1 - b) * m')] by rewrite !subr_ge0.
by rewrite -subr_ge0 e; apply: addr_ge0; [apply: addr_ge0|]; apply: mulr_ge0.
Qed.
Lemma hbs_upper l h M c : (forall i, i \in l -> x i = None) ->
  (forall c, agrees x c -> h c <= M) -> agrees x c ->
  hbs l h c <= a ^+ size l * h (setall l c) + (1 - a ^+ size l) * M.
Proof.
move=> xl hM ac.
have H := hbs_lower (h := fun c => - h c) (m := - M) xl _ ac.
have : forall c, agrees x c -> - M <= - h c by move=> c' ac'; rewrite ler_opp2 hM.
by move/H; rewrite hbs_opp !mulrN -opprD ler_opp2.
Qed.

(** sweeps over a list of free variables that contains them all *)
Variable F : seq 'I_p.
Hypothesis Ffree : forall i, i \in F -> x i = None.
Hypothesis Fall : forall i, x i = None -> i \in F.
Definition top : config := [ffun i => odflt true (x i)].
Lemma setallE l c : setall l c = [ffun i => (i \in l) || c i].
Proof.
elim: l c => [|j l IH] c /=; first by apply/ffunP=> i; rewrite ffunE.
rewrite IH; apply/ffunP=> i; rewrite !ffunE inE; case: (i == j) => //=; by rewrite orbT.
Qed.
Lemma setall_top c : agrees x c -> setall F c = top.
Proof.
move=> ac; rewrite setallE; apply/ffunP=> i; rewrite !ffunE.
move/forallP: ac => /(_ i); case e: (x i) => [b|] => [/eqP ->|_] /=; last by rewrite Fall.
by case: (boolP (i \in F)) => // /Ffree; rewrite e.
Qed.

Definition sweeps (N : nat) : seq 'I_p := flatten (nseq N F).
Lemma sweeps_free N i : i \in sweeps N -> x i = None.
Proof. by rewrite /sweeps; elim: N => //= N IH; rewrite mem_cat => /orP [/Ffree|]. Qed.

Lemma mixing N h (m M : R) : (forall c, agrees x c -> m <= h c <= M) ->
  exists m' M', [/\ M' - m' = (1 - a ^+ size F) ^+ N * (M - m) &
    forall c, agrees x c -> m' <= hbs (sweeps N) h c <= M'].
Proof.
move=> hm; elim: N => [|N [m' [M' [e H]]]]; first by exists m, M; rewrite expr0 mul1r.
exists (a ^+ size F * hbs (sweeps N) h top + (1 - a ^+ size F) * m').
exists (a ^+ size F * hbs (sweeps N) h top + (1 - a ^+ size F) * M'); split.
  by rewrite exprS -mulrA -e; move: (_ ^+ _) (hbs _ _ _) => u v; mcring.
move=> c ac; rewrite /sweeps /= -/(sweeps N) hbs_cat -(setall_top ac).
by rewrite hbs_lower ?hbs_upper // => c' /H /andP [].
Qed.

Lemma hbs_close N h c : theta = theta^T -> (forall c, agrees x c -> 0 <= h c <= 1) -> agrees x c ->
  `|hbs (sweeps N) h c - \sum_(c | agrees x c) ising_law theta thr beta r x c * h c| <= (1 - a ^+ size F) ^+ N.
Proof.
move=> sym h01 ac.
have [m' [M' [e H]]] := mixing N h01; rewrite subr0 mulr1 in e; rewrite -e.
set Z := \sum_(c | agrees x c) w c.
have Z0 : 0 < Z.
  by rewrite /Z (bigD1 c) //= ltr_spaddl ?weight_gt0 // sumr_ge0 // => *; exact/ltW/weight_gt0.
have E : \sum_(c | agrees x c) ising_law theta thr beta r x c * h c =
         (\sum_(c | agrees x c) w c * hbs (sweeps N) h c) / Z.
  rewrite hbs_stat //; last exact: sweeps_free.
  rewrite mulr_suml; apply: eq_bigr => c' ac'; by rewrite /ising_law ac' -/Z mulrAC.
have lo : m' <= (\sum_(c | agrees x c) w c * hbs (sweeps N) h c) / Z.
  rewrite ler_pdivl_mulr // /Z mulr_sumr; apply: ler_sum => c' ac'; rewrite mulrC; apply: ler_wpmul2l.
    exact/ltW/weight_gt0.
  by case/andP: (H c' ac').
have hi : (\sum_(c | agrees x c) w c * hbs (sweeps N) h c) / Z <= M'.
  rewrite ler_pdivr_mulr // /Z mulr_sumr; apply: ler_sum => c' ac'; rewrite (mulrC M'); apply: ler_wpmul2l.
    exact/ltW/weight_gt0.
  by case/andP: (H c' ac').
rewrite E; case/andP: (H c ac); move: lo hi; move: (_ / Z) (hbs _ _ _) => u v lo hi l1 l2.
by rewrite ler_norml; apply/andP; split; mclra.
Qed.
End Minor.

(** a positive lower bound of the conditional probabilities *)
Lemma pp_min : exists a : R, [/\ 0 < a, a <= 1,
  forall g : seq R, 1 \in g -> (forall i c, pp i c \in g) -> a \in g & forall i c, a <= pp i c].
Proof.
case: (pickP (fun ic : 'I_p * config => true)) => [ic0 _|none]; last first.
  by exists 1; split=> [||//|i c]; rewrite ?ltr01 ?lexx //; have := none (i, c).
pose f (ic : 'I_p * config) : R := pp ic.1 ic.2.
have [i0 _ mn] := Order.TotalTheory.arg_minP f (erefl : (fun _ : 'I_p * config => true) ic0).
exists (f i0); split; [exact: pp_gt0 | exact/ltW/pp_lt1 | by move=> g _; apply | by move=> i c; exact: (mn (i, c))].
Qed.
End Mix.
