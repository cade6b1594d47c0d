(** Proofs about the Wishart process sampler. *)
From Coq Require Import Reals.
From mathcomp Require Import all_ssreflect all_algebra.
From Verif Require Import RStruct RTac LinTac S_Mat S_Fit NP M_Utils M_GLM M_Sampling.
From Verif Require Import RMx P_Prox P_LGL P_Sampling.
Import Order.TTheory GRing.Theory Num.Theory.

Set Implicit Arguments.
Unset Strict Implicit.
Unset Printing Implicit Defensive.
Local Open Scope ring_scope.

Lemma Val_inj T (a b : T) : Val a = Val b -> a = b. Proof. by case. Qed.

Section Ess.
Variables (v p N : nat).
Implicit Types (st : ess_state v p N) (nu : umat v p N).
Lemma ess_res lik st nu a k unif st' : elliptical_slice lik st nu a k unif = Val st' ->
  st' = st \/ exists b, [/\ b \in (ess_run lik st nu a k unif).1,
    ess_xx st' = cos b.1.2 *: ess_xx st + sin b.1.2 *: nu,
    ess_V st' = GWP_construct (ess_xx st') (ess_L st), ess_L st' = ess_L st /\ ess_logl st' = Some (lik (ess_V st')) &
    xgt (lik (ess_V st')) (xadd (xmul (Fin (1 / 1000%:R)) (np_log (unif 0%N)))
                             (if ess_logl st is Some l then l else lik (ess_V st)))].
Proof.
rewrite /elliptical_slice /ess_run /=; set hh := xadd _ _; clearbody hh.
set r := (if a <= 0 then _ else _); case E: r.2 => [[[[y V] l]|]|e] //= h; have {h} <- := Val_inj h; last by left.
right; have [b [h1 h2 h3 h4 h5]] : exists b, [/\ b \in r.1, y = cos b.1.2 *: ess_xx st + sin b.1.2 *: nu,
    V = GWP_construct y (ess_L st), l = lik V & xgt l hh].
  by move: E; rewrite /r; case: ifP => _ E; exact: (loop_res E).
by exists b; split=> //=; rewrite -?h4.
Qed.
Lemma ess_total lik st nu a k unif l : (forall i, 0 <= unif i < 1) ->
  ess_logl st = Some (Fin l) -> lik (GWP_construct (ess_xx st) (ess_L st)) = Fin l ->
  exists st', elliptical_slice lik st nu a k unif = Val st'.
Proof.
move=> hu hl he; rewrite /elliptical_slice /ess_run /= hl.
set r := (if a <= 0 then _ else _); have nr e : r.2 <> Raise e.
  rewrite /r; case: ifP => _; apply: loop_noraise; rewrite he; exact: slice_lt.
by case E: r.2 nr => [[[[y V] m]|]|e] // nr; [eexists; reflexivity | eexists; reflexivity | case: (nr e)].
Qed.
Lemma ess_trace_ok lik st nu a k unif : (forall i, 0 <= unif i < 1) ->
  all (fun b : R * R * R => [&& b.1.1 <= 0, 0 <= b.2, b.1.1 <= b.1.2 <= b.2 & b.2 - b.1.1 <= (if a <= 0 then 2%:R * PI else a)])
    (ess_run lik st nu a k unif).1
  /\ sorted shrink (ess_run lik st nu a k unif).1 /\ (size (ess_run lik st nu a k unif).1 <= k)%N.
Proof.
move=> hu; rewrite /ess_run /=; set hh := xadd _ _; clearbody hh.
have pi0 : (0 : R) < 2%:R * PI by apply: mulr_gt0; [exact: ltr0Sn | apply/RltP; exact: PI_RGT_0].
have /andP [u0 u1] := hu 1%N.
have gen j lo hi phi w : lo <= 0 -> 0 <= hi -> lo <= phi <= hi -> hi - lo <= w ->
  let tr := (ess_loop lik (ess_L st) (ess_xx st) nu hh unif k j lo hi phi).1 in
  all (fun b : R * R * R => [&& b.1.1 <= 0, 0 <= b.2, b.1.1 <= b.1.2 <= b.2 & b.2 - b.1.1 <= w]) tr /\ sorted shrink tr /\ (size tr <= k)%N.
  move=> h1 h2 h3 h4 tr; have [t1 t2] := loop_trace lik (ess_L st) (ess_xx st) nu hh hu k j h1 h2 h3.
  split; last split; last exact: loop_size.
    apply: sub_all t1 => b /and5P [a1 a2 a3 a4 a5]; apply/and4P; split=> //; apply: le_trans h4; exact: ler_sub.
  by move: t2; rewrite -/tr; case: tr => // b tl [].
case: ifP => ha.
  have e : unif 1%N * 2%:R * PI = unif 1%N * (2%:R * PI) by exact: esym (mulrA _ _ _).
  apply: gen; rewrite ?e ?subr_le0.
  - by rewrite -[X in _ <= X]mul1r; apply: ler_wpmul2r; exact: ltW.
  - by rewrite mulr_ge0 // ltW.
  - by rewrite lexx andbT ler_subl_addr ler_addl ltW.
  - by rewrite opprB addrCA subrr addr0.
have a0 : 0 < a by rewrite ltNge ha.
have lo0 : - a * unif 1%N <= 0 by rewrite mulNr oppr_le0 mulr_ge0 // ltW.
have hi0 : 0 <= - a * unif 1%N + a.
  by rewrite mulNr addrC subr_ge0 -[X in _ <= X]mulr1; apply: ler_wpmul2l; exact: ltW.
apply: gen => //; last by rewrite addrAC subrr add0r.
by apply: next_in => //; rewrite ler_addl ltW.
Qed.
End Ess.

Section Accept.
Variables (v p N : nat) (lik : covs p N -> xR) (L : 'M[R]_p) (x nu : umat v p N) (V : covs p N) (l : xR) (unif : nat -> R).
Let phi := unif 1%N * 2%:R * PI.
Let y : umat v p N := cos phi *: x + sin phi *: nu.
Let hh := xadd (xmul (Fin (1 / 1000%:R)) (np_log (unif 0%N))) l.
Lemma ess_accept k : xgt (lik (GWP_construct y L)) hh ->
  elliptical_slice lik (ESS x V L (Some l)) nu 0 k.+1 unif
  = Val (ESS y (GWP_construct y L) L (Some (lik (GWP_construct y L)))).
Proof. by move=> h; rewrite /elliptical_slice /ess_run lexx /ess_loop -/ess_loop [ess_logl _]/= [ess_L _]/= -/hh -/phi -/y h. Qed.
Lemma ess_reject1 : xgt (lik (GWP_construct y L)) hh = false ->
  elliptical_slice lik (ESS x V L (Some l)) nu 0 1 unif
  = if phi == 0 then Raise RuntimeError else Val (ESS x V L (Some l)).
Proof.
move=> h; rewrite /elliptical_slice /ess_run lexx /ess_loop [ess_logl _]/= [ess_L _]/= -/hh -/phi -/y h.
by case: ltgtP.
Qed.
End Accept.

Section Fit.
Variables (v p N : nat).
Variables (likelihood : covs p N -> R) (logp_post : umat v p N -> R -> R) (prior_logpdf : R -> R).
Variables (lognorm_logpdf norm_logpdf : R -> R -> R -> R).
Variables (r_ess : nat -> nat -> R) (r_logn : nat -> R -> R -> R) (r_u : nat -> R)
  (r_norm : nat -> nat -> R -> R -> R) (r_us : nat -> nat -> R) (gp : nat -> R -> umat v p N).
Variables (var_prop var_Lprop : R) (learn_ell : bool).
Notation body := (fit_body likelihood logp_post prior_logpdf lognorm_logpdf norm_logpdf r_ess r_logn r_u r_norm r_us gp var_prop var_Lprop learn_ell).
Notation floop := (fit_loop likelihood logp_post prior_logpdf lognorm_logpdf norm_logpdf r_ess r_logn r_u r_norm r_us gp var_prop var_Lprop learn_ell).
Notation fitf := (fit likelihood logp_post prior_logpdf lognorm_logpdf norm_logpdf r_ess r_logn r_u r_norm r_us gp var_prop var_Lprop learn_ell).
Hypothesis hu : forall i k, 0 <= r_ess i k < 1.
Variables (umat0 : umat v p N) (L0 : 'M[R]_p).

(** a Gaussian process draw made during the run *)
Definition gp_draw (w : umat v p N) : Prop := w = umat0 \/ exists i th, w = gp i th.
Definition multiple (u : umat v p N) : Prop := exists c w, gp_draw w /\ u = c *: w.

Definition finv (i : nat) (s : fstate v p N) : Prop :=
  [/\ ess_logl (fs_cs s) = Some (Fin (likelihood (GWP_construct (ess_xx (fs_cs s)) (ess_L (fs_cs s))))),
      gp_draw (fs_umat s) /\ (exists c, ess_xx (fs_cs s) = c *: fs_umat s),
      [/\ size (fs_u s) = i, size (fs_ll s) = i & size (fs_lp s) = i],
      (forall u, u \in fs_u s -> multiple u) &
      (learn_ell = false -> ess_L (fs_cs s) = L0 /\ fs_ll s = [seq likelihood (GWP_construct u L0) | u <- fs_u s])].

Lemma finv_step i s : finv i s -> exists2 s', body i s = Val s' & finv i.+1 s'.
Proof.
case=> h1 [hg [c hc]] [z1 z2 z3] hm hl.
have [cs E] := @ess_total v p N (fun V => Fin (likelihood V)) _ (fs_umat s) 0 20 _ _ (hu i) h1 erefl.
rewrite /fit_body E.
have [k1 k2 k3] : [/\ ess_logl cs = Some (Fin (likelihood (GWP_construct (ess_xx cs) (ess_L cs)))),
    exists c, ess_xx cs = c *: fs_umat s & ess_L cs = ess_L (fs_cs s)].
  have [->|[b [_ e2 e3 [e4 e5] _]]] := ess_res E; first by split=> //; exists c.
  split=> //; first by rewrite e5 e3 e4.
  by exists (cos b.1.2 * c + sin b.1.2); rewrite e2 hc scalerDl scalerA.
clear E; eexists; first reflexivity.
set ta := sample_hyper_kernel _ _ _ _ _ _.
set um := (if ta.2 then gp i ta.1 else fs_umat s).
set cs1 := (if ta.2 then _ else cs).
have gu : gp_draw um by rewrite /um; case: ta.2 => //; right; exists i, ta.1.
have [m1 m2 m3] : [/\ ess_logl cs1 = Some (Fin (likelihood (GWP_construct (ess_xx cs1) (ess_L cs1)))),
    exists c, ess_xx cs1 = c *: um & ess_L cs1 = ess_L (fs_cs s)].
  rewrite /cs1 /um; case: ta.2 => //=; split=> //; by exists 1; rewrite scale1r.
set Lt := (if learn_ell then _ else fs_Ltau s); set L' := (if learn_ell then ell_of p Lt else fs_L s).
set cs2 := (if learn_ell then _ else cs1).
have [n1 n2] : ess_logl cs2 = Some (Fin (likelihood (GWP_construct (ess_xx cs2) (ess_L cs2)))) /\ ess_xx cs2 = ess_xx cs1.
  by rewrite /cs2; case: learn_ell.
split=> /=.
- exact: n1.
- by split=> //; rewrite n2.
- by rewrite !size_rcons z1 z2 z3.
- move=> u; rewrite mem_rcons inE => /orP [/eqP ->|/hm //].
  by rewrite n2; have [c' e] := m2; exists c', um.
- move=> le; have [l1 l2] := hl le.
  have ec : ess_L cs2 = L0 by rewrite /cs2 le m3.
  by split=> //; rewrite map_rcons -l2 /cs_logl n1 ec.
Qed.
Lemma floop_inv n : forall i s, finv i s -> exists2 s', floop n i s = Val s' & finv (i + n)%N s'.
Proof.
elim: n => [|n IH] i s h; first by exists s => //; rewrite addn0.
have [s1 e1 h1] := finv_step h; have [s2 e2 h2] := IH _ _ h1.
by exists s2; rewrite ?addnS -?addSn //= e1.
Qed.
Lemma fit_run theta n : exists out, fitf theta umat0 L0 n = Val out /\
  let: (us, lls, lps, Ls) := out in
  [/\ [/\ size us = n, size lls = n, size lps = n & size Ls = n],
      (forall u, u \in us -> multiple u),
      (learn_ell = false -> lls = [seq likelihood (GWP_construct u L0) | u <- us]) &
      exists L, forall k, (k < n)%N -> nth 0 Ls k = L].
Proof.
have h0 : finv 0 (FS (ESS umat0 (GWP_construct umat0 L0) L0 (Some (Fin (likelihood (GWP_construct umat0 L0)))))
                     theta umat0 (lower_of L0) (ell_of p (lower_of L0)) [::] [::] [::]).
  split=> //=; split=> //; first by left.
  by exists 1; rewrite scale1r.
have [s e [h1 [h2 h2'] [z1 z2 z3] h4 h5]] := floop_inv n h0.
rewrite add0n in z1 z2 z3.
rewrite /fit e; eexists; split; first reflexivity.
split; [by split=> //; rewrite size_nseq | exact: h4 | by move=> /h5 [] |].
by exists (fs_L s) => k hk; rewrite nth_nseq hk.
Qed.
End Fit.

Lemma argmax_lt (s : seq R) : (0 < size s)%N -> (np_argmax s < size s)%N.
Proof.
move=> h; rewrite -has_find; case: s h => // x0 s _; apply/hasP.
elim: s x0 => [|y s IH] x0; first by exists x0; rewrite ?inE //= lexx.
have [z hz /allP ha] := IH y.
case: (leP x0 z) => h; first by exists z; [rewrite inE hz orbT | apply/allP => w; rewrite inE => /orP [/eqP ->|/ha]].
exists x0; [by rewrite inE eqxx | apply/allP => w; rewrite inE => /orP [/eqP ->//|/ha]].
by move=> /le_trans; apply; exact: ltW.
Qed.
Lemma argmax_max (s : seq R) b : (0 < size s)%N -> b \in s -> b <= nth 0 s (np_argmax s).
Proof.
move=> h hb; have := argmax_lt h; rewrite -has_find => /(nth_find 0) /allP; exact.
Qed.

Lemma predict_train v p N (pinvh : 'M[R]_N -> 'M[R]_N) (KB : 'M[R]_N) (u : umat v p N) L :
  pinvh_ok pinvh -> sym KB -> KB \in unitmx -> predict pinvh KB KB u L = GWP_construct u L.
Proof.
move=> hp hs hu; rewrite /predict hp // mulmxV //; congr GWP_construct; apply/ffunP => t; rewrite ffunE.
rewrite (bigD1 t) //= mxE eqxx scale1r big1 ?addr0 // => s hs'.
by rewrite mxE eq_sym (negbTE hs') scale0r.
Qed.

Lemma t_mvnE p N mvn (l : 'rV[R]_p -> 'M[R]_p -> R) (X : 'I_N -> seq 'rV[R]_p) Cov :
  (forall x t, x \in X t -> mvn x (Cov t) = Fin (l x (Cov t))) ->
  t_mvn_logpdf mvn X Cov = Fin (\sum_t (size (X t))%:R * \sum_(x <- X t) l x (Cov t)).
Proof.
move=> h; have e t : foldr (fun x a => xadd (mvn x (Cov t)) a) (Fin 0) (X t) = Fin (\sum_(x <- X t) l x (Cov t)).
  have : {subset X t <= X t} by [].
  elim: {-2}(X t) => [|x s IH] hs /=; first by rewrite big_nil.
  rewrite IH; last by move=> y hy; apply: hs; rewrite inE hy orbT.
  by rewrite h ?big_cons //; apply: hs; rewrite inE eqxx.
rewrite /t_mvn_logpdf -big_enum /=.
by elim: (enum _) => [|t s IH] /=; rewrite ?big_nil // big_cons IH e.
Qed.

Lemma gwp11 (a b : R) t : GWP_construct ([ffun=> b%:M] : umat 1 1 1) a%:M t = (a * b * (a * b))%:M.
Proof. by rewrite gwpE ffunE !tr_scalar_mx -!scalar_mxM tr_scalar_mx -scalar_mxM. Qed.
Lemma tril1 : tril_indices 1 = [:: (ord0, ord0)].
Proof.
have en1 : enum 'I_1 = [:: ord0] by apply: (inj_map val_inj); rewrite val_enum_ord.
by rewrite /tril_indices /= en1.
Qed.
Lemma ell1 (a : R) : ell_of 1 [:: a] = a%:M.
Proof. by apply/matrixP => i j; rewrite !ord1 !mxE tril1 /= ?mulr1n. Qed.
