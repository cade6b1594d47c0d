(** Property theorems C43, C86-C92: slice sampling, Metropolis-Hastings updates, Wishart processes. *)
From Coq Require Import Reals.
From mathcomp Require Import all_ssreflect all_algebra.
From Verif Require Import RStruct RTac LinTac S_Mat S_Fit NP M_Utils M_GLM M_Sampling.
From Verif Require Import RMx P_Prox P_LGL P_Sampling P_Sampling2.
Import Order.TTheory GRing.Theory Num.Theory.

Set Implicit Arguments.
Unset Strict Implicit.
Unset Printing Implicit Defensive.
Local Open Scope ring_scope.

(** numbers that np.random.uniform can return *)
Definition uniforms (unif : nat -> R) : Prop := forall k, 0 <= unif k < 1.
(** the log-likelihood stored in the state is the one of the state *)
Definition consistent v p N (lik : covs p N -> xR) (st : ess_state v p N) : Prop :=
  exists l : R, ess_logl st = Some (Fin l) /\ lik (GWP_construct (ess_xx st) (ess_L st)) = Fin l.

(** * C43: elliptical slice sampling *)
(** every bracket contains 0 and its proposal, is at most as wide as asked, is nested in the previous one and
    has the rejected angle as an end; at most max_iter proposals are made *)
Theorem C43_bracket : forall v p N (lik : covs p N -> xR) (st : ess_state v p N) prior angle_range max_iter unif,
  uniforms unif ->
  let tr := (ess_run lik st prior angle_range max_iter unif).1 in
  [/\ forall lo phi hi, (lo, phi, hi) \in tr ->
        [/\ lo <= 0, 0 <= hi, lo <= phi, phi <= hi & hi - lo <= (if angle_range <= 0 then 2%:R * PI else angle_range)],
      forall i, (i.+1 < size tr)%N ->
        let: (lo, phi, hi) := nth (0, 0, 0) tr i in let: (lo', phi', hi') := nth (0, 0, 0) tr i.+1 in
        [/\ lo <= lo', hi' <= hi & phi = lo' \/ phi = hi'] &
      (size tr <= max_iter)%N].
Proof.
move=> v p N lik st prior a k unif hu tr; have [h1 [h2 h3]] := ess_trace_ok lik st prior a k hu; split=> //.
  by move=> lo phi hi /(allP h1) /and4P [a1 a2 /andP [a3 a4] a5].
move=> i hi; have := sortedP (0, 0, 0) h2 => /(_ i hi).
case: (nth _ tr i) => [[lo phi] hi']; case: (nth _ tr i.+1) => [[lo2 phi2] hi2] /and3P [/= b1 b2 b3].
by split=> //; case/orP: b3 => /eqP ->; [left | right].
Qed.
Print Assumptions C43_bracket.

(** the result is the state itself, or a point of the ellipse at an angle of the bracket whose log-likelihood,
    stored with it, is above the slice *)
Theorem C43_accepted_above_slice : forall v p N (lik : covs p N -> xR) (st st' : ess_state v p N) prior angle_range
    max_iter unif, uniforms unif ->
  elliptical_slice lik st prior angle_range max_iter unif = Val st' ->
  st' = st \/ exists phi : R,
  [/\ - (if angle_range <= 0 then 2%:R * PI else angle_range) <= phi <= (if angle_range <= 0 then 2%:R * PI else angle_range),
      forall t, ess_xx st' t = cos phi *: ess_xx st t + sin phi *: prior t,
      ess_L st' = ess_L st /\ ess_V st' = GWP_construct (ess_xx st') (ess_L st),
      ess_logl st' = Some (lik (ess_V st')) &
      xgt (lik (ess_V st')) (xadd (xmul (Fin (1 / 1000%:R)) (np_log (unif 0%N)))
                               (if ess_logl st is Some l then l else lik (ess_V st)))].
Proof.
move=> v p N lik st st' prior a k unif hu E; have [->|[b [h1 h2 h3 [h4 h4'] h5]]] := ess_res E; [by left | right].
have [/allP /(_ _ h1) /and4P [a1 a2 /andP [a3 a4] a5] _] := ess_trace_ok lik st prior a k hu.
exists b.1.2; split=> //.
  move: (if a <= 0 then _ else a : R) a5 => w a5.
  have hlo : - w <= b.1.1 by rewrite ler_oppl; apply: le_trans a5; rewrite ler_addr.
  by rewrite (le_trans hlo a3) (le_trans a4) // (le_trans _ a5) // ler_addl oppr_ge0.
by move=> t; rewrite h2 !ffunE.
Qed.
Print Assumptions C43_accepted_above_slice.

(** the "shrunk to current position" error cannot happen *)
Theorem C43_never_fails : forall v p N (lik : covs p N -> xR) (st : ess_state v p N) prior angle_range max_iter unif,
  uniforms unif -> consistent lik st -> exists st', elliptical_slice lik st prior angle_range max_iter unif = Val st'.
Proof. by move=> v p N lik st prior a k unif hu [l [h1 h2]]; exact: ess_total h2. Qed.
Print Assumptions C43_never_fails.
Example C43_case : exists (lik : covs 1 1 -> xR) (st : ess_state 1 1 1) unif, uniforms unif /\ consistent lik st.
Proof.
exists (fun V : covs 1 1 => Fin (V 0 0 0)), (ESS 0 0 0 (Some (Fin 0))), (fun _ => 0).
split; first by move=> k; rewrite lexx ltr01.
by exists 0; split=> //; rewrite !ffunE mulmx0 mulmx0 mul0mx trmx0 mxE.
Qed.

(** * C86: the slice level. Refuted. *)
(** with one proposal, the state moves exactly when the uniform number is below (l'/l)^1000, l and l' being the
    likelihoods: not l'/l *)
Theorem C86_tempered : forall v p N (lik : covs p N -> R) (xx prior : umat v p N) V L unif,
  0 < unif 0%N < 1 -> 0 <= unif 1%N < 1 ->
  let l := lik (GWP_construct xx L) in
  let phi := unif 1%N * 2%:R * PI in
  let y := cos phi *: xx + sin phi *: prior in
  let l' := lik (GWP_construct y L) in
  elliptical_slice (fun V => Fin (lik V)) (ESS xx V L (Some (Fin l))) prior 0 1 unif =
  Val (if unif 0%N < exp (1000%:R * (l' - l)) then ESS y (GWP_construct y L) L (Some (Fin l'))
       else ESS xx V L (Some (Fin l))).
Proof.
move=> v p N lik xx prior V L unif /andP [u0 u1] /andP [w0 w1] l phi y l'.
have c0 : (0 : R) < 1000%:R by exact: ltr0Sn.
set hh := xadd (xmul (Fin (1 / 1000%:R)) (np_log (unif 0%N))) (Fin l).
have eh : xgt (Fin l') hh = (unif 0%N < exp (1000%:R * (l' - l))).
  rewrite /hh /np_log u0; move: (1000%:R : R) c0 => c c0 /=.
  have -> : unif 0%N < exp (c * (l' - l)) = (ln (unif 0%N) < c * (l' - l)).
    by rewrite -{1}[unif 0%N]exp_ln ?exp_ltE //; apply/RltP.
  by rewrite mul1r -ltr_subr_addr mulrC ltr_pdivr_mulr // [c * _]mulrC.
rewrite -eh; case E: (xgt (Fin l') hh).
  exact: (@ess_accept v p N (fun V => Fin (lik V)) L xx prior V (Fin l) unif 0 E).
rewrite (@ess_reject1 v p N (fun V => Fin (lik V)) L xx prior V (Fin l) unif E) -/phi.
case: eqP => // p0; exfalso; move: eh; rewrite E.
have -> : l' = l by rewrite /l' /y p0 cos_0 sin_0 scale1r scale0r addr0.
by rewrite subrr mulr0 exp_0 u1.
Qed.
Print Assumptions C86_tempered.

(** a proposal above the slice of the algorithm in the documentation, rejected *)
Theorem C86_documented_slice_refuted : exists (lik : covs 1 1 -> R) (xx prior : umat 1 1 1) V L unif,
  let l := lik (GWP_construct xx L) in
  let phi := unif 1%N * 2%:R * PI in
  let l' := lik (GWP_construct (cos phi *: xx + sin phi *: prior) L) in
  [/\ uniforms unif, ln (unif 0%N) + l < l' &
      elliptical_slice (fun V => Fin (lik V)) (ESS xx V L (Some (Fin l))) prior 0 1 unif
      = Val (ESS xx V L (Some (Fin l)))].
Proof.
have e0 : (0 : R) < exp (-1) by exact: exp_gt0.
have e1 : (exp (-1) : R) < 1 by rewrite -[X in _ < X](exp_0 : _ = 1 :> R) exp_ltE oppr_lt0 ltr01.
pose un k : R := if k is 0%N then exp (-1) else 4%:R^-1.
have q1 : (4%:R^-1 : R) < 1 by rewrite invf_lt1 ?ltr0Sn // ltr1n.
have q0 : (0 : R) < 4%:R^-1 by rewrite invr_gt0 ltr0Sn.
have hp : un 1%N * 2%:R * PI = Rdiv PI (IZR (Zpos (xO xH))) by rewrite /un; mcfield.
pose x1 : umat 1 1 1 := [ffun=> 1%:M].
exists (fun V : covs 1 1 => V 0 0 0 / 2%:R), x1, 0, 0, 1, un.
move=> l phi l'.
have el : l = 2%:R^-1 by rewrite /l -[1]/(1%:M) gwp11 !mulr1 mxE eqxx mulr1n; exact: div1r.
have el' : l' = 0.
  rewrite /l' /phi hp cos_PI2 sin_PI2 scale0r scale1r addr0 !ffunE trmx0 mul0mx mulmx0 mul0mx trmx0 mxE.
  by rewrite mul0r.
split.
- by case=> [|k]; rewrite /un; apply/andP; split=> //; exact: ltW.
- rewrite el el' /un [X in X + _]ln_exp addrC subr_lt0 invf_lt1 ?ltr0Sn //; by rewrite ltr1n.
- have C := @C86_tempered 1 1 1 (fun V : covs 1 1 => V 0 0 0 / 2%:R) x1 0 0 1 un.
  rewrite {}C; last first.
  + by rewrite /un q1 ltW.
  + by rewrite /un e0 e1.
  rewrite -/phi -/l -/l' el el'; case: ifP => // h; exfalso; move: h; rewrite /un exp_ltE sub0r mulrN ltr_opp2.
  rewrite ltr_pdivr_mulr ?ltr0Sn // mul1r ltr_nat //.
Qed.
Print Assumptions C86_documented_slice_refuted.

(** * C87: the Metropolis-Hastings updates leave their target invariant (detailed balance) *)
(** the target density exp(logp x), the proposal density q and the acceptance probability acc satisfy
    target(x) q(x,y) acc(x,y) = target(y) q(y,x) acc(y,x), and the code accepts y drawn from x exactly when its
    uniform number is below acc(x,y) *)
Theorem C87_kernel_width : forall (logp_post : R -> R) (lognorm_logpdf : R -> R -> R -> R) (var_proposal : R),
  let q x y := exp (lognorm_logpdf y (lognstat x var_proposal).2 (exp (lognstat x var_proposal).1)) in
  exists acc : R -> R -> R,
  [/\ forall x y, 0 <= acc x y <= 1,
      forall x draw u, 0 <= u < 1 ->
        let y := draw (lognstat x var_proposal).1 (lognstat x var_proposal).2 in
        sample_hyper_kernel logp_post lognorm_logpdf draw u x var_proposal = (if u < acc x y then (y, true) else (x, false)) &
      forall x y, exp (logp_post x) * q x y * acc x y = exp (logp_post y) * q y x * acc y x].
Proof.
move=> lp ll var q.
pose lq x y := ll y (lognstat x var).2 (exp (lognstat x var).1).
exists (fun x y => exp (np_min 0 (lp y - lp x + lq y x - lq x y))); split.
- move=> x y; rewrite (ltW (exp_gt0 _)) /= mh_min /np_min; case: ltP => // h; exact: ltW.
- move=> x draw u /andP [u0 u1] y; rewrite /sample_hyper_kernel -/y -/(lq x y) -/(lq y x) mh_acceptE //.
  by case: ifP.
- move=> x y; rewrite /q -/(lq x y) -/(lq y x) -[exp (lp x) * _]expD -[exp (lp y) * _]expD.
  have ra (a b c d : R) : a - b + c - d = (a + c) - (b + d) by rewrite opprD addrACA addrA.
  rewrite !ra.
  exact: mh_balance.
Qed.
Print Assumptions C87_kernel_width.

(** the update of one element of L, for the posterior lik(s) * prod_k prior(s_k) *)
Theorem C87_cholesky_element : forall (norm_logpdf : R -> R -> R -> R) (prior_logpdf : R -> R) (likelihood : seq R -> R)
    (sigma : R) (i : nat),
  let target s := exp (likelihood s + \sum_(x <- s) prior_logpdf x) in
  let q s y := exp (norm_logpdf y (nth 0 s i) sigma) in
  exists acc : seq R -> R -> R,
  [/\ forall s y, 0 <= acc s y <= 1,
      forall s draw u, 0 <= u < 1 ->
        let y := draw (nth 0 s i) sigma in
        sample_ell_comp norm_logpdf draw u s i sigma prior_logpdf likelihood = (if u < acc s y then y else nth 0 s i) &
      forall s y, (i < size s)%N ->
        let s' := set_nth 0 s i y in
        target s * q s y * acc s y = target s' * q s' (nth 0 s i) * acc s' (nth 0 s i)].
Proof.
move=> nl prior lik sg i target q.
pose po s := lik s + prior (nth 0 s i).
pose lq (s : seq R) y := nl y (nth 0 s i) sg.
pose d (s : seq R) y := po (set_nth 0 s i y) - po s + (nl (nth 0 s i) y sg - nl y (nth 0 s i) sg).
exists (fun s y => exp (np_min 0 (d s y))); split.
- move=> s y; rewrite (ltW (exp_gt0 _)) /= mh_min /np_min; case: ltP => // h; exact: ltW.
- by move=> s draw u /andP [u0 u1] y; rewrite /sample_ell_comp -/y mh_acceptE.
- move=> s y hi s'; have ns : nth 0 s' i = y by rewrite nth_set_nth /= eqxx.
  have ss : set_nth 0 s' i (nth 0 s i) = s.
    by rewrite /s' set_set_nth eqxx; apply: (@eq_from_nth _ 0) => [|k hk]; rewrite ?size_set_nth ?(maxn_idPr hi) // nth_set_nth /=; case: eqP => // ->.
  rewrite /target /q ns -[exp (lik s + _) * _]expD -[exp (lik s' + _) * _]expD.
  have sums : \sum_(x <- s') prior x - prior y = \sum_(x <- s) prior x - prior (nth 0 s i).
    have sz : size s' = size s by rewrite size_set_nth; exact/maxn_idPr.
    rewrite !(big_nth 0) sz !big_mkord (bigD1 (Ordinal hi)) //= ns addrAC subrr add0r.
    rewrite [in RHS](bigD1 (Ordinal hi)) //= [RHS]addrAC subrr add0r; apply: eq_bigr => k hk.
    by rewrite nth_set_nth /=; case: eqP => // e; move: hk; rewrite -val_eqE /= e eqxx.
  have e1 : d s y = (lik s' + \sum_(x <- s') prior x + nl (nth 0 s i) y sg) - (lik s + \sum_(x <- s) prior x + nl y (nth 0 s i) sg).
    rewrite /d /po -/s' ns; move: (\sum_(x <- s') prior x : R) (\sum_(x <- s) prior x : R) sums => a b /(canRL (subrK _)) ->.
    have g (l l' p' p'' b' m m' : R) : l' + p' - (l + p'') + (m - m') = l' + (b' - p'' + p') + m - (l + b' + m') by mcring.
    exact: g.
  have e2 : d s' (nth 0 s i) = (lik s + \sum_(x <- s) prior x + nl y (nth 0 s i) sg) - (lik s' + \sum_(x <- s') prior x + nl (nth 0 s i) y sg).
    rewrite -[RHS]opprB -e1 /d ss ns -/s'; have g (a b m m' : R) : a - b + (m - m') = - (b - a + (m' - m)) by mcring.
    exact: g.
  rewrite e1 e2; exact: mh_balance.
Qed.
Print Assumptions C87_cholesky_element.

(** the proposal of the kernel width is the lognormal distribution with the asked mean and variance: these are
    exp(mu + sigma^2/2) and (exp(sigma^2) - 1) exp(2 mu + sigma^2) *)
Theorem C87_lognstat : forall mean variance : R, 0 < mean -> 0 < variance ->
  let (mu, sigma) := lognstat mean variance in
  exp (mu + sigma ^+ 2 / 2%:R) = mean /\ (exp (sigma ^+ 2) - 1) * exp (2%:R * mu + sigma ^+ 2) = variance.
Proof. by move=> m w m0 w0; exact: lognstat_ok. Qed.
Print Assumptions C87_lognstat.
Example C87_case : (0 : R) < 100%:R /\ (0 : R) < 1 /\ (0 <= (0 : R) < 1).
Proof. by rewrite ltr0n lexx ltr01. Qed.

(** * C88-C91: Wishart processes *)
Section WP.
Variables (v p N : nat).
Variables (likelihood : covs p N -> R) (logp_post : umat v p N -> R -> R) (prior_logpdf : R -> R).
Variables (lognorm_logpdf norm_logpdf : R -> R -> R -> R).
Variables (r_ess : nat -> nat -> R) (r_logn : nat -> R -> R -> R) (r_u : nat -> R)
  (r_norm : nat -> nat -> R -> R -> R) (r_us : nat -> nat -> R) (gp : nat -> R -> umat v p N).
Variables (var_prop var_Lprop : R).
Let wp := wishart_process_fit likelihood logp_post prior_logpdf lognorm_logpdf norm_logpdf r_ess r_logn r_u r_norm r_us gp var_prop var_Lprop.
Let run := fit likelihood logp_post prior_logpdf lognorm_logpdf norm_logpdf r_ess r_logn r_u r_norm r_us gp var_prop var_Lprop.

(** C88: fit returns a covariance matrix for each time, for every burn-in shorter than the run *)
Theorem C88_valid : forall learn_ell theta umat0 L0 n_iter burn_in,
  (forall i, uniforms (r_ess i)) -> (burn_in < n_iter)%N ->
  exists lmap u_map Lmap D_map, wp learn_ell theta umat0 L0 n_iter burn_in = Val (lmap, u_map, Lmap, D_map) /\
  forall t, psd (covariance_of D_map t).
Proof.
move=> le theta umat0 L0 n b hu hb; rewrite /wp /wishart_process_fit.
have [[[[us lls] lps] Ls] [e [[z1 z2 z3 z4] _ _ _]]] :=
  fit_run likelihood logp_post prior_logpdf lognorm_logpdf norm_logpdf r_logn r_u r_norm r_us gp var_prop var_Lprop le hu umat0 L0 theta n.
rewrite e /wishart_process_select size_drop z2 subn_eq0 leqNgt hb /=.
do 4 eexists; split; first reflexivity.
move=> t; rewrite /covariance_of; have [h1 h2] := gwp_psd (nth 0 (drop b us) (np_argmax (drop b lls))) (if le then nth 0 (drop b Ls) (np_argmax (drop b lls)) else L0) t.
by rewrite h1; split.
Qed.

(** C88: with a given L, it is the retained sample with the largest log-likelihood *)
Theorem C88_given_factor : forall theta umat0 L0 n_iter burn_in samples_u loglikes lps Ls lmap u_map Lmap D_map,
  (forall i, uniforms (r_ess i)) ->
  run false theta umat0 L0 n_iter = Val (samples_u, loglikes, lps, Ls) ->
  wp false theta umat0 L0 n_iter burn_in = Val (lmap, u_map, Lmap, D_map) ->
  [/\ u_map \in drop burn_in samples_u, Lmap = L0, D_map = GWP_construct u_map L0 &
      forall u, u \in drop burn_in samples_u -> likelihood (GWP_construct u L0) <= likelihood D_map].
Proof.
move=> theta umat0 L0 n b us lls lps Ls lmap um Lm Dm hu er; rewrite /wp /wishart_process_fit -/run er.
have [[[[us' lls'] lps'] Ls'] [e' [[z1 z2 z3 z4] _ hl _]]] :=
  fit_run likelihood logp_post prior_logpdf lognorm_logpdf norm_logpdf r_logn r_u r_norm r_us gp var_prop var_Lprop false hu umat0 L0 theta n.
move: e'; rewrite -/run er => e'; have [? ? ? ?] := Val_inj e'; subst us' lls' lps' Ls'.
rewrite /wishart_process_select; case: ifP => // s0 h; have [_ <- <- <-] := Val_inj h.
have sz : (0 < size (drop b lls))%N by rewrite lt0n s0.
have szu : size (drop b us) = size (drop b lls) by rewrite !size_drop z1 z2.
split=> //; first by apply: mem_nth; rewrite szu; exact: argmax_lt.
move=> u hin; have := argmax_max sz (b := likelihood (GWP_construct u L0)).
rewrite {1 2}hl // -map_drop (map_f (fun u => likelihood (GWP_construct u L0)) hin) => /(_ isT); rewrite hl // -map_drop.
by rewrite (nth_map 0) // -[X in (_ < X)%N](size_map (fun u => likelihood (GWP_construct u L0))) argmax_lt // size_map szu.
Qed.

(** C90: exploration. Refuted: every sample is a multiple of a draw from the prior, one number for all the times and
    entries *)
Theorem C90_samples_are_scaled_prior_draws_refuted : forall learn_ell theta umat0 L0 n_iter samples_u loglikes lps Ls,
  (forall i, uniforms (r_ess i)) -> run learn_ell theta umat0 L0 n_iter = Val (samples_u, loglikes, lps, Ls) ->
  forall u, u \in samples_u -> exists (c : R) (w : umat v p N),
    (w = umat0 \/ exists i th, w = gp i th) /\ forall t, u t = c *: w t.
Proof.
move=> le theta umat0 L0 n us lls lps Ls hu er u hin.
have [[[[us' lls'] lps'] Ls'] [e' [_ hm _ _]]] :=
  fit_run likelihood logp_post prior_logpdf lognorm_logpdf norm_logpdf r_logn r_u r_norm r_us gp var_prop var_Lprop le hu umat0 L0 theta n.
move: e'; rewrite -/run er => e'; have [? ? ? ?] := Val_inj e'; subst us' lls' lps' Ls'.
have [c [w [hw ->]]] := hm _ hin; exists c, w; split=> // t; by rewrite ffunE.
Qed.

(** C89: the stored factors. Refuted: whatever was sampled, all of them are the same matrix *)
Theorem C89_stored_factors_refuted : forall learn_ell theta umat0 L0 n_iter samples_u loglikes lps Ls,
  (forall i, uniforms (r_ess i)) -> run learn_ell theta umat0 L0 n_iter = Val (samples_u, loglikes, lps, Ls) ->
  exists L, forall k, (k < n_iter)%N -> nth 0 Ls k = L.
Proof.
move=> le theta umat0 L0 n us lls lps Ls hu er.
have [[[[us' lls'] lps'] Ls'] [e' [_ _ _ hL]]] :=
  fit_run likelihood logp_post prior_logpdf lognorm_logpdf norm_logpdf r_logn r_u r_norm r_us gp var_prop var_Lprop le hu umat0 L0 theta n.
by move: e'; rewrite -/run er => e'; have [? ? ? ?] := Val_inj e'; subst us' lls' lps' Ls'.
Qed.

(** C91: precision. Refuted: with fewer degrees of freedom than variables (the estimator uses one) the covariances are
    singular *)
Theorem C91_singular_refuted : forall learn_ell theta umat0 L0 n_iter burn_in lmap u_map Lmap D_map, (v < p)%N ->
  wp learn_ell theta umat0 L0 n_iter burn_in = Val (lmap, u_map, Lmap, D_map) ->
  forall t, \det (covariance_of D_map t) = 0.
Proof.
move=> le theta umat0 L0 n b lmap um Lm Dm hv; rewrite /wp /wishart_process_fit.
case: fit => // [[[[us lls] lps] Ls]]; rewrite /wishart_process_select; case: ifP => // _ h; have [_ _ _ <-] := Val_inj h.
by move=> t; rewrite /covariance_of det_tr; exact: gwp_sing.
Qed.
End WP.
Print Assumptions C88_valid.
Print Assumptions C88_given_factor.
Print Assumptions C90_samples_are_scaled_prior_draws_refuted.
Print Assumptions C89_stored_factors_refuted.
Print Assumptions C91_singular_refuted.
Example C88_case : exists r_ess : nat -> nat -> R, (forall i, uniforms (r_ess i)) /\ (0 < 2)%N /\ (1 < 2)%N.
Proof. by exists (fun _ _ => 0); split=> // i k; rewrite lexx ltr01. Qed.

(** prediction at the training times gives the fitted covariances *)
Theorem C88_predict : forall v p N (pinvh : 'M[R]_N -> 'M[R]_N) (K : 'M[R]_N) (u_map : umat v p N) (L_map : 'M[R]_p),
  pinvh_ok pinvh -> sym K -> K \in unitmx -> predict pinvh K K u_map L_map = GWP_construct u_map L_map.
Proof. exact: predict_train. Qed.
Print Assumptions C88_predict.
Theorem C88_predict_valid : forall v p N M (pinvh : 'M[R]_N -> 'M[R]_N) (K : 'M[R]_N) (A : 'M[R]_(M, N)) (u_map : umat v p N)
  (L_map : 'M[R]_p) t, psd (predict pinvh K A u_map L_map t).
Proof. by move=> *; exact: gwp_psd. Qed.
Print Assumptions C88_predict_valid.

(** * C89: the returned sample is the best one also when L is learnt. Refuted: the list of L is one array, so the L
    returned is the last one. *)
Theorem C89_learnt_factor_refuted : exists (likelihood : covs 1 1 -> R) logp_post prior_logpdf lognorm_logpdf norm_logpdf
    r_ess r_logn r_u r_norm r_us (gp : nat -> R -> umat 1 1 1) samples_u loglikes lps Ls lmap u_map Lmap D_map,
  [/\ forall i, uniforms (r_ess i),
      fit likelihood logp_post prior_logpdf lognorm_logpdf norm_logpdf r_ess r_logn r_u r_norm r_us gp 1 1 true
        1 [ffun=> 1%:M] 1%:M 2 = Val (samples_u, loglikes, lps, Ls),
      wishart_process_fit likelihood logp_post prior_logpdf lognorm_logpdf norm_logpdf r_ess r_logn r_u r_norm r_us gp 1 1 true
        1 [ffun=> 1%:M] 1%:M 2 0 = Val (lmap, u_map, Lmap, D_map) &
      likelihood D_map < nth 0 loglikes (np_argmax loglikes)].
Proof.
pose lik (V : covs 1 1) : R := - V 0 0 0.
pose ress (_ k : nat) : R := if k is 0%N then 2%:R^-1 else 0.
pose rnorm (i _ : nat) (_ _ : R) : R := i.+2%:R.
pose one : umat 1 1 1 := [ffun=> 1%:M].
have hu i : uniforms (ress i).
  by case=> [|k]; rewrite /ress ?lexx ?ltr01 // invr_ge0 ler0n invf_lt1 ?ltr0Sn // ltr1n.
pose r := fit lik (fun _ _ => 0) (fun _ => 0) (fun _ _ _ => 0) (fun _ _ _ => 0) ress (fun _ _ _ => 1) (fun _ => 0) rnorm
  (fun _ _ => 0) (fun _ _ => one) 1 1 true 1 one 1%:M 2.
pose w := wishart_process_fit lik (fun _ _ => 0) (fun _ => 0) (fun _ _ _ => 0) (fun _ _ _ => 0) ress (fun _ _ _ => 1) (fun _ => 0) rnorm
  (fun _ _ => 0) (fun _ _ => one) 1 1 true 1 one 1%:M 2 0.
have gwp a : lik (GWP_construct one a%:M) = - (a * a) by rewrite /lik gwp11 !mulr1 mxE eqxx mulr1n.
have mh0 d : mh_accept 0 d by rewrite mh_acceptE // exp_gt0.
have step i a V us ll lp : fit_body lik (fun _ _ => 0) (fun _ => 0) (fun _ _ _ => 0) (fun _ _ _ => 0) ress (fun _ _ _ => 1) (fun _ => 0) rnorm
    (fun _ _ => 0) (fun _ _ => one) 1 1 true i
    (FS (ESS one V a%:M (Some (Fin (lik (GWP_construct one a%:M))))) 1 one [:: a] a%:M us ll lp) =
  Val (FS (ESS one (GWP_construct one a%:M) (i.+2%:R)%:M (Some (Fin (lik (GWP_construct one (i.+2%:R)%:M))))) 1 one [:: i.+2%:R] (i.+2%:R)%:M
    (rcons us one) (rcons ll (- (i.+2%:R * i.+2%:R))) (rcons lp 1)).
  rewrite /fit_body.
  have -> : elliptical_slice (fun V => Fin (lik V)) (ESS one V a%:M (Some (Fin (lik (GWP_construct one a%:M))))) one 0 20 (ress i)
    = Val (ESS one (GWP_construct one a%:M) a%:M (Some (Fin (lik (GWP_construct one a%:M))))).
    have ep : cos (ress i 1%N * 2%:R * PI) *: one + sin (ress i 1%N * 2%:R * PI) *: one = one.
      by rewrite /ress mul0r mul0r cos_0 sin_0 scale1r scale0r addr0.
    by rewrite ess_accept; rewrite ep //; exact: (slice_lt _ (hu i 0%N)).
  rewrite /sample_hyper_kernel mh0 [(_, true).1]/= [(_, true).2]/=.
  rewrite /sample_ell [foldl _ _ _]/= /sample_ell_comp mh0 /rnorm ell1.
  by rewrite [cs_logl _]/= -gwp.
have er : r = Val ([:: one; one], [:: - (2%:R * 2%:R); - (3%:R * 3%:R)], [:: 1; 1], [:: 3%:R%:M; 3%:R%:M]).
  rewrite /r /fit.
  have -> : lower_of (1%:M : 'M[R]_1) = [:: 1] by rewrite /lower_of tril1 /= mxE eqxx.
  by rewrite ell1 /fit_loop step step.
have ew : w = Val (1, one, 3%:R%:M, GWP_construct one 3%:R%:M).
  rewrite /w /wishart_process_fit -/r er /wishart_process_select drop0.
  have -> : np_argmax [:: - (2%:R * 2%:R); - (3%:R * 3%:R) : R] = 0%N.
    by rewrite /np_argmax /= lexx ler_opp2 -!natrM ler_nat.
  by [].
do 19 eexists; split; [exact: hu | exact: er | exact: ew |].
have -> : np_argmax [:: - (2%:R * 2%:R); - (3%:R * 3%:R) : R] = 0%N.
  by rewrite /np_argmax /= lexx ler_opp2 -!natrM ler_nat.
by rewrite gwp /= ltr_opp2 -!natrM ltr_nat.
Qed.
Print Assumptions C89_learnt_factor_refuted.

(** * C92: the log-likelihood. Refuted: with n samples at each time it is n times the log-likelihood *)
Theorem C92_loglik_refuted : forall p N n (mvn_logpdf : 'rV[R]_p -> 'M[R]_p -> xR) (l : 'rV[R]_p -> 'M[R]_p -> R)
    (X : 'I_N -> seq 'rV[R]_p) (Cov : 'I_N -> 'M[R]_p),
  (forall x t, x \in X t -> mvn_logpdf x (Cov t) = Fin (l x (Cov t))) -> (forall t, size (X t) = n) ->
  let loglik := \sum_t \sum_(x <- X t) l x (Cov t) in
  t_mvn_logpdf mvn_logpdf X Cov = Fin (n%:R * loglik) /\
  (n <> 1%N -> loglik <> 0 -> t_mvn_logpdf mvn_logpdf X Cov <> Fin loglik).
Proof.
move=> p N n mvn l X Cov h hs ll; have e : t_mvn_logpdf mvn X Cov = Fin (n%:R * ll).
  by rewrite (t_mvnE h) /ll mulr_sumr; congr Fin; apply: eq_bigr => t _; rewrite hs.
split=> // n1 l0; rewrite e => -[] /eqP; rewrite -[X in _ == X]mul1r (inj_eq (mulIf _)); last exact/eqP.
by rewrite -[1]/(1%N%:R) eqr_nat => /eqP.
Qed.
Print Assumptions C92_loglik_refuted.
Example C92_case : exists (l : 'rV[R]_1 -> 'M[R]_1 -> R) (X : 'I_1 -> seq 'rV[R]_1), (forall t, size (X t) = 2%N) /\
  \sum_t \sum_(x <- X t) l x 1%:M <> 0.
Proof.
exists (fun _ _ => 1), (fun _ => [:: 0; 0]); split=> //; rewrite big_ord1 !big_cons big_nil addr0 => /eqP.
by rewrite -[1 + 1]/((2%N)%:R : R) pnatr_eq0.
Qed.
