(** Property theorems C140 and C141: the temporal Poisson model; iteration counts and histories of the generalised linear models. *)
From Coq Require Import Reals Lra FunctionalExtensionality.
From mathcomp Require Import all_ssreflect all_algebra.
From Verif Require Import RStruct RTac LinTac S_Mat S_Utils NP M_Prox M_Loop M_LGL M_TGL M_KTGL M_Stab M_GLM S_GLM M_TimeGLM.
From Verif Require Import Calc RMx P_Prox P_Rules P_Stab3 P_GLM P_GLM2 P_GLM3 P_GLM4 P_GLM5 P_TimeGLM.
Import Order.TTheory GRing.Theory Num.Theory.

Set Implicit Arguments.
Unset Strict Implicit.
Unset Printing Implicit Defensive.
Local Open Scope ring_scope.

Lemma glm_for_count (S : Type) (body : nat -> S -> option (bool * S)) (P Q : nat -> S -> Prop) :
  (forall it s s', P it s -> body it s = Some (false, s') -> P it.+1 s') ->
  (forall it s s', P it s -> body it s = Some (true, s') -> Q it.+1 s') ->
  forall todo it s l s' l', P it s -> glm_for body todo it s l = Some (s', l') ->
  exists k, [/\ (k <= todo)%N, l' = (if k is k'.+1 then Some (it + k')%N else l) &
    (k = todo /\ P (it + k)%N s') \/ ((0 < k)%N /\ Q (it + k)%N s')].
Proof.
move=> hP hQ; elim=> [|n IH] it s l s' l' Ps /=; first by case=> <- <-; exists 0%N; split=> //; left; rewrite addn0.
case e : (body it s) => [[[] s1]|] //.
  by case=> <- <-; exists 1%N; rewrite addn0 addn1; split=> //; right; split=> //; apply: hQ e.
move=> h; have [k [h1 h2 h3]] := IH _ _ _ _ _ (hP _ _ _ Ps e) h.
exists k.+1; split=> //; first by rewrite h2; case: (k) => [|k']; rewrite ?addn0 // addSnnS.
by rewrite -addSnnS; case: h3 => [[-> h3]|[h3 h4]]; [left|right].
Qed.

(** * C141 *)
(** the recorded estimates [ths] and checks [cks] of [k] iterations started at [start]: [k.+1] estimates, the first being the start and the
    last the result; one check per iteration after the first [skip] ones, with the number of the iteration and the distance to the previous
    estimate. [stopped]: the test (distance < tol) succeeded, and only at the last iteration; otherwise it never did. *)
Definition run_of m n (start theta : 'M[R]_(m, n)) (tol : R) (skip k : nat) (stopped : bool) (ths : seq 'M[R]_(m, n)) (cks : seq glm_check) : Prop :=
  [/\ size ths = k.+1, nth 0 ths 0 = start, nth 0 ths k = theta, size cks = (k - skip)%N &
    forall i, (skip <= i < k)%N -> let c := nth (GLMCheck 0 NaN 0 NaN) cks (i - skip) in let step := fnorm (nth 0 ths i - nth 0 ths i.+1) in
      [/\ gc_iter c = i, gc_iter_norm c = step & (step < tol) = stopped && (i.+1 == k)]].

Section Shape.
Variables (m n : nat) (body : nat -> glm_state m n -> option (bool * glm_state m n)) (tol : R) (skip : nat).
Hypothesis shape : forall it s b s', body it s = Some (b, s') -> exists c,
  [/\ gs_thetas s' = rcons (gs_thetas s) (gs_theta s'), gs_checks s' = if (skip <= it)%N then rcons (gs_checks s) c else gs_checks s,
      gc_iter c = it, gc_iter_norm c = fnorm (gs_theta s - gs_theta s') & b = (skip <= it)%N && (fnorm (gs_theta s - gs_theta s') < tol)].
Definition st_run start k stopped (s : glm_state m n) := run_of start (gs_theta s) tol skip k stopped (gs_thetas s) (gs_checks s).

Lemma shape_step start it s b s' : st_run start it false s -> body it s = Some (b, s') -> st_run start it.+1 b s'.
Proof.
move=> [h1 h2 h3 h4 h5] /shape [c [e1 e2 e3 e4 e5]].
have sz : size (gs_thetas s') = it.+2 by rewrite e1 size_rcons h1.
have old i : (i <= it)%N -> nth 0 (gs_thetas s') i = nth 0 (gs_thetas s) i by move=> h; rewrite e1 nth_rcons h1 ltnS h.
have new : nth 0 (gs_thetas s') it.+1 = gs_theta s' by rewrite e1 nth_rcons h1 ltnn eqxx.
split=> //; first by rewrite old.
  rewrite e2; case: leqP => h; first by rewrite size_rcons h4 subSn.
  by rewrite h4; move: (h) (ltnW h); rewrite -!subn_eq0 => /eqP -> /eqP ->.
move=> i /andP [i1]; rewrite ltnS leq_eqVlt => /orP [/eqP ei|ii].
  have sk : (skip <= it)%N by rewrite -ei.
  rewrite ei new old // h3 e2 sk nth_rcons h4 ltnn eqxx eqxx andbT e5 sk; by split.
rewrite !old // ?(ltnW ii) // e2; have sk : (skip <= it)%N by rewrite (leq_trans i1) // ltnW.
have := h5 i; rewrite i1 ii => /(_ isT) [a1 a2 a3].
rewrite sk nth_rcons h4 ltn_sub2r // ?(leq_ltn_trans i1 ii) //; split=> //.
by rewrite a3 eqSS (ltn_eqF ii) andbF.
Qed.

Lemma shape_run start gamma todo s l' : glm_for body todo 0 (GLMState start gamma [:: start] [::]) None = Some (s, l') ->
  exists k stopped, [/\ (k <= todo)%N, l' = (if k is k'.+1 then Some k' else None), (stopped || (k == todo)) & st_run start k stopped s].
Proof.
move=> h; have ini : st_run start 0 false (GLMState start gamma [:: start] [::]) by split=> //= i; rewrite andbF.
have [] := @glm_for_count _ body (fun k => st_run start k false) (fun k => st_run start k true) _ _ todo 0 _ None s l' ini h.
- by move=> it s1 s2 h1 h2; apply: shape_step h2.
- by move=> it s1 s2 h1 h2; apply: shape_step h2.
move=> k [h1 h2]; rewrite !add0n => -[[h3 h4]|[h3 h4]]; [exists k, false|exists k, true]; split=> //.
by rewrite h3 eqxx.
Qed.
End Shape.

Lemma glm_return_inv m n rh rn (e : glm_state m n * option nat) res : glm_return rh rn e = Ok res ->
  [/\ gr_theta res = gs_theta e.1, gr_history res = (if rh then Some (gs_thetas e.1, gs_checks e.1) else None) &
      gr_n_iter res = (if rn then e.2 else None)].
Proof. by case: e => s it; rewrite /glm_return; case: rn; [case: it => // i|]; case=> <-. Qed.

(** In each of the three fits, for some number k <= max_iter of iterations: the history is that of k iterations, the loop stopped before
    max_iter only by its test, and the number of iterations reported is k - 1 (documented: the number of iterations). *)
Theorem C141_ising : forall n d (X : 'M[R]_(n, d)) (p : ising_params d) fuel warm_start res, ig_return_history p -> ig_return_n_iter p ->
  ising_fit X p fuel warm_start = Some (Ok res) ->
  exists k stopped ths cks, [/\ (k < ig_max_iter p)%N, stopped || (k.+1 == ig_max_iter p), gr_n_iter res = Some k, gr_history res = Some (ths, cks) &
    run_of (odflt 0 warm_start) (gr_theta res) (ig_tol p) 0 k.+1 stopped ths cks].
Proof.
move=> n d X p fuel ws res rh rn; rewrite /ising_fit; case e : (glm_for _ _ _ _ _) => [[s l]|] // h.
have /glm_return_inv [e1 e2 e3] : glm_return (ig_return_history p) (ig_return_n_iter p) (s, l) = Ok res by case: h.
have [] := @shape_run _ _ (ising_body X p fuel) (ig_tol p) 0 _ _ _ _ _ _ e.
  move=> it s1 b s2; rewrite /ising_body; case: (if _ then _ else _) => [[th ga]|] // [<- <-] /=.
  by eexists; split; [| reflexivity | by [] | by rewrite /= np_normE | by rewrite np_normE ger0_norm // fnorm_ge0].
move=> k [st [h1 h2 h3 h4]]; case: k h1 h2 h3 h4 => [|k] h1 h2 h3 h4.
  by move: h; rewrite h2 /= rn.
exists k, st, (gs_thetas s), (gs_checks s); rewrite e3 e2 e1 rn rh /= h2; by split.
Qed.
Print Assumptions C141_ising.
Theorem C141_gaussian : forall n d (X : 'M[R]_(n, d.+1)) r (p : gaussian_params) res, ga_return_history p -> ga_return_n_iter p ->
  gaussian_fit_each X r p = Some (Ok res) ->
  exists k stopped ths cks, [/\ (k < ga_max_iter p)%N, stopped || (k.+1 == ga_max_iter p), gr_n_iter res = Some k, gr_history res = Some (ths, cks) &
    run_of (const_mx (1 / 10%:R ^+ 15)) (gr_theta res) (ga_tol p) 0 k.+1 stopped ths cks].
Proof.
move=> n d X r p res rh rn; rewrite /gaussian_fit_each; case e : (glm_for _ _ _ _ _) => [[s l]|] // h.
have /glm_return_inv [e1 e2 e3] : glm_return (ga_return_history p) (ga_return_n_iter p) (s, l) = Ok res by case: h.
have [] := @shape_run _ _ (gaussian_body X r p) (ga_tol p) 0 _ _ _ _ _ _ e.
  move=> it s1 b s2; rewrite /gaussian_body => -[<- <-] /=.
  by eexists; split; [| reflexivity | by [] | by rewrite /= np_normE | by rewrite np_normE].
move=> k [st [h1 h2 h3 h4]]; case: k h1 h2 h3 h4 => [|k] h1 h2 h3 h4.
  by move: h; rewrite h2 /= rn.
exists k, st, (gs_thetas s), (gs_checks s); rewrite e3 e2 e1 rn rh /= h2; by split.
Qed.
Print Assumptions C141_gaussian.
(** the Poisson fit records no check and makes no test at its first iteration *)
Theorem C141_poisson : forall n d (X : 'M[R]_(n, d.+1)) r (p : poisson_params d) fuel res, po_return_history p -> po_return_n_iter p ->
  poisson_fit_each X r p fuel = Some (Ok res) ->
  exists k stopped ths cks, [/\ (k < po_max_iter p)%N, stopped || (k.+1 == po_max_iter p), gr_n_iter res = Some k, gr_history res = Some (ths, cks) &
    run_of 0 (gr_theta res) (po_tol p) 1 k.+1 stopped ths cks].
Proof.
move=> n d X r p fuel res rh rn; rewrite /poisson_fit_each; case e : (glm_for _ _ _ _ _) => [[s l]|] // h.
have /glm_return_inv [e1 e2 e3] : glm_return (po_return_history p) (po_return_n_iter p) (s, l) = Ok res by case: h.
have [] := @shape_run _ _ (poisson_body X r p fuel) (po_tol p) 1 _ _ _ _ _ _ e.
  move=> it s1 b s2; rewrite /poisson_body; case: (poisson_line_search _ _ _ _ _ _ _ _) => [[th ga]|] //.
  set ck := GLMCheck _ _ _ _; case: ifP => i0 [<- <-] /=; exists ck; split=> //=; rewrite ?np_normE //.
  by rewrite ger0_norm // fnorm_ge0.
move=> k [st [h1 h2 h3 h4]]; case: k h1 h2 h3 h4 => [|k] h1 h2 h3 h4.
  by move: h; rewrite h2 /= rn.
exists k, st, (gs_thetas s), (gs_checks s); rewrite e3 e2 e1 rn rh /= h2; by split.
Qed.
Print Assumptions C141_poisson.

(** the temporal fits: k iterations are reported as k, with k + 1 history entries; they end before max_iter only when the last entry passes
    one of the two tests, which no earlier one (after the initial entry) passes *)
Definition time_stop T (p : time_glm_params T) (c : convergence) : bool :=
  stop_at_test (c_obj c) (tg_stop_at p) (tg_stop_when p) || ((c_rnorm c <= c_e_pri c) && (c_snorm c <= c_e_dual c)).
Definition time_run T (p : time_glm_params T) (k : nat) (stopped : bool) (h : seq convergence) : Prop :=
  size h = k.+1 /\ forall i, (0 < i <= k)%N -> time_stop p (nth (Convergence NaN 0 0 0 0) h i) = stopped && (i == k).
Lemma time_counts n T solve loss psi prox_psi (p : time_glm_params T) (res : time_glm_result n T) : tg_return_history p -> tg_return_n_iter p ->
  time_glm_fit solve loss psi prox_psi p = Some (Ok res) ->
  exists k stopped h, [/\ (0 < k <= tg_max_iter p)%N, stopped || (k == tg_max_iter p), tgr_n_iter res = Some k, tgr_history res = Some h &
    time_run p k stopped h].
Proof.
move=> rh rn; rewrite /time_glm_fit; case e : (glm_for _ _ _ _ _) => [[s l]|] //; rewrite /= rh rn => h.
have step it s1 b s2 : time_run p it false (tg_checks s1) -> time_glm_body solve loss psi prox_psi p it s1 = Some (b, s2) ->
    time_run p it.+1 b (tg_checks s2).
  move=> [h1 h2]; rewrite /time_glm_body; case: (all_some _ _) => [Kn|] //; case: (time_glm_ZU _ _ _ _ _) => Z U.
  set ck := Convergence _ _ _ _ _; set st := stop_at_test _ _ _ => hb.
  have [-> eb] : tg_checks s2 = rcons (tg_checks s1) ck /\ b = time_stop p ck.
    have -> : time_stop p ck = st || stop_test ck by [].
    by move: hb; case: (st); [|case: (stop_test ck)]; case=> <- <-.
  split; first by rewrite size_rcons h1.
  move=> i /andP [i0]; rewrite leq_eqVlt => /orP [/eqP ->|].
    by rewrite nth_rcons h1 ltnn !eqxx andbT eb.
  rewrite ltnS => ii; rewrite nth_rcons h1 ltnS ii h2 ?i0 //.
  by rewrite (ltn_eqF (_ : i < it.+1)%N) // andbF.
have ini : time_run p 0 false (tg_checks (time_glm_init loss psi p)) by split=> // i; rewrite andbC; case: i.
have [] := @glm_for_count _ _ (fun k s => time_run p k false (tg_checks s)) (fun k s => time_run p k true (tg_checks s)) _ _ _ _ _ _ _ _ ini e.
- by move=> it s1 s2; apply: step.
- by move=> it s1 s2; apply: step.
move=> [|k] [h1 h2 h3]; first by move: h; rewrite h2.
move: h; rewrite h2 add0n => -[<-] /=; rewrite add0n in h3.
by case: h3 => -[h3 h4]; [exists k.+1, false | exists k.+1, true]; exists (tg_checks s); split=> //; rewrite h3 eqxx.
Qed.
Theorem C141_time_ising : forall n T m (X : 'I_T -> 'M[R]_(m, n)) psi prox_psi (p : time_glm_params T) res, tg_return_history p -> tg_return_n_iter p ->
  fit_time_ising_model X psi prox_psi p = Some (Ok res) ->
  exists k stopped h, [/\ (0 < k <= tg_max_iter p)%N, stopped || (k == tg_max_iter p), tgr_n_iter res = Some k, tgr_history res = Some h &
    time_run p k stopped h].
Proof. by move=> n T m X psi prox_psi p res; apply: time_counts. Qed.
Print Assumptions C141_time_ising.
Theorem C141_time_poisson : forall d T m (X : 'I_T -> 'M[R]_(m, d.+1)) psi prox_psi (p : time_glm_params T) fuel res,
  tg_return_history p -> tg_return_n_iter p -> fit_time_poisson_model X psi prox_psi p fuel = Some (Ok res) ->
  exists k stopped h, [/\ (0 < k <= tg_max_iter p)%N, stopped || (k == tg_max_iter p), tgr_n_iter res = Some k, tgr_history res = Some h &
    time_run p k stopped h].
Proof. by move=> d T m X psi prox_psi p fuel res; apply: time_counts. Qed.
Print Assumptions C141_time_poisson.

(** * C140: the temporal Poisson model *)
(** [nodewise X alpha tol T K]: K joins node-wise Poisson regressions, for some targets and weights of the quadratic coupling: symmetric, ones
    on the diagonal, and half the coefficient of i in the regression of j plus a quarter of the other one, for i < j *)
Definition nodewise m d (X : 'M[R]_(m, d.+1)) (T : nat) (p : time_glm_params T) (fuel : nat) (K : 'M[R]_d.+1) : Prop :=
  exists rho A (th : 'I_d.+1 -> 'cV[R]_d), [/\ forall v, exists2 r, gr_theta r = th v &
      poisson_fit_each X v (PoissonParams (tg_alpha p) 1 (tg_tol p) 100 (1 / 2%:R) true false (Some A) T%:R rho) fuel = Some (Ok r),
    sym K, forall i, K i i = 1 &
    forall i j : 'I_d.+1, (i < j)%N -> K i j = coef (fun i => (th i)^T) j i / 2%:R + coef (fun i => (th i)^T) i j / 4%:R].
(** after at least one iteration: every returned matrix is of that form *)
Theorem C140_shape : forall d T m (X : 'I_T -> 'M[R]_(m, d.+1)) psi prox_psi (p : time_glm_params T) fuel res,
  fit_time_poisson_model X psi prox_psi p fuel = Some (Ok res) -> (0 < tg_max_iter p)%N -> forall t, nodewise (X t) p fuel (tgr_K res t).
Proof.
move=> d T m X psi prox_psi p fuel res; rewrite /fit_time_poisson_model /time_glm_fit; case e : (glm_for _ _ _ _ _) => [[s l]|] // h m0 t.
have eK : tgr_K res = tg_K s by move: h => /=; case: ifP => _; [case: (l) => // i|]; case=> <-.
have step it s1 b s2 : time_glm_body (time_poisson_solve X p fuel) (fun t K => Fin (poisson_loss (X t) K)) psi prox_psi p it s1 = Some (b, s2) ->
    nodewise (X t) p fuel (tg_K s2 t).
  rewrite /time_glm_body; case ea : (all_some _ _) => [Kn|] //; case: (time_glm_ZU _ _ _ _ _) => Z U hb.
  have -> : tg_K s2 = [ffun t => Kn t] by move: hb; case: ifP => _; last case: ifP => _; case=> _ <-.
  rewrite ffunE; have := all_some_in ea t; rewrite /time_poisson_solve /glm_precision.
  set A : 'M[R]_d.+1 := (X in time_poisson_inner _ _ X); case eb : (all_some _ _) => [th|] // [<-].
  exists (tg_rho s1), A, th; have [h1 h2] := adj_shape (fun i => (th i)^T) Union.
  split=> //; last by move=> i j ij; have [-> _] := unionE (fun i => (th i)^T) ij.
  move=> v; have := all_some_in eb v; rewrite /theta_of /time_poisson_inner; case: (poisson_fit_each _ _ _ _) => [[r|]|] // [<-]; by exists r.
have [] := @glm_for_count _ _ (fun k s => (0 < k)%N -> nodewise (X t) p fuel (tg_K s t)) (fun k s => nodewise (X t) p fuel (tg_K s t)) _ _
  _ _ _ _ _ _ _ e.
- by move=> it s1 s2 _ /step.
- by move=> it s1 s2 _ /step.
- by [].
move=> k [h1 h2 h3]; rewrite eK; case: h3 => [[h3 h4]|[_ //]]; by apply: h4; rewrite h3 add0n.
Qed.
Print Assumptions C140_shape.

(** the cost documented for the default kernel *)
Definition time_poisson_nll d T m (X : 'I_T -> 'M[R]_(m, d.+1)) (K : 'I_T -> 'M[R]_d.+1) : R :=
  \sum_t \sum_r poisson_nll (col' r (X t)) (col r (X t)) (col' r (row r (K t)))^T.
Definition time_poisson_cost d T m (X : 'I_T -> 'M[R]_(m, d.+1)) (alpha : R) (K : 'I_T -> 'M[R]_d.+1) : R :=
  time_poisson_nll X K + alpha * \sum_t l1od (K t).
(** the value recorded for the returned estimate has the wrong sign on the likelihood *)
Theorem C140_objective_refuted : forall d T m (X : 'I_T -> 'M[R]_(m, d.+1)) psi prox_psi (p : time_glm_params T) fuel res h,
  tg_kernel p = None -> tg_compute_objective p ->
  fit_time_poisson_model X psi prox_psi p fuel = Some (Ok res) -> tgr_history res = Some h ->
  c_obj (last (Convergence NaN 0 0 0 0) h) = Fin (time_poisson_cost X (tg_alpha p) (tgr_K res) - 2%:R * time_poisson_nll X (tgr_K res)) /\
  (time_poisson_nll X (tgr_K res) != 0 ->
   c_obj (last (Convergence NaN 0 0 0 0) h) <> Fin (time_poisson_cost X (tg_alpha p) (tgr_K res))).
Proof.
move=> d T m X psi prox_psi p fuel res h hk ho; rewrite /fit_time_poisson_model /time_glm_fit; case e : (glm_for _ _ _ _ _) => [[s l]|] // hr hh.
have [eK eh] : tgr_K res = tg_K s /\ h = tg_checks s.
  by move: hr => /=; case: ifP => _; [case: (l) => // i|]; case=> er; move: hh; rewrite -er /=; case: ifP => // _ [->].
have obj (K : stack d.+1 T) Z1 Z2 : glm_time_objective (fun t K => Fin (poisson_loss (X t) K)) K Z1 Z2 (tg_alpha p) (tg_kernel_of p) psi =
    Fin (time_poisson_cost X (tg_alpha p) K - 2%:R * time_poisson_nll X K).
  rewrite /glm_time_objective /tg_kernel_of hk /= [\sum_e psi _ * _]big1 => [|e' _]; last first.
    by rewrite mxE; have /ltn_eqF := valP e'; rewrite -[X in X = _]/(t_l e' == t_r e') => ->; rewrite mulr0.
  rewrite /glm_time_loss; have -> : \big[xadd/Fin 0]_t xmul (Fin (-1)) (Fin (poisson_loss (X t) (K t))) = Fin (- time_poisson_nll X K).
    rewrite -sumrN -big_xadd_fin; apply: eq_bigr => t _ /=; rewrite mulN1r; congr (Fin (- _)).
    by apply: eq_bigr => r _; rewrite -psm_nll.
  rewrite /= addr0; congr Fin; rewrite /time_poisson_cost; under [in LHS]eq_bigr do rewrite l1_od_normE.
  by move: (time_poisson_nll X K) (tg_alpha p * _) => a b; mcring.
have el : c_obj (last (Convergence NaN 0 0 0 0) h) = Fin (time_poisson_cost X (tg_alpha p) (tgr_K res) - 2%:R * time_poisson_nll X (tgr_K res)).
  rewrite eK eh; apply: (@glm_for_inv _ (time_glm_body (time_poisson_solve X p fuel) (fun t K => Fin (poisson_loss (X t) K)) psi prox_psi p)
    (fun s => c_obj (last (Convergence NaN 0 0 0 0) (tg_checks s)) =
      Fin (time_poisson_cost X (tg_alpha p) (tg_K s) - 2%:R * time_poisson_nll X (tg_K s)))) e; last by rewrite [c_obj _]/= obj.
  move=> it s1 b s2 _; rewrite /time_glm_body; case: (all_some _ _) => [Kn|] //; case: (time_glm_ZU _ _ _ _ _) => Z U.
  by case: ifP => _; last case: ifP => _; case=> _ <- /=; rewrite last_rcons /= ho obj.
split=> // n0; rewrite el => -[] /eqP; rewrite -subr_eq0 addrAC subrr add0r oppr_eq0 mulf_eq0 pnatr_eq0 /=; exact/negP.
Qed.
Print Assumptions C140_objective_refuted.

(** what an iteration of the coupled node-wise fit that changes nothing has found: a minimiser of the likelihood, the l1 penalty and the
    quadratic coupling to row v of A, with weight rho T / n *)
Theorem C140_node_unchanged : forall n d (X : 'M[R]_(n, d.+1)) v (p : poisson_params d) A fuel it s b s',
  0 <= po_alpha p -> 0 < po_update_gamma p < 1 -> 0 < gs_gamma s -> po_A p = Some A -> 0 <= po_rho p * po_T p ->
  poisson_body X v p fuel it s = Some (b, s') -> gs_theta s' = gs_theta s ->
  let cost theta := poisson_nll (col' v X) (col v X) theta + po_rho p * po_T p / (2%:R * n%:R) * fnorm2 (theta - (col' v (row v A))^T)
    + po_alpha p * l1 theta in
  forall theta, cost (gs_theta s) <= cost theta.
Proof.
move=> n d X v p A fuel it s b s' a0 u0 g0 hA w0 h es cost theta; move: h.
rewrite /poisson_body hA; set g := poisson_gradient _ _ _ _ _ _.
case e : (poisson_line_search _ _ _ _ _ _ _ _) => [[t gam]|] // h.
have u1 : 0 < po_update_gamma p <= 1 by have /andP[-> /ltW ->] := u0.
have [/andP [k0 _] _ k3] := ls_spec a0 u1 g0 (or_introl erefl) e.
have et : t = gs_theta s by rewrite -es; move: h; case: ifP => _ [_ <-].
set x := gs_theta s in et k3 *; rewrite et in k3.
have fix1 : x = pstep (po_alpha p) gam g x.
  case: k3 => // e2; have h' := @two_steps _ _ gam g x a0 k0 _ x erefl e2; rewrite subrr fdot0r add0r ger_addl in h'.
  rewrite pmulr_lle0 ?invr_gt0 // in h'.
  have h0 : fnorm2 (pstep (po_alpha p) gam g x - x) <= 0 by apply: le_trans h'; rewrite ler_addr fnorm2_ge0.
  by have /eqP := fnorm2_eq0 (le_anti (introT andP (conj h0 (fnorm2_ge0 _)))); rewrite subr_eq0 => /eqP.
set a := (col' v (row v A))^T.
pose f y : R := poisson_nll (col' v X) (col v X) y + po_rho p * po_T p / (2%:R * n%:R) * fnorm2 (y - a).
apply: (@composite_fixed _ _ f x g x (po_alpha p) gam a0 k0 fix1 erefl) => y; rewrite /f.
have gE : g = poisson_gradient X x v None (po_T p) (po_rho p) + (n%:R^-1 * (po_rho p * po_T p)) *: (x - a).
  by rewrite /g /poisson_gradient addr0 scalerA.
have c1 := psm_convex X v x y (po_T p) (po_rho p); rewrite !psm_nll in c1.
rewrite gE fdotDl fdotZl.
have q : fnorm2 (y - a) = fnorm2 (x - a) + 2%:R * fdot (x - a) (y - x) + fnorm2 (y - x).
  by rewrite -fnorm2D; congr fnorm2; rewrite [RHS]addrC addrA subrK.
have c2 : n%:R^-1 * (po_rho p * po_T p) * fdot (x - a) (y - x) + po_rho p * po_T p / (2%:R * n%:R) * fnorm2 (x - a) <=
    po_rho p * po_T p / (2%:R * n%:R) * fnorm2 (y - a).
  have n0 : (0 : R) <= n%:R^-1 by rewrite invr_ge0 ler0n.
  have -> : po_rho p * po_T p / (2%:R * n%:R) = 2%:R^-1 * (po_rho p * po_T p) * n%:R^-1 by rewrite invfM mulrA [2%:R^-1 * _]mulrC.
  have := mulr_ge0 (mulr_ge0 n0 w0) (fnorm2_ge0 (y - x)); rewrite q.
  move: (po_rho p * po_T p) (n%:R^-1) (fnorm2 (x - a)) (fnorm2 (y - x)) (fdot (x - a) (y - x)) => z1 z2 z3 z4 z5 hz; mcnra.
move: c1 c2; move: (poisson_nll _ _ _) (poisson_nll _ _ _) (fdot _ _) (_ * fnorm2 _) (_ * fnorm2 _) (_ * fdot _ _) => *; mclra.
Qed.
Print Assumptions C140_node_unchanged.

(** one time, one sample (1, 1): the regressions stay at 0 and the fit returns *)
Lemma ones_body v tol alpha A T rho fuel it (s : glm_state 1 1) : A = 0 -> 0 <= alpha -> 0 <= gs_gamma s -> gs_theta s = 0 ->
  exists b s', [/\ poisson_body (const_mx 1 : 'M[R]_(1, 2)) v (PoissonParams alpha 1 tol 100 (1 / 2%:R) true false (Some A) T rho) fuel.+1 it s
    = Some (b, s'), gs_theta s' = 0 & gs_gamma s' = gs_gamma s].
Proof.
move=> -> a0 g0 e; rewrite /poisson_body e.
have -> : poisson_gradient (const_mx 1 : 'M[R]_(1, 2)) (0 : 'cV[R]_1) v (Some 0) T rho = 0.
  rewrite /poisson_gradient mulmx0; apply/matrixP => i j; rewrite !mxE !big_ord1 !mxE (exp_0 : exp 0 = 1).
  by rewrite !subrr !mulr0 addr0.
rewrite /= !scaler0 !subr0; have -> : soft_thresholding (0 : 'cV[R]_1) (alpha * gs_gamma s) = 0.
  apply/matrixP => i j; rewrite !mxE; have := soft1_nonexp 0 (mulr_ge0 a0 g0); rewrite normr0 normr_le0 => /eqP //.
rewrite subr0 trmx0 mul0mx mxE subr0 np_norm2 fnorm2_0 mul0r addr0 ltxx.
by case: ifP => _; eexists; eexists; split; first reflexivity.
Qed.

Definition onesX : 'I_1 -> 'M[R]_(1, 2) := fun=> const_mx 1.
Definition onesP : time_glm_params 1 := TimeGLMParams (2%:R^-1) 1 None 5 1 (2%:R^-1) 0 true true true None 0 (RhoOptions 10%:R 2%:R 2%:R).
Example C140_case : exists res h, [/\ fit_time_poisson_model onesX (fun=> 0) (fun M _ => M) onesP 1 = Some (Ok res), tgr_history res = Some h &
  time_poisson_nll onesX (tgr_K res) != 0].
Proof.
have half : (0 : R) <= 2%:R^-1 by rewrite invr_ge0 ler0n.
have runs v todo : forall it s l, gs_theta s = 0 -> 0 <= gs_gamma s -> exists s' l', gs_theta s' = 0 /\
    glm_for (poisson_body (onesX 0) v (time_poisson_inner onesP 1 0) 1) todo it s l = Some (s', l').
  elim: todo => [|k IH] it s l e g; first by exists s, l.
  have [b [s1 [h1 h2 h3]]] := @ones_body v (2%:R^-1) (2%:R^-1) 0 1%:R 1 0 it s erefl half g e.
  rewrite /= h1; case: (b); first by exists s1, (Some it).
  by apply: IH; rewrite // h3.
have each v : theta_of (poisson_fit_each (onesX 0) v (time_poisson_inner onesP 1 0) 1) = Some 0.
  rewrite /poisson_fit_each; have [s' [l' [h1 ->]]] := runs v 100%N 0%N (GLMState 0 1 [:: 0] [::]) None erefl ler01.
  by rewrite /= h1.
pose K := build_adjacency_matrix (fun _ : 'I_2 => (0 : 'cV[R]_1)^T) Union.
have so : time_poisson_solve onesX onesP 1 0 1 0 = Some K.
  rewrite /time_poisson_solve /glm_precision; case e : (all_some _ _) => [th|].
    have z v : th v = 0 by have := all_some_in e v; rewrite each => -[<-].
    by congr Some; rewrite /K; congr build_adjacency_matrix; apply: FunctionalExtensionality.functional_extensionality => v; rewrite z.
  move: e; rewrite /all_some; case: ifP => // /forallP [] v; by rewrite each.
have K0 r k : K r (lift r k) = 0.
  have z i j : coef (fun _ : 'I_2 => (0 : 'cV[R]_1)^T) i j = 0 by rewrite /coef; case: unlift => // k'; rewrite !mxE.
  have : r != lift r k by rewrite neq_lift.
  rewrite neq_ltn => /orP [] h; have := unionE (fun _ : 'I_2 => (0 : 'cV[R]_1)^T) h; rewrite !z mul0r mul0r addr0.
    by case.
  by case.
have [res h eK] := @time_glm_one 2 (time_poisson_solve onesX onesP 1) (fun t K => Fin (poisson_loss (onesX t) K)) (fun=> 0) (fun M _ => M) onesP _ so
  erefl half (lexx (0 : R)) ler01.
have [h' hh] : exists h', tgr_history res = Some h'.
  move: h; rewrite /time_glm_fit; case: (glm_for _ _ _ _ _) => [[s l]|] //=.
  by case: l => [i|] // [<-]; eexists; reflexivity.
exists res, h'; split=> //; rewrite /time_poisson_nll big_ord1 eK.
have one (r : 'I_2) : poisson_nll (col' r (onesX 0)) (col r (onesX 0)) (col' r (row r K))^T = 1.
  rewrite /poisson_nll /sample_mean big_ord1 divr1 mxE big_ord1 !mxE K0 mulr0 mulr0 subr0; exact: exp_0.
by rewrite !big_ord_recl big_ord0 !one addr0 -[1 + 1]/(2%:R) pnatr_eq0.
Qed.
