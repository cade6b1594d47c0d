(** Model of regain/bayesian/sampling.py, stats.py, gaussian_process_.py and wishart_process_.py.

    Random numbers are arguments: numpy's generator calls are replaced by the values they return. *)
From Coq Require Import Reals.
From mathcomp Require Import all_ssreflect all_algebra.
From Verif Require Import RStruct NP M_Utils M_GLM.
Import Order.TTheory GRing.Theory Num.Theory.

Set Implicit Arguments.
Unset Strict Implicit.
Unset Printing Implicit Defensive.
Local Open Scope ring_scope.

(** np.log of a finite number *)
Definition np_log (x : R) : xR := if 0 < x then Fin (ln x) else if x == 0 then NInf else NaN.

(** * stats.py *)
(** lines 36-46 *)
Definition lognormal_pdf (x mu sigma : R) : R :=
  exp (- (1 / 2%:R) * ((ln x - mu) / sigma) ^+ 2) / (x * sigma * sqrt (2%:R * PI)).
(** lines 49-55 *)
Definition lognormal_logpdf (x mu sigma : R) : R := ln (lognormal_pdf x mu sigma).
(** lines 58-63 *)
Definition lognstat (mean variance : R) : R * R :=
  let m2 := mean * mean in
  (ln (m2 / sqrt (variance + m2)), sqrt (ln (variance / m2 + 1))).
(** lines 66-69: S.size is the number of entries *)
Definition log_lik_frob (m n : nat) (S D : 'M[R]_(m, n)) (variance : R) : R :=
  - (1 / 2%:R) * ((m * n)%:R * ln (2%:R * PI * variance) + (\sum_i \sum_j (S - D) i j ^+ 2) / variance).
(** lines 72-87: [X] holds one list of samples for each time, [Cov] the covariance of each time;
    [mvn_logpdf x cov] is scipy's multivariate_normal.logpdf with mean 0 and allow_singular=True *)
Definition t_mvn_logpdf p N (mvn_logpdf : 'rV[R]_p -> 'M[R]_p -> xR)
    (X : 'I_N -> seq 'rV[R]_p) (Cov : 'I_N -> 'M[R]_p) : xR :=
  foldr (fun t acc => xadd (xmul (Fin (size (X t))%:R) (foldr (fun x a => xadd (mvn_logpdf x (Cov t)) a) (Fin 0) (X t))) acc)
    (Fin 0) (enum 'I_N).

Section GWP.
Variables (v p N : nat).
(** an array of shape (v, p, N): the slice u[:, :, t] for each t *)
Definition umat := {ffun 'I_N -> 'M[R]_(v, p)}.
(** an array of shape (p, p, N) *)
Definition covs := {ffun 'I_N -> 'M[R]_p}.

(** sampling.py lines 39-42 *)
Definition GWP_construct (u : umat) (L : 'M[R]_p) : covs :=
  [ffun t => (L *m ((u t)^T *m u t) *m L^T)^T].

(** the Bunch carried by the sampler *)
Record ess_state := ESS { ess_xx : umat; ess_V : covs; ess_L : 'M[R]_p; ess_logl : option xR }.

(** sampling.py lines 123-145: the loop. [unif k] is the k-th number drawn by np.random.uniform.
    The first component of the result is not in the code: it lists the bracket and the angle of every
    proposal (phi_min, phi, phi_max), in order. [None]: the for loop ended without break. *)
Fixpoint ess_loop (likelihood : covs -> xR) (L : 'M[R]_p) (initial_theta nu : umat) (hh : xR) (unif : nat -> R)
    (iters j : nat) (phi_min phi_max phi : R) : seq (R * R * R) * res (option (umat * covs * xR)) :=
  match iters with
  | 0%N => ([::], Val None)
  | k.+1 =>
    let proposal : umat := cos phi *: initial_theta + sin phi *: nu in
    let V := GWP_construct proposal L in
    let current_logp := likelihood V in
    let here := (phi_min, phi, phi_max) in
    if xgt current_logp hh then ([:: here], Val (Some (proposal, V, current_logp)))
    else if 0 < phi then
      let r := ess_loop likelihood L initial_theta nu hh unif k j.+1 phi_min phi (unif j * (phi - phi_min) + phi_min) in
      (here :: r.1, r.2)
    else if phi < 0 then
      let r := ess_loop likelihood L initial_theta nu hh unif k j.+1 phi phi_max (unif j * (phi_max - phi) + phi) in
      (here :: r.1, r.2)
    else ([:: here], Raise RuntimeError)
  end.

(** sampling.py lines 45-153, with [prior] a sample of the size of the state (the other documented form,
    the Cholesky factor of the prior covariance, only computes such a sample at lines 101-105). [unif] as
    above; draw 0 is the slice level. *)
Definition ess_run (likelihood : covs -> xR) (st : ess_state) (prior : umat) (angle_range : R) (max_iter : nat)
    (unif : nat -> R) : seq (R * R * R) * res ess_state :=
  let start_logp := if ess_logl st is Some l then l else likelihood (ess_V st) in
  let hh := xadd (xmul (Fin (1 / 1000%:R)) (np_log (unif 0%N))) start_logp in
  let loop := ess_loop likelihood (ess_L st) (ess_xx st) prior hh unif max_iter in
  let r :=
    if angle_range <= 0 then
      let phi := unif 1%N * 2%:R * PI in
      loop 2%N (phi - 2%:R * PI) phi phi
    else
      let phi_min := - angle_range * unif 1%N in
      let phi_max := phi_min + angle_range in
      loop 3%N phi_min phi_max (unif 2%N * (phi_max - phi_min) + phi_min) in
  (r.1, match r.2 with
        | Raise e => Raise e
        | Val None => Val st
        | Val (Some (proposal, V, logp)) => Val (ESS proposal V (ess_L st) (Some logp))
        end).
Definition elliptical_slice likelihood st prior angle_range max_iter unif : res ess_state :=
  (ess_run likelihood st prior angle_range max_iter unif).2.

(** the test shared by sampling.py lines 190-191 and 249-250 *)
Definition mh_accept (u logp_diff_q : R) : bool :=
  xgt (Fin (np_min 0 logp_diff_q)) (np_log u).

(** sampling.py lines 156-194. [logp_post x]: the log posterior density of the inverse width x (lines
    177-181); [lognorm_logpdf x s scale]: stats.lognorm.logpdf with loc=0; [draw mu sigma]:
    np.random.lognormal; [u]: np.random.uniform(). *)
Definition sample_hyper_kernel (logp_post : R -> R) (lognorm_logpdf : R -> R -> R -> R) (draw : R -> R -> R) (u : R)
    (initial_theta var_proposal : R) : R * bool :=
  let ms := lognstat initial_theta var_proposal in
  let proposal := draw ms.1 ms.2 in
  let log_qzastztau := lognorm_logpdf proposal ms.2 (exp ms.1) in
  let logp_diff := logp_post proposal - logp_post initial_theta in
  let ms' := lognstat proposal var_proposal in
  let log_qztauzast := lognorm_logpdf initial_theta ms'.2 (exp ms'.1) in
  let accept := mh_accept u (logp_diff + log_qztauzast - log_qzastztau) in
  (if accept then proposal else initial_theta, accept).

(** np.tril_indices: row by row *)
Definition tril_indices : seq ('I_p * 'I_p) :=
  filter (fun ij : 'I_p * 'I_p => (ij.2 <= ij.1)%N) [seq (i, j) | i <- enum 'I_p, j <- enum 'I_p].
(** ell = np.zeros((p, p)); ell[np.tril_indices_from(ell)] = s *)
Definition ell_of (s : seq R) : 'M[R]_p :=
  \matrix_(i, j) if (j <= i)%N then nth 0 s (index (i, j) tril_indices) else 0.
(** L[np.tril_indices_from(L)] *)
Definition lower_of (L : 'M[R]_p) : seq R := [seq L ij.1 ij.2 | ij <- tril_indices].

(** sampling.py lines 227-252. [norm_logpdf x loc scale], [draw loc scale]: the normal distribution *)
Definition sample_ell_comp (norm_logpdf : R -> R -> R -> R) (draw : R -> R -> R) (u : R) (Ltaug : seq R) (i : nat)
    (sigma_proposal : R) (prior_logpdf : R -> R) (likelihood : seq R -> R) : R :=
  let Ltau := nth 0 Ltaug i in
  let Last := draw Ltau sigma_proposal in
  let Lastg := set_nth 0 Ltaug i Last in
  let logp_post s := likelihood s + prior_logpdf (nth 0 s i) in
  let logp_diff := logp_post Lastg - logp_post Ltaug in
  let logq_ast_tau := norm_logpdf Last Ltau sigma_proposal in
  let logq_tau_ast := norm_logpdf Ltau Last sigma_proposal in
  let logq_diff := logq_tau_ast - logq_ast_tau in
  if mh_accept u (logp_diff + logq_diff) then Last else Ltau.

(** sampling.py lines 197-224 for a scalar var_proposal: [draws i] and [us i] are the draws made for
    component i. The array Ltau is updated in place: the result holds the same values. Log-likelihoods
    are finite here. *)
Definition sample_ell (norm_logpdf : R -> R -> R -> R) (draws : nat -> R -> R -> R) (us : nat -> R) (Ltau : seq R)
    (var_proposal : R) (u : umat) (prior_logpdf : R -> R) (likelihood : covs -> R) : seq R :=
  foldl (fun s i => set_nth 0 s i (sample_ell_comp norm_logpdf (draws i) (us i) s i (sqrt var_proposal) prior_logpdf
                                     (fun s => likelihood (GWP_construct u (ell_of s)))))
    Ltau (iota 0 (size Ltau)).
End GWP.

(** * wishart_process_.py *)
Section Fit.
Variables (v p N : nat).
(** the log-likelihood (finite), the log posterior density of the kernel's inverse width given u (lines
    177-181 of sampling.py), the log-density of the prior of L *)
Variables (likelihood : covs p N -> R) (logp_post : umat v p N -> R -> R) (prior_logpdf : R -> R).
(** scipy's log-densities *)
Variables (lognorm_logpdf norm_logpdf : R -> R -> R -> R).
(** what the random generator returns in iteration i: the uniforms of the slice sampler, the lognormal draw
    and the uniform of the width update, the normal draws and uniforms of the L update, and the Gaussian
    process draw for the accepted width. The [while True] of lines 127-132 retries with a regularised
    kernel until a draw succeeds: [gp i theta] is the draw that succeeds. *)
Variables (r_ess : nat -> nat -> R) (r_logn : nat -> R -> R -> R) (r_u : nat -> R)
  (r_norm : nat -> nat -> R -> R -> R) (r_us : nat -> nat -> R) (gp : nat -> R -> umat v p N).
Variables (var_prop var_Lprop : R) (learn_ell : bool).

Record fstate := FS { fs_cs : ess_state v p N; fs_theta : R; fs_umat : umat v p N; fs_Ltau : seq R; fs_L : 'M[R]_p;
                      fs_u : seq (umat v p N); fs_ll : seq R; fs_lp : seq R }.

(** the log-likelihood stored in the state *)
Definition cs_logl (cs : ess_state v p N) : R := if ess_logl cs is Some (Fin l) then l else 0.

(** lines 108-159: one iteration; angle_range=0, max_iter=20. L__ is one array, written in place by every
    iteration ([fs_L]). *)
Definition fit_body (i : nat) (s : fstate) : res fstate :=
  match elliptical_slice (fun V => Fin (likelihood V)) (fs_cs s) (fs_umat s) 0 20 (r_ess i) with
  | Raise e => Raise e
  | Val cs =>
    let ta := sample_hyper_kernel (logp_post (ess_xx cs)) lognorm_logpdf (r_logn i) (r_u i) (fs_theta s) var_prop in
    let theta := ta.1 in
    let umat := if ta.2 then gp i theta else fs_umat s in
    let cs := if ta.2 then ESS umat (ess_V cs) (ess_L cs) (Some (Fin (likelihood (GWP_construct umat (ess_L cs))))) else cs in
    let Ltau := if learn_ell then
        sample_ell norm_logpdf (r_norm i) (r_us i) (fs_Ltau s) var_Lprop (ess_xx cs) prior_logpdf likelihood
      else fs_Ltau s in
    let L__ := if learn_ell then ell_of p Ltau else fs_L s in
    let cs := if learn_ell then ESS (ess_xx cs) (ess_V cs) L__ (Some (Fin (likelihood (GWP_construct (ess_xx cs) L__)))) else cs in
    Val (FS cs theta umat Ltau L__ (rcons (fs_u s) (ess_xx cs)) (rcons (fs_ll s) (cs_logl cs)) (rcons (fs_lp s) theta))
  end.

Fixpoint fit_loop (n i : nat) (s : fstate) : res fstate :=
  match n with
  | 0%N => Val s
  | k.+1 => match fit_body i s with Raise e => Raise e | Val s' => fit_loop k i.+1 s' end
  end.

(** lines 54-163. [umat0]: the initial Gaussian process draw; [L0]: the given L, or the drawn lower
    triangular matrix when it is None. The result: samples_u, loglikes, lps and Ls. Ls.append(L__) appends
    the same array at each iteration, so every entry is its final value. *)
Definition fit (theta : R) (umat0 : umat v p N) (L0 : 'M[R]_p) (n_iter : nat) :
    res (seq (umat v p N) * seq R * seq R * seq 'M[R]_p) :=
  let V := GWP_construct umat0 L0 in
  let cs := ESS umat0 V L0 (Some (Fin (likelihood V))) in
  match fit_loop n_iter 0 (FS cs theta umat0 (lower_of L0) (ell_of p (lower_of L0)) [::] [::] [::]) with
  | Raise e => Raise e
  | Val s => Val (fs_u s, fs_ll s, fs_lp s, nseq n_iter (fs_L s))
  end.

(** np.argmax: the first position of the largest value *)
Definition np_argmax (s : seq R) : nat := find (fun a => all (fun b => b <= a) s) s.

(** WishartProcess.fit, lines 335-351: the choice of the returned sample: lmap, u_map, Lmap, D_map. ValueError:
    argmax of an empty array. *)
Definition wishart_process_select (L0 : 'M[R]_p) (burn_in : nat)
    (out : seq (umat v p N) * seq R * seq R * seq 'M[R]_p) : res (R * umat v p N * 'M[R]_p * covs p N) :=
  let: (samples_u, loglikes, lps, Ls) := out in
  if size (drop burn_in loglikes) == 0%N then Raise ValueError
  else
    let pos := np_argmax (drop burn_in loglikes) in
    let u_map := nth 0 (drop burn_in samples_u) pos in
    let Lmap := if learn_ell then nth 0 (drop burn_in Ls) pos else L0 in
    Val (nth 0 (drop burn_in lps) pos, u_map, Lmap, GWP_construct u_map Lmap).
Definition wishart_process_fit (theta : R) umat0 (L0 : 'M[R]_p) (n_iter burn_in : nat) :
    res (R * umat v p N * 'M[R]_p * covs p N) :=
  match fit theta umat0 L0 n_iter with
  | Raise e => Raise e
  | Val out => wishart_process_select L0 burn_in out
  end.
(** line 242: the default burn-in *)
Definition default_burn_in (n_iter : nat) : nat := (n_iter %/ 4)%N.
(** lines 353-355: [covariance_] is D_map with the time first, and precision_ its pinvh *)
Definition covariance_of (D_map : covs p N) : 'I_N -> 'M[R]_p := fun t => (D_map t)^T.
End Fit.

(** wishart_process_.py lines 166-209: [KB] is the kernel on the training times, [A] between test and
    training times *)
Definition predict v p N M (pinvh : 'M[R]_N -> 'M[R]_N) (KB : 'M[R]_N) (A : 'M[R]_(M, N)) (u_map : umat v p N)
    (L_map : 'M[R]_p) : covs p M :=
  let A_invKb := A *m pinvh KB in
  GWP_construct ([ffun t => \sum_s A_invKb t s *: u_map s] : umat v p M) L_map.
