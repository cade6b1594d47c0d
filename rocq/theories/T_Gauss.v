(** Properties of the generators of precision matrices (datasets/gaussian.py, datasets/kernels.py). *)
From Coq Require Import Reals String.
From mathcomp Require Import all_ssreflect all_algebra.
From Verif Require Import RStruct RTac NP Str S_Mat RMx Spectral S_Utils M_Utils P_Utils2 M_Ising P_Ising7 M_Gauss
  P_Gauss P_Gauss2 P_Gauss3 P_Gauss4 P_Gauss5 P_Gauss6 P_Gauss7.
Import Order.TTheory GRing.Theory Num.Theory.

Set Implicit Arguments.
Unset Strict Implicit.
Unset Printing Implicit Defensive.
Local Open Scope ring_scope.

(** * C129: Meinshausen and Yuan *)

(** Whatever the distances and the shuffles, the assertion of the generator holds: the graph has at most four neighbours per
    node, unit diagonal, weights 0.245, and its matrix is symmetric positive definite. *)
Theorem C129_shape chol p (ix : 'I_p -> seq 'I_p) shuffle : (forall n, chol_ok (@chol n)) ->
  (forall t l, perm_eq (shuffle t l) l) ->
  exists theta : 'M[R]_p, theta_my chol ix shuffle = IOk theta /\
    [/\ theta^T = theta, forall i, theta i i = 1, forall i j, i != j -> theta i j = 0 \/ theta i j = 245%:R / 1000%:R,
        forall i, (#|[set j | (j != i) && (theta i j != 0%R)]| <= 4)%N & pd theta].
Proof. by move=> cok sh; have [theta e [[s d t n] q]] := theta_my_ok cok ix sh; exists theta. Qed.
Print Assumptions C129_shape.

(** With loadings drawn in [0, 0.01) and at most 396 = 198 * 2 products p h (the defaults), no assertion fails, at any time. *)
Theorem C129_data chol p h (latent : 'M[R]_(h, p)) T ix shuffle : (forall n, chol_ok (@chol n)) ->
  (forall k t l, perm_eq (shuffle k t l) l) -> (forall i j, 0 <= latent i j < 1 / 100%:R) -> (p * h <= 198 * 2)%N ->
  exists l, [/\ data_my chol latent T ix shuffle = IOk l, size l = maxn 1 T &
    forall theta theta_observed sigma, List.In (theta, theta_observed, sigma) l ->
      [/\ pd theta, theta_observed = theta - latent^T *m latent, pd theta_observed, sigma *m theta_observed = 1%:M & pd sigma]].
Proof.
move=> cok sh lr ph; have [l [e sz g]] := my_data_ok cok T ix lr ph sh; exists l; split=> // a b c /g [_ d ob pb [iv ps]].
by split.
Qed.
Print Assumptions C129_data.

(** Expected for every number of latent variables; refuted: with p h >= 20402 there are loadings in [0, 0.01) for which the
    generator fails, whatever the graph. *)
Theorem C129_many_latents_refuted chol p h : (forall n, chol_ok (@chol n)) -> (0 < p)%N -> (2 * 101 * 101 <= p * h)%N ->
  exists latent : 'M[R]_(h, p), (forall i j, 0 <= latent i j < 1 / 100%:R) /\
    forall T ix shuffle, (forall k t l, perm_eq (shuffle k t l) l) -> data_my chol latent T ix shuffle = IRaise IAssertionError.
Proof.
move=> cok p0 ph; exists (heavy p h); split=> [i j|T ix shuffle sh]; first exact: heavy_range.
rewrite /data_my -(@prednK (maxn 1 T)) ?leq_max //=.
rewrite (heavy_fails (ix 0%N) cok (sh 0%N) p0 ph).
by move: (iota _ _) => ts; elim: ts.
Qed.
Print Assumptions C129_many_latents_refuted.
Example C129_case : (forall (k : nat) (t : 'I_198) (l : seq 'I_198), perm_eq ((fun _ _ l => l) k t l) l) /\
  (forall i j, 0 <= (const_mx (1 / 200%:R) : 'M[R]_(2, 198)) i j < 1 / 100%:R) /\ (198 * 2 <= 198 * 2)%N.
Proof.
split=> //; split=> // i j; rewrite mxE; apply/andP; split; first by apply: divr_ge0; rewrite ?ler01 ?ler0n.
mclra.
Qed.

(** * C130: starting matrices *)

(** The plain start: every node gets at most [degree] links, of weight 0.5 / degree; strictly diagonally dominant. *)
Theorem C130_plain p degree choice : choice_ok choice -> let theta : 'M[R]_p := start_plain degree choice in
  [/\ theta^T = theta, forall i, theta i i = 1, forall i j, i != j -> theta i j = 0 \/ theta i j = 1 / 2%:R / degree%:R,
      forall i, (#|[set j | theta i j != 0%R]| <= degree.+1)%N
    & (forall i, \sum_(j | j != i) `|theta i j| <= 1 / 2%:R) /\ pd theta].
Proof.
move=> cho theta; have inv := plain_ok degree cho; have [s d t n] := inv; split=> //.
by split; [move=> i; exact: plain_row inv | exact: plain_pd inv].
Qed.
Print Assumptions C130_plain.

(** What make_starting returns: theta non-negative, symmetric, positive definite; the latent part K^T K, positive
    semidefinite of rank n_dim_lat, with rows of K of sum 2; theta - L positive definite. The only exception is AssertionError. *)
Theorem C130_starting chol eigh p h degree normalize (K0 : 'M[R]_(h, p)) choice :
  (forall n, chol_ok (@chol n)) -> (forall n, eigh_ok (@eigh n)) -> choice_ok choice ->
  match make_starting chol eigh degree normalize (1 / 100%:R) K0 choice with
  | IOk (theta, L, K) => [/\ pd theta, forall i j, 0 <= theta i j, L = K^T *m K /\ psd L, \rank L = h & pd (theta - L)] /\
                         forall i, \sum_j K i j = 2%:R
  | IRaise e => e = IAssertionError
  end.
Proof.
move=> cok eok cho; case E: make_starting => [[[theta L] K]|e].
  have [El s nn d ob] := starting_ok cok eok cho c001_gt0 E; have [LE Ld r [sm _]] := ell_spec eok El.
  by split.
move: E; rewrite /make_starting; case El: (make_ell eigh K0) => [[L K]|e'] //=.
  have [A ->] : exists A, (if normalize then start_normalized degree choice else IOk (start_plain degree choice)) = IOk A.
    by case: normalize; [have [A e2 _] := normalized_ok degree choice; exists A | eexists].
  by case: ifP => // _ [].
by move: El; rewrite /make_ell; do 3 (case: ifP => // _; first by case=> <- [<-]).
Qed.
Print Assumptions C130_starting.
Example C130_case chol eigh : (forall n, chol_ok (@chol n)) -> (forall n, eigh_ok (@eigh n)) ->
  choice_ok (@the_choice (2 + 50)) /\
  make_starting chol eigh 0 false (1 / 100%:R) wK0 (@the_choice _) = IOk (wtheta0, wL0, wK0).
Proof. by move=> cok eok; split; [exact: the_choice_ok | exact: wstart]. Qed.

(** * C53: evolution *)

(** For every stream of random numbers: as many matrices as times (at least one); at every time theta is symmetric, L is K^T K,
    of rank n_dim_lat; with update_theta = "l1", theta is also non-negative and positive definite. *)
Theorem C53_all_times chol eigh p h T ue ut normalize degree no epsilon (K0 : 'M[R]_(h, p)) choice d fuel l :
  (forall n, chol_ok (@chol n)) -> (forall n, eigh_ok (@eigh n)) -> choice_ok choice -> 0 <= epsilon ->
  (forall t n, size (cd_pairs (d t) n) = no) ->
  make_covariance chol eigh T ue ut normalize degree no epsilon K0 choice d fuel = Some (IOk l) ->
  size l = maxn 1 T /\
  forall t theta L K, (t < maxn 1 T)%N -> nth (0, 0, 0) l t = (theta, L, K) ->
    [/\ theta^T = theta, L = K^T *m K, \rank L = h & ut = "l1"%string -> (forall i j, 0 <= theta i j) /\ pd theta] /\
    (t = 0%N -> pd (theta - L)).
Proof.
move=> cok eok cho e0 szp run; have [sz _ _] := run_spec run; split=> // t theta L K tm e.
have [a b c dd] := all_times cok eok cho e0 szp run tm; have ob := start_observed cok eok cho run.
move: a b c dd ob; rewrite /th /el /kh e => a b c dd ob; split; first by split.
by move=> t0; move: ob; rewrite -t0 e.
Qed.
Print Assumptions C53_all_times.

(** With "l1", between two times at most [no] pairs of variables change, and they get 0, 0.12 or 0.06. *)
Theorem C53_l1_changes chol eigh p h T ue normalize degree no epsilon (K0 : 'M[R]_(h, p)) choice d fuel l :
  (forall n, chol_ok (@chol n)) -> (forall n, eigh_ok (@eigh n)) -> choice_ok choice -> 0 <= epsilon ->
  (forall t n, size (cd_pairs (d t) n) = no) ->
  make_covariance chol eigh T ue "l1" normalize degree no epsilon K0 choice d fuel = Some (IOk l) ->
  forall t, (t.+1 < maxn 1 T)%N -> exists2 ps : seq ('I_p * 'I_p), (size ps <= no)%N &
    forall i j, i != j ->
      let old := (nth (0, 0, 0) l t).1.1 i j in let new := (nth (0, 0, 0) l t.+1).1.1 i j in
      if ((i, j) \in ps) || ((j, i) \in ps) then [\/ new = 0, new = 12%:R / 100%:R | new = 6%:R / 100%:R] else new = old.
Proof.
move=> cok eok cho e0 szp run t tm; have [ps [sp o v]] := l1_moves cok eok cho e0 szp run erefl tm.
by exists ps => // i j ij /=; case: ifP => [q|/negbT q]; [exact: v | exact: o].
Qed.
Print Assumptions C53_l1_changes.

(** with update_ell = "fixed" the latent part never changes *)
Theorem C53_fixed_latent chol eigh p h T ut normalize degree no epsilon (K0 : 'M[R]_(h, p)) choice d fuel l :
  (forall n, chol_ok (@chol n)) -> (forall n, eigh_ok (@eigh n)) -> choice_ok choice -> 0 <= epsilon ->
  (forall t n, size (cd_pairs (d t) n) = no) ->
  make_covariance chol eigh T "fixed" ut normalize degree no epsilon K0 choice d fuel = Some (IOk l) ->
  forall t, (t < maxn 1 T)%N -> (nth (0, 0, 0) l t).1.2 = (nth (0, 0, 0) l 0).1.2.
Proof. by move=> cok eok cho e0 szp run t tm; exact: (fixed_ell cok eok cho e0 szp run erefl tm). Qed.
Print Assumptions C53_fixed_latent.

(** the repair of theta: a symmetric non-negative matrix becomes positive definite, off-diagonal entries are kept *)
Theorem C53_repair chol p (theta : 'M[R]_p) eps : (forall n, chol_ok (@chol n)) -> theta^T = theta -> (forall i j, 0 <= theta i j) ->
  0 < eps -> pd (repair_rowsum chol theta eps) /\ forall i j, i != j -> repair_rowsum chol theta eps i j = theta i j.
Proof. by move=> cok s nn e0; split; [have [] := rowsum_ok cok s nn e0 | move=> i j; exact: rowsum_off]. Qed.
Print Assumptions C53_repair.

(** Expected: theta - L is positive definite at every time, as theta is repaired when it is not. Refuted: the repair is not
    checked after the first time. *)
Theorem C53_observed_refuted chol eigh : (forall n, chol_ok (@chol n)) -> (forall n, eigh_ok (@eigh n)) ->
  exists p h degree no epsilon (K0 : 'M[R]_(h, p)) choice d theta0 L0 K0' theta1 L1 K1,
    [/\ choice_ok choice /\ (forall i j, 0 <= K0 i j), 0 < epsilon, forall t n, size (cd_pairs (d t) n) = no,
        make_covariance chol eigh 2 "l2" "l1" false degree no epsilon K0 choice d 1 =
          Some (IOk [:: (theta0, L0, K0'); (theta1, L1, K1)])
      & ~ pd (theta1 - L1)].
Proof.
move=> cok eok; do 14!eexists; split; last exact: wrun_bad; last exact: wrun; rewrite ?ltr0n //.
split; first exact: the_choice_ok.
move=> i j; rewrite /wK0; case: (split_ordP j) => j' ->; rewrite ?row_mxEl ?row_mxEr mxE //.
by rewrite mulrn_wge0 // ler0n.
Qed.
Print Assumptions C53_observed_refuted.

(** On one variable the evolution never ends: no pair of distinct variables can be drawn. *)
Theorem C53_one_variable chol eigh h T ue normalize degree no epsilon (K0 : 'M[R]_(h, 1)) choice d fuel :
  (1 < T)%N -> (0 < no)%N -> (forall t n, size (cd_pairs (d t) n) = no) ->
  forall r, make_covariance chol eigh T ue "l1" normalize degree no epsilon K0 choice d fuel <> Some (IOk r).
Proof.
move=> T1 n0 sz r run; have [_ _ hs] := run_spec run; have := hs 0%N; rewrite leq_max T1 orbT => /(_ isT).
rewrite /cov_step /= /update_theta_l1; case: no n0 sz {run hs} => // no _ sz.
have -> : forall f k, draw_pairs (cd_pairs (d 1%N)) f k = None; last by [].
elim=> [|f IH] k //=; case: hasP => [_|[]]; first exact: IH.
by case E: (cd_pairs (d 1%N) k) => [|rc ps]; [move: (sz 1%N k); rewrite E | exists rc; rewrite ?inE ?eqxx // !ord1].
Qed.
Print Assumptions C53_one_variable.
Example C53_case chol eigh : (forall n, chol_ok (@chol n)) -> (forall n, eigh_ok (@eigh n)) ->
  [/\ choice_ok (@the_choice (2 + 50)), 0 <= 10%:R :> R, forall n, size (cd_pairs wdraws n) = 1%N
    & make_covariance chol eigh 2 "l2" "l1" false 0 1 10%:R wK0 (@the_choice _) (fun=> wdraws) 1 =
        Some (IOk [:: (wtheta0, wL0, wK0); (wtheta1, wL1, wK1)])].
Proof. by move=> cok eok; split; rewrite ?ler0n //; [exact: the_choice_ok | exact: wrun]. Qed.

(** * C131: fixed sparsity *)

(** Once the start succeeds, the generator succeeds: all matrices after the first, and their observed parts, are symmetric
    positive definite, for all random numbers. *)
Theorem C131_succeeds chol eigh p h T degree epsilon ct (K0 : 'M[R]_(h, p)) choice z theta0 L0 K :
  (forall n, chol_ok (@chol n)) -> (forall n, eigh_ok (@eigh n)) ->
  make_starting chol eigh degree false (1 / 100%:R) K0 choice = IOk (theta0, L0, K) ->
  exists thetas, [/\ make_fixed_sparsity chol eigh T degree epsilon ct K0 choice z = IOk (thetas, L0), size thetas = maxn 1 T,
    nth 0 thetas 0 = map_mx (fun x : R => `|x|) theta0
    & forall t, (0 < t < maxn 1 T)%N -> pd (nth 0 thetas t) /\ pd (nth 0 thetas t - L0)].
Proof.
move=> cok eok E; have [ths [L [e sz LE z0 h1]]] := fs_run cok T epsilon ct z eok E.
by exists ths; rewrite e LE; split=> // t tm; have [_ a b] := h1 t tm; move: b; rewrite LE.
Qed.
Print Assumptions C131_succeeds.
(** Expected of its name: the zero entries stay zero. Refuted, in the smallest case, without latent variables. *)
Theorem C131_sparsity_refuted chol eigh : (forall n, chol_ok (@chol n)) -> (forall n, eigh_ok (@eigh n)) ->
  exists choice z theta0 theta1 L, choice_ok choice /\
    [/\ make_fixed_sparsity (p := 2) (h := 0) chol eigh 2 0 (1 / 100%:R) None 0 choice z = IOk ([:: theta0; theta1], L),
        theta0 0 1 = 0 & theta1 0 1 != 0].
Proof.
move=> cok eok; have [A [B [L [e a b _]]]] := fs_witness cok eok.
exists (@the_choice _), (fun=> const_mx 1), A, B, L; split; first exact: the_choice_ok.
by split.
Qed.
Print Assumptions C131_sparsity_refuted.
(** the reason: after the first step, the positions that are moved are all the off-diagonal ones *)
Theorem C131_all_moved p (theta L z : 'M[R]_p) plus epsilon i j : i != j -> fs_nonzero (fs_step theta L z plus epsilon) i j.
Proof. exact: fs_all_moved. Qed.
Print Assumptions C131_all_moved.
Example C131_case chol eigh : (forall n, chol_ok (@chol n)) -> (forall n, eigh_ok (@eigh n)) ->
  make_starting chol eigh 0 false (1 / 100%:R) wK0 (@the_choice _) = IOk (wtheta0, wL0, wK0).
Proof. by move=> cok eok; exact: wstart. Qed.

(** * C132: sines *)

(** make_sin: positive definite matrices at every time whose off-diagonal entries are the positive parts of the sines,
    with or without normalize. *)
Theorem C132_sin chol p T normalize (y : 'I_T -> 'I_p -> 'I_p -> R) t : (forall n, chol_ok (@chol n)) ->
  let Y := make_sin chol normalize y t in
  pd Y /\ forall i j : 'I_p, (i < j)%N -> Y i j = Num.max (y t i j) 0 /\ Y j i = Num.max (y t i j) 0.
Proof. by move=> cok; exact: sin_ok. Qed.
Print Assumptions C132_sin.
(** Expected: one observed precision matrix for each time. Refuted: whenever it succeeds, only that of the last time; and with
    no time, UnboundLocalError. *)
Theorem C132_sin_cos_refuted chol p (L : 'M[R]_p) theta : 
  (forall T thetas obs, make_sin_cos chol T L theta = IOk (thetas, obs) -> size thetas = T /\ obs = [:: theta T.-1 - L]) /\
  make_sin_cos chol 0 L theta = IRaise IUnboundLocalError.
Proof. by split=> // T thetas obs /sin_cos_ok [_ ? _ ?]. Qed.
Print Assumptions C132_sin_cos_refuted.
Example C132_case chol : (forall n, chol_ok (@chol n)) -> make_sin_cos chol 2 0 (fun=> 1%:M : 'M[R]_3) =
  IOk ([:: 1%:M; 1%:M], [:: 1%:M]).
Proof.
move=> cok; have d : is_pos_def (@chol 3%N) 1%:M by apply: cholE => //; exact: pd1.
by rewrite /make_sin_cos /= d subr0 d.
Qed.

(** * C133: Ma, Xue and Zou *)

(** The joint precision matrix is positive definite, hence the assertions on the marginal precision and on the block of the
    latent variables hold; only the assertion on the rank of the latent part can fail. *)
Theorem C133_marginal chol eigh po ph (W : 'M[R]_(po.+1 + ph)) noise : (forall n, chol_ok (@chol n)) -> (forall n, eigh_ok (@eigh n)) ->
  exists K : 'M[R]_(po.+1 + ph), [/\ pd K, pd (ulsubmx K),
    let L := ursubmx K *m invmx (drsubmx K) *m dlsubmx K in
    [/\ psd L, pd (ulsubmx K - L) &
      make_ma_xue_zou chol eigh W noise = if \rank L == ph then IOk (ulsubmx K, ulsubmx K - L, L) else IRaise IAssertionError]
    & forall i j, i != j -> -1 <= K i j <= 1].
Proof.
move=> cok eok; exists (ma_K eigh W noise); have d := ma_K_pd eok W noise.
split=> //; [exact: ul_pd | by split; [exact: schur_psd | exact: schur_ul | exact: ma_split_ok] |].
move=> i j ij; rewrite /ma_K mxE [(_%:M) i j]mxE (negbTE ij) mulr0n addr0 mxE /clip11.
rewrite le_minl lexx orbT le_minr le_maxr lexx orbT /= andbT; mclra.
Qed.
Print Assumptions C133_marginal.
(** the observed block minus the latent part is the precision of the observed variables: the inverse of the observed block of
    the covariance *)
Theorem C133_precision po ph (K : 'M[R]_(po + ph)) : pd K ->
  (ulsubmx K - ursubmx K *m invmx (drsubmx K) *m dlsubmx K) *m ulsubmx (invmx K) = 1%:M.
Proof.
move=> d; have uK := pd_unit d; have uD := pd_unit (dr_pd d).
have e : K *m invmx K = 1%:M by rewrite mulmxV.
move: e; set X := invmx K; rewrite -{1}(submxK K) -{1}(submxK X) mulmx_block => e.
have [e1 e2] : ulsubmx K *m ulsubmx X + ursubmx K *m dlsubmx X = 1%:M /\ dlsubmx K *m ulsubmx X + drsubmx K *m dlsubmx X = 0.
  by move: e; rewrite scalar_mx_block => /eq_block_mx [].
rewrite mulmxBl -!mulmxA (_ : dlsubmx K *m ulsubmx X = - (drsubmx K *m dlsubmx X)); last by apply/eqP; rewrite -addr_eq0 e2.
by rewrite !mulmxN opprK !mulmxA mulmxKV // e1.
Qed.
Print Assumptions C133_precision.
(** Expected: make_ma_xue_zou_rand_k returns positive definite precisions (it computes A A^T + 1e-6 I). Refuted: the line after
    replaces it by A, which is singular for two variables joined by an edge. *)
Theorem C133_rand_k_refuted : exists sgn : 'I_(2 + 0) -> 'I_(2 + 0) -> R,
  (forall i j, [\/ sgn i j = 1, sgn i j = 0 | sgn i j = - 1]) /\ \det (make_ma_xue_zou_rand_k sgn).1.2 = 0.
Proof. by have [sgn [a b c]] := rand_k_singular; exists sgn; split=> //; rewrite b. Qed.
Print Assumptions C133_rand_k_refuted.

Example C133_case : pd (1%:M : 'M[R]_(2 + 1)).
Proof. exact: pd1. Qed.

(** * C134: kernels.py *)

(** exp-sine-squared: whenever it succeeds, all the matrices are positive definite and have the (sparsified) curves off the
    diagonal; it fails only when a positive definite matrix minus the latent part is not positive definite. *)
Theorem C134_exp_sine chol p (L : 'M[R]_p) sparse epsilon T u : (forall n, chol_ok (@chol n)) -> L^T = L ->
  match make_exp_sine_squared chol L sparse epsilon T u with
  | IOk l => size l = T /\ forall t theta obs, (t < T)%N -> nth (0, 0) l t = (theta, obs) ->
      [/\ pd theta, obs = theta - L, pd obs &
          forall i j : 'I_p, (i < j)%N -> theta i j = if sparse && (`|u t i j| < epsilon) then 0 else u t i j]
  | IRaise e => exists2 A : 'M[R]_p, pd A & ~ pd (A - L)
  end.
Proof.
move=> cok sL; case E: make_exp_sine_squared => [l|e].
  by have [sz h] := ess_ok cok E sL; split=> // t th ob /h + e; rewrite e => -[].
by have [t _ h] := ess_raises cok E sL.
Qed.
Print Assumptions C134_exp_sine.
(** RBF: never fails; the joint matrices and the observed precisions are positive definite, the observed precision being the
    Schur complement at every time. *)
Theorem C134_rbf chol h p sparse epsilon T (u : nat -> 'I_(h + p) -> 'I_(h + p) -> R) : (forall n, chol_ok (@chol n)) ->
  exists thetas obs, [/\ make_RBF chol sparse epsilon T u = IOk (thetas, obs), size thetas = T, size obs = T &
    forall t theta ob L, (t < T)%N -> nth 0 thetas t = theta -> nth (0, 0) obs t = (ob, L) ->
      [/\ pd theta, pd ob, psd L, ob = drsubmx theta - L &
          ob = drsubmx theta - dlsubmx theta *m invmx (ulsubmx theta) *m ursubmx theta]].
Proof.
move=> cok; have [ths [obs [e s1 s2 hh]]] := rbf_ok cok sparse epsilon T u; exists ths, obs; split=> // t th ob L tT e1 e2.
by have := hh t tT; rewrite e1 e2 => -[a b c [f g]].
Qed.
Print Assumptions C134_rbf.
(** TICC: positive definite; off the diagonal, block (i, j) is block |i - j| (transposed on and above the diagonal) *)
Theorem C134_ticc eigh nb n (blocks : nat -> 'M[R]_n.+1) : (forall n, eigh_ok (@eigh n)) -> (blocks 0%N)^T = blocks 0%N ->
  pd (make_ticc eigh nb blocks) /\
  forall a b : 'I_(nb.+1 * n.+1), a != b -> make_ticc eigh nb blocks a b =
    (if (b %/ n.+1 < a %/ n.+1)%N then blocks (a %/ n.+1 - b %/ n.+1)%N (inord (a %% n.+1)) (inord (b %% n.+1))
     else blocks (b %/ n.+1 - a %/ n.+1)%N (inord (b %% n.+1)) (inord (a %% n.+1))).
Proof. by move=> eok s; have [d o] := ticc_ok nb eok s; split=> // a b ab; rewrite o // mxE. Qed.
Print Assumptions C134_ticc.
Example C134_case : ((0 : 'M[R]_3)^T = 0) /\ ((1%:M : 'M[R]_4)^T = 1%:M).
Proof. by rewrite trmx0 trmx1. Qed.
