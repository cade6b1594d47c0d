(** Property theorems C22-C26 (and the parts of C17, C18) : time_graphical_lasso. *)
From Coq Require Import Reals.
From mathcomp Require Import all_ssreflect all_algebra.
From Verif Require Import RStruct RTac S_Mat NP M_Prox M_Loop M_GL M_LGL M_TGL S_GL S_LGL S_TGL.
From Verif Require Import RMx P_Eigh P_Prox P_Loop P_LGL P_TGL P_TGL2 P_TGL3 P_TGL4 P_TGL5 T_GL T_LGL.
Import Order.TTheory GRing.Theory Num.Theory.

Set Implicit Arguments.
Unset Strict Implicit.
Unset Printing Implicit Defensive.
Local Open Scope ring_scope.

(** concrete data: three times, two variables, the l1 norm as temporal penalty *)
Definition exSt : stack 2 3 := [ffun=> exS].
Definition exKt : stack 2 3 := [ffun=> diag_mx (\row_i (exS i i + 1)^-1)].
Definition exT (m : nat) : tgl_params :=
  TGLParams 1 1 1 m (10%:R^-1) 0 true true true None 0 (RhoOptions 10%:R 1 1).
Lemma exSt_sym : slices (@sym 2) exSt.
Proof. by move=> t; rewrite ffunE; apply: exS_sym. Qed.
Lemma l1_prox n : prox_of (@l1 n n) (@soft_thresholding n n).
Proof. by move=> a lam l0; apply: soft_unique. Qed.
Lemma l1_odd n (x : 'M[R]_n) lam : soft_thresholding (- x) lam = - soft_thresholding x lam.
Proof.
apply/matrixP => i j; rewrite !mxE /soft1 normrN -mulNr; congr (_ * _).
rewrite /np_sign oppr_eq0 oppr_gt0; case: (ltrgt0P (x i j)) => _; by rewrite ?oppr0 ?opprK.
Qed.
Lemma l1_even n (x : 'M[R]_n) : l1 (- x) = l1 x.
Proof. by rewrite -scaleN1r l1Z normrN1 mul1r. Qed.
Lemma exSt_opt : minimiser (fun K : stack 2 3 => slices (@pd 2) K)
  (fun K => time_obj (@l1 2 2) (@l1 2 2) (fun=> 1) exSt 1 1 K) exKt.
Proof.
have [[_ _ pK] h] := exS_lgl_opt; rewrite /= subr0 in pK.
split; first by move=> t; rewrite ffunE.
move=> Y pY; rewrite /time_obj !mul1r.
have l10 (X : 'M[R]_2) : 0 <= l1 X by apply: sumr_ge0 => i _; apply: sumr_ge0.
have -> : \sum_(s < 3) \sum_(t < 3 | t == s.+1 :> nat) l1 (exKt t - exKt s) = 0.
  rewrite big1 // => s _; rewrite big1 // => t _; rewrite !ffunE subrr.
  by rewrite -(scale0r 0) l1Z normr0 mul0r.
rewrite addr0 -[X in X <= _]addr0; apply: ler_add; last by apply: sumr_ge0 => s _; apply: sumr_ge0.
rewrite -!big_split; apply: ler_sum => t _; rewrite !ffunE !mul1r /=.
have := h (Y t, 0); rewrite /lgl_obj /= !mul1r !subr0 mul0r !addr0; apply.
by split=> //=; rewrite ?subr0 //; [apply: pd_sym | apply: psd0].
Qed.

(** C22: the returned precision, and every intermediate state *)
Theorem C22_result : forall n m (eigh : eigh_t n) psi prox pinvh (S : stack n m.+1) ns p init r,
  eigh_ok eigh -> slices (@sym n) S -> (forall t, 0 < odflt (fun=> 1) ns t) ->
  (forall a lam, sym a -> sym (prox a lam)) -> 0 < tgl_rho0 p ->
  0 < tau_inc (tgl_rho_options p) -> 0 < tau_dec (tgl_rho_options p) -> (0 < tgl_max_iter p)%N ->
  time_graphical_lasso eigh pinvh (PsiPlain psi prox) S ns p init = Ok r ->
  slices (@sym n) (tgl_precision r).
Proof. exact tgl_top_sym. Qed.
Print Assumptions C22_result.
Theorem C22_every_iteration : forall n m (eigh : eigh_t n) psi prox pinvh p, eigh_ok eigh ->
  forall (S : stack n m.+1) ns init, slices (@sym n) S -> (forall t, 0 < ns t) ->
  (forall a lam, sym a -> sym (prox a lam)) -> 0 < tgl_rho0 p ->
  0 < tau_inc (tgl_rho_options p) -> 0 < tau_dec (tgl_rho_options p) -> forall k,
  let s := iter_state (tgl_body eigh (PsiPlain psi prox) S ns p) 0 (tgl_init pinvh S p init) k.+1 in
  [/\ slices (@pd n) (tgl_K s),
      [/\ slices (@sym n) (tgl_Z s).1.1, slices (@sym n) (tgl_Z s).1.2 & slices (@sym n) (tgl_Z s).2] &
      [/\ slices (@sym n) (tgl_U s).1.1, slices (@sym n) (tgl_U s).1.2 & slices (@sym n) (tgl_U s).2]].
Proof. exact tgl_iter_post. Qed.
Print Assumptions C22_every_iteration.
Example C22_case : exists (eigh : eigh_t 2) r, eigh_ok eigh /\ slices (@sym 2) exSt /\ exSt 0 0 1 != 0 /\
  (forall a lam, sym a -> sym (@soft_thresholding 2 2 a lam)) /\
  time_graphical_lasso eigh id (PsiPlain (@l1 2 2) (@soft_thresholding 2 2)) exSt None (exT 7)
    Init3Empirical = Ok r.
Proof.
have [eigh h] := eigh_exists 2.
have [|r hr] := @tgl_call_ok _ _ eigh (PsiPlain (@l1 2 2) (@soft_thresholding 2 2)) id (exT 7) exSt None Init3Empirical; first by [].
exists eigh, r; split=> //; split; first exact: exSt_sym.
split; first by rewrite ffunE mxE; apply/eqP; mclra.
by split=> // a lam; apply: soft_sym.
Qed.

(** C23: the problem solved penalises the diagonal too *)
Theorem C23_stationary_is_optimal : forall n m (eigh : eigh_t n) psi prox, eigh_ok eigh ->
  forall (S : stack n m.+1) ns, slices (@sym n) S -> (forall t, 0 < ns t) ->
  convex_fun psi -> prox_of psi prox ->
  forall p rho (Z U : triple n m) K, 0 <= tgl_alpha p -> 0 <= tgl_beta p -> 0 < rho -> slices (@sym n) U.1.1 ->
  tgl_updates eigh (PsiPlain psi prox) S ns p rho Z U = (K, Z, U) ->
  Z = (K, but_last K, but_first K) /\
  minimiser (fun K : stack n m.+1 => slices (@pd n) K)
    (fun K => time_obj (@l1 n n) psi ns S (tgl_alpha p) (tgl_beta p) K) K.
Proof. exact tgl_fixed_opt. Qed.
Print Assumptions C23_stationary_is_optimal.
Theorem C23_optimal_is_stationary : forall n m (eigh : eigh_t n) psi prox, eigh_ok eigh ->
  forall (S : stack n m.+1) ns, slices (@sym n) S -> (forall t, 0 < ns t) -> convex_fun psi ->
  forall p rho K, prox_of psi prox -> 0 <= tgl_alpha p -> 0 <= tgl_beta p -> 0 < rho ->
  minimiser (fun K : stack n m.+1 => slices (@pd n) K)
    (fun K => time_obj (@l1 n n) psi ns S (tgl_alpha p) (tgl_beta p) K) K ->
  exists U : triple n m, slices (@sym n) U.1.1 /\
    tgl_updates eigh (PsiPlain psi prox) S ns p rho (copies K) U = (K, copies K, U).
Proof. exact tgl_opt_fixed. Qed.
Print Assumptions C23_optimal_is_stationary.
Theorem C23_documented_objective_refuted : forall n m (eigh : eigh_t n) psi prox, eigh_ok eigh ->
  forall (S : stack n m.+1) ns, slices (@sym n) S -> (forall t, 0 < ns t) ->
  convex_fun psi -> prox_of psi prox ->
  forall p rho (Z U : triple n m) K (i : 'I_n), 0 < tgl_alpha p -> 0 <= tgl_beta p -> 0 < rho ->
  slices (@sym n) U.1.1 -> tgl_updates eigh (PsiPlain psi prox) S ns p rho Z U = (K, Z, U) ->
  ~ minimiser (fun K : stack n m.+1 => slices (@pd n) K)
    (fun K => time_obj (@l1od n) psi ns S (tgl_alpha p) (tgl_beta p) K) K.
Proof. exact tgl_fixed_not_doc. Qed.
Print Assumptions C23_documented_objective_refuted.
(** a stationary state of a concrete problem *)
Example C23_case : exists (eigh : eigh_t 2) (U : triple 2 2), eigh_ok eigh /\ slices (@sym 2) U.1.1 /\
  tgl_updates eigh (PsiPlain (@l1 2 2) (@soft_thresholding 2 2)) exSt (fun=> 1) (exT 5) 1 (copies exKt) U =
    (exKt, copies exKt, U).
Proof.
have [eigh h] := eigh_exists 2.
have [|||U [h1 h2]] := @tgl_opt_fixed _ _ _ _ _ h _ _ exSt_sym (fun=> ltr01) (@l1_convex 2) (exT 5) 1 exKt (@l1_prox 2) _ _ _ exSt_opt.
- exact: ler01.
- exact: ler01.
- exact: ltr01.
by exists eigh, U.
Qed.

(** C24 *)
Theorem C24_terminates : forall n m (eigh : eigh_t n) psi prox pinvh (S : stack n m.+1) ns p init,
  eigh_ok eigh -> slices (@sym n) S -> (forall t, 0 < odflt (fun=> 1) ns t) ->
  convex_fun psi -> prox_of psi prox -> (forall a lam, sym a -> sym (prox a lam)) ->
  0 < tgl_rho0 p -> tau_inc (tgl_rho_options p) = 1 -> tau_dec (tgl_rho_options p) = 1 ->
  0 <= tgl_alpha p -> 0 <= tgl_beta p -> 0 <= tgl_rtol p -> 0 < n%:R * tgl_tol p ->
  (exists Ko : stack n m.+1, minimiser (fun K : stack n m.+1 => slices (@pd n) K)
     (fun K => time_obj (@l1 n n) psi (odflt (fun=> 1) ns) S (tgl_alpha p) (tgl_beta p) K) Ko) ->
  exists N, forall k, (N < k)%N -> forall r,
    time_graphical_lasso eigh pinvh (PsiPlain psi prox) S ns
      (TGLParams (tgl_alpha p) (tgl_rho0 p) (tgl_beta p) k (tgl_tol p) (tgl_rtol p) (tgl_return_history p)
        (tgl_return_n_iter p) (tgl_compute_objective p) (tgl_stop_at p) (tgl_stop_when p)
        (tgl_rho_options p)) init = Ok r ->
    tgl_warned r = false.
Proof. exact tgl_terminates. Qed.
Print Assumptions C24_terminates.
Example C24_case : 0 < 2%:R * tgl_tol (exT 5) /\
  exists Ko : stack 2 3, minimiser (fun K : stack 2 3 => slices (@pd 2) K)
    (fun K => time_obj (@l1 2 2) (@l1 2 2) (odflt (fun=> 1) None) exSt 1 1 K) Ko.
Proof. by split; [rewrite /=; mclra | exists exKt; exact: exSt_opt]. Qed.

(** C25: time_rev X t = X (T - 1 - t) *)
Theorem C25_time_reversal : forall n m (eigh : eigh_t n) psi prox,
  (forall x, psi (- x) = psi x) -> (forall x lam, prox (- x) lam = - prox x lam) ->
  forall (S : stack n m.+1) ns p pinvh pinvh' init init',
  init_precision3 pinvh' [ffun t => S (rev_ord t)] init' =
    [ffun t => init_precision3 pinvh S init (rev_ord t)] ->
  (forall M, pinvh' M = pinvh M) ->
  match time_graphical_lasso eigh pinvh (PsiPlain psi prox) S (Some ns) p init,
        time_graphical_lasso eigh pinvh' (PsiPlain psi prox) [ffun t => S (rev_ord t)]
          (Some (fun t => ns (rev_ord t))) p init' with
  | Ok r, Ok r' => [/\ tgl_precision r' = [ffun t => tgl_precision r (rev_ord t)],
      tgl_covariance r' = [ffun t => tgl_covariance r (rev_ord t)],
      tgl_history r' = tgl_history r, tgl_n_iter r' = tgl_n_iter r & tgl_warned r' = tgl_warned r]
  | UnboundLocalError, UnboundLocalError => True
  | _, _ => False
  end.
Proof. exact rev_call. Qed.
Print Assumptions C25_time_reversal.
Example C25_case : (forall x : 'M[R]_2, l1 (- x) = l1 x) /\
  (forall (x : 'M[R]_2) lam, soft_thresholding (- x) lam = - soft_thresholding x lam).
Proof. by split=> *; [apply: l1_even | apply: l1_odd]. Qed.

(** C26: graphical_lasso and latent_graphical_lasso record the documented objective, finite *)
Theorem C26_graphical_lasso_objective : forall n (eigh : eigh_t n) pinvh (S : 'M[R]_n) p init,
  eigh_ok eigh -> sym S -> 0 < gl_rho0 p ->
  0 < tau_inc (gl_rho_options p) -> 0 < tau_dec (gl_rho_options p) -> 0 <= gl_alpha p ->
  forall c0 k, gl_compute_objective p -> gl_over_relax p = 1 \/ sym (init_precision pinvh S init) ->
  let e := gl_loop eigh S p (gl_init pinvh S p init) in (k < size (le_checks e))%N ->
  let s := iter_state (gl_body eigh S p) 0 (gl_init pinvh S p init) k.+1 in
  c_obj (nth c0 (le_checks e) k) =
  Fin (\tr (S *m gl_K s) - ln (\det (gl_K s)) + gl_alpha p * l1od (gl_Z s)).
Proof. exact gl_hist_obj. Qed.
Print Assumptions C26_graphical_lasso_objective.
Theorem C26_latent_objective : forall n (eigh : eigh_t n) nuc pinvh (S : 'M[R]_n) p init,
  eigh_ok eigh -> sym S -> (forall M, psd M -> nuc M = \tr M) -> 0 < lgl_rho0 p ->
  0 < tau_inc (lgl_rho_options p) -> 0 < tau_dec (lgl_rho_options p) ->
  0 <= lgl_alpha p -> 0 <= lgl_tau p ->
  forall c0 k, lgl_compute_objective p ->
  let e := lgl_loop eigh nuc S p (lgl_init pinvh S p init) in (k < size (le_checks e))%N ->
  let s := iter_state (lgl_body eigh nuc S p) 0 (lgl_init pinvh S p init) k.+1 in
  c_obj (nth c0 (le_checks e) k) =
  Fin (\tr (S *m lgl_Rold s) - ln (\det (lgl_Rold s)) + lgl_alpha p * l1od (lgl_K s)
       + lgl_tau p * \tr (lgl_L s)).
Proof. exact lgl_hist_obj. Qed.
Print Assumptions C26_latent_objective.
(** time_graphical_lasso does not: for every data set there is an alpha for which the first
    iteration records +inf although the documented objective of its iterates is finite *)
Theorem C26_time_objective_refuted : forall n m (eigh : eigh_t n.+1) px pinvh (S : stack n.+1 m.+1) ns p init,
  eigh_ok eigh -> slices (@sym n.+1) S -> (forall t, 0 < ns t) -> 0 < tgl_rho0 p ->
  tgl_compute_objective p -> tgl_return_history p -> (0 < tgl_max_iter p)%N ->
  exists a, 0 < a /\ forall r,
    time_graphical_lasso eigh pinvh px S (Some ns) (with_alpha p a) init = Ok r ->
    let s := iter_state (tgl_body eigh px S ns (with_alpha p a)) 0
               (tgl_init pinvh S (with_alpha p a) init) 1 in
    [/\ slices (@pd n.+1) (tgl_K s),
      exists v, tgl_objective ns S (tgl_K s) (tgl_Z s).1.1 (tgl_Z s).1.2 (tgl_Z s).2 a (tgl_beta p)
        (psi_norm px) = Fin v &
      exists h c0, tgl_history r = Some h /\ c_obj (nth c0 h 1) = PInf].
Proof. exact tgl_obj_bad. Qed.
Print Assumptions C26_time_objective_refuted.
Example C26_case : slices (@sym 2) exSt /\ tgl_compute_objective (exT 3) /\ tgl_return_history (exT 3) /\
  (0 < tgl_max_iter (exT 3))%N.
Proof. by split; first exact: exSt_sym. Qed.

(** C17, C18 for time_graphical_lasso: the count is right and the history has one extra entry *)
Theorem C17_time_graphical_lasso_count : forall n m (eigh : eigh_t n) px pinvh p (S : stack n m.+1) ns init r,
  tgl_return_n_iter p -> tgl_return_history p ->
  time_graphical_lasso eigh pinvh px S ns p init = Ok r ->
  exists h k, [/\ tgl_history r = Some h, tgl_n_iter r = Some k, size h = k.+1 &
    [/\ (0 < k)%N, (k <= tgl_max_iter p)%N, tgl_warned r -> k = tgl_max_iter p &
    k = size (le_checks (tgl_loop eigh px S (odflt (fun=> 1) ns) p (tgl_init pinvh S p init)))]].
Proof. exact tgl_count. Qed.
Print Assumptions C17_time_graphical_lasso_count.
Theorem C18_time_graphical_lasso_zero_iterations :
  forall n m (eigh : eigh_t n) px pinvh p (S : stack n m.+1) ns init, tgl_max_iter p = 0%N ->
  (tgl_return_n_iter p -> time_graphical_lasso eigh pinvh px S ns p init = UnboundLocalError _) /\
  (~~ tgl_return_n_iter p -> exists r, time_graphical_lasso eigh pinvh px S ns p init = Ok r /\
     tgl_precision r = init_precision3 pinvh S init /\ tgl_warned r = true).
Proof. exact tgl_zero_iter. Qed.
Print Assumptions C18_time_graphical_lasso_zero_iterations.
