(** Property theorem C136 (and the parts of C17, C18): missing_graphical_lasso. *)
From Coq Require Import Reals.
From mathcomp Require Import all_ssreflect all_algebra.
From Verif Require Import RStruct RTac LinTac S_Mat RMx P_Eigh NP M_Prox M_Loop M_GL M_Missing P_GL2 P_Missing T_GL.
Import Order.TTheory GRing.Theory Num.Theory.

Set Implicit Arguments.
Unset Strict Implicit.
Unset Printing Implicit Defensive.
Local Open Scope ring_scope.

(** ** specification *)
(** (z - mu)^T K (z - mu), minus twice the log-density of the Gaussian with mean mu and precision K up to a constant *)
Definition energy d (K : 'M[R]_d) (mu : 'I_d -> R) (z : 'cV[R]_d) : R := quad K (z - \col_v mu v).
(** z keeps the observed entries of x *)
Definition agrees d (x : 'I_d -> option R) (z : 'cV[R]_d) : Prop := forall v y, x v = Some y -> z v 0 = y.
(** the conditional mean of the missing entries given the observed ones: the most likely completion *)
Definition conditional_mean d (K : 'M[R]_d) mu (x : 'I_d -> option R) (z : 'cV[R]_d) : Prop :=
  unique_minimiser (agrees x) (energy K mu) z.

(** observed entries are returned unchanged; every filled entry lies in [-1, 1] *)
Theorem C136_observed_kept : forall N d (eigh : eigh_t d.+1) pinvh pinv (X : mdata N d.+1) p r, eigh_ok eigh -> pinv_ok pinv ->
  0 < gl_rho0 p -> 0 < tau_inc (gl_rho_options p) -> 0 < tau_dec (gl_rho_options p) ->
  missing_graphical_lasso eigh pinvh pinv X p = MOk r ->
  forall i v, if X i v is Some y then mr_filled r i v = y else `|mr_filled r i v| <= 1.
Proof.
move=> N d eigh pinvh pinv X p r He pok r0 ti td h i v.
have [K0 [mu [_ -> _ _]]] := ms_source He pok r0 ti td h; case E: (X i v) => [y|].
  by apply: (filled_obs E); apply: compute_cs_obs; rewrite E.
by rewrite filled_nan //; exact: compute_cs_bound.
Qed.
Print Assumptions C136_observed_kept.

(** the fill of the last iteration: for some precision K0 and means mu, all conditional means divided by the same c >= 1,
    which is 1 when no conditional mean exceeds 1 *)
Theorem C136_scaled_conditional_mean : forall N d pinv (K0 : 'M[R]_d) mu (X : mdata N d), pinv_ok pinv -> pd K0 ->
  exists2 c : R, 1 <= c & exists Z : 'I_N -> 'cV[R]_d,
    [/\ forall i, conditional_mean K0 mu (X i) (Z i),
        forall i v, X i v = None -> compute_cs pinv mu K0 X i v = Z i v 0 / c &
        (forall i v, X i v = None -> `|Z i v 0| <= 1) -> c = 1].
Proof.
move=> N d pinv K0 mu X pok pK.
exists (np_max (max_abs (fun i v => cs_row pinv K0 mu (X i) v)) 1); first by have [] := np_max1 (max_abs (fun i v => cs_row pinv K0 mu (X i) v)).
exists (fun i => completion (X i) (cs_row pinv K0 mu (X i))).
have fillE i z : agrees (X i) z -> z = completion (X i) (fun v => z v 0).
  by move=> h; apply/matrixP => v j; rewrite !ord1 mxE; have := h v; case: (X i v) => //= y /(_ y erefl).
have ag i u : agrees (X i) (completion (X i) u) by move=> v y h; rewrite mxE h.
split.
- move=> i; set z := completion _ _.
  have key z' : agrees (X i) z' -> energy K0 mu z' = energy K0 mu z + quad K0 (z' - z).
    by move/fillE ->; exact: cs_conditional.
  split=> [|z' h nz]; first exact: ag.
  rewrite (key z') // ltr_addl; apply: (proj2 pK); by rewrite subr_eq0; apply/eqP.
- by move=> i v h; rewrite /compute_cs mxE h.
- move=> h; rewrite /np_max; case: ltP => // h1; apply/eqP; rewrite eq_le h1 andbT.
  rewrite /max_abs; have [->|[[i v] ->]] := bigmax_in (index_enum [finType of 'I_N * 'I_d]) (fun iv => `|cs_row pinv K0 mu (X iv.1) iv.2|) 0.
    exact: ler01.
  rewrite /=; case E: (X i v) => [y|]; last by have := h i v E; rewrite mxE E.
  by rewrite cs_row_obs ?E // normr0 ler01.
Qed.
Print Assumptions C136_scaled_conditional_mean.

(** what is returned comes from one such fill: for some symmetric K0 (the precision of the iteration before) and means *)
Theorem C136_result : forall N d (eigh : eigh_t d.+1) pinvh pinv (X : mdata N d.+1) p r, eigh_ok eigh -> pinv_ok pinv ->
  0 < gl_rho0 p -> 0 < tau_inc (gl_rho_options p) -> 0 < tau_dec (gl_rho_options p) ->
  missing_graphical_lasso eigh pinvh pinv X p = MOk r ->
  exists (K0 : 'M[R]_d.+1) mu m,
  [/\ sym K0, forall i v, X i v = None -> mr_filled r i v = compute_cs pinv mu K0 X i v,
      m != 0 /\ mr_emp r = m^-1 *: (\sum_i ((\col_v mr_filled r i v) *m (\col_v mr_filled r i v)^T + cond_cov pinv X K0 i)),
      exists i j, mr_emp r i j = 1 &
      exists2 g, graphical_lasso eigh pinvh (mr_emp r) (inner_params p) (InitArray K0) = Ok g & mr_K r = gl_precision g].
Proof.
move=> N d eigh pinvh pinv X p r He pok r0 ti td h.
have [K0 [mu [sK e1 e2 e3]]] := ms_source He pok r0 ti td h.
exists K0, mu, (np_amax (emp_sum pinv X K0 (compute_cs pinv mu K0 X))); have [f1 f2 f3] := emp_spec e2.
split=> //; first by move=> i v hn; rewrite e1 filled_nan.
by split=> //; rewrite f1 emp_sumE e1.
Qed.
Print Assumptions C136_result.
(** for a positive definite K0 the matrix is positive semidefinite, with entries at most 1 *)
Theorem C136_covariance_psd : forall N d pinv (X : mdata N d.+1) K0 cs E, pinv_ok pinv -> pd K0 ->
  compute_empirical_covariance pinv X K0 cs = Some E -> psd E /\ forall i j, E i j <= 1.
Proof. exact emp_psd. Qed.
Print Assumptions C136_covariance_psd.
Theorem C136_precision_symmetric : forall N d (eigh : eigh_t d.+1) pinvh pinv (X : mdata N d.+1) p r, eigh_ok eigh -> pinv_ok pinv ->
  0 < gl_rho0 p -> 0 < tau_inc (gl_rho_options p) -> 0 < tau_dec (gl_rho_options p) ->
  missing_graphical_lasso eigh pinvh pinv X p = MOk r ->
  sym (mr_K r) /\ (gl_over_relax p = 1 -> forall i, 0 < mr_K r i i).
Proof.
move=> N d eigh pinvh pinv X p r He pok r0 ti td h.
have [K0 [mu [sK e1 e2 [g hg ->]]]] := ms_source He pok r0 ti td h; have sE := emp_sym pok sK e2.
have m0 : (0 < gl_max_iter p)%N.
  by have [e [it [hl hi _]]] := ms_call h; move: hl; case: (gl_max_iter p) => //= -[q]; rewrite -q in hi.
split; first by apply: (C12_symmetric He sE _ _ _ hg) => //; right.
by move=> ov i; exact: (@C12_positive_diagonal _ eigh pinvh _ (inner_params p) _ g He sE r0 ti td hg i m0 ov).
Qed.
Print Assumptions C136_precision_symmetric.

(** expected: on complete data the empirical covariance is X^T X / n. It is X^T X divided by its largest entry, and the
    answer is the same when the data are multiplied by any c != 0 *)
Theorem C136_complete_data : forall N d (eigh : eigh_t d.+1) pinvh pinv (X : mdata N d.+1) (M : 'M[R]_(N, d.+1)) p r,
  eigh_ok eigh -> pinv_ok pinv -> 0 < gl_rho0 p -> 0 < tau_inc (gl_rho_options p) -> 0 < tau_dec (gl_rho_options p) ->
  (forall i v, X i v = Some (M i v)) -> missing_graphical_lasso eigh pinvh pinv X p = MOk r ->
  exists m, [/\ m != 0, mr_emp r = m^-1 *: (M^T *m M), forall i j, (M^T *m M) i j <= m & exists i j, (M^T *m M) i j = m].
Proof.
move=> N d eigh pinvh pinv X M p r He pok r0 ti td hX h.
have [K0 [mu [sK e1 e2 _]]] := ms_source He pok r0 ti td h.
move: e2; rewrite (complete_emp _ hX); case: eqVneq => // m0 [<-].
exists (np_amax (M^T *m M)); split=> //; first by move=> i j; exact: np_amax_ge.
by have [i [j ->]] := np_amax_in (M^T *m M); exists i, j.
Qed.
Print Assumptions C136_complete_data.
Theorem C136_scale_refuted : forall N d (eigh : eigh_t d.+1) pinvh pinv (M : 'M[R]_(N, d.+1)) (c : R) p, c != 0 ->
  let X i v := Some (M i v) in let Y i v := Some (c * M i v) in
  match missing_graphical_lasso eigh pinvh pinv X p, missing_graphical_lasso eigh pinvh pinv Y p with
  | MOk r, MOk r' => mr_K r = mr_K r' /\ mr_emp r = mr_emp r'
  | MUnbound, MUnbound => True | MNotFinite, MNotFinite => True | _, _ => False end.
Proof.
move=> N d eigh pinvh pinv M c p c0 X Y.
have c2 : 0 < c ^+ 2 by rewrite lt_neqAle eq_sym expf_neq0 // sqr_ge0.
have hX i v : X i v = Some (M i v) by [].
have hY i v : Y i v = Some ((c *: M) i v) by rewrite mxE.
have eM : (c *: M)^T *m (c *: M) = c ^+ 2 *: (M^T *m M).
  by rewrite [(c *: M)^T]linearZ -scalemxAl -scalemxAr scalerA expr2.
have same K mu mu' : compute_empirical_covariance pinv X K (compute_cs pinv mu K X) = compute_empirical_covariance pinv Y K (compute_cs pinv mu' K Y).
  rewrite (complete_emp _ hX) (complete_emp _ hY) eM np_amax_Z // mulf_eq0 (gt_eqF c2) orFb.
  case: eqVneq => // m0; congr Some; rewrite scalerA; congr (_ *: _).
  by rewrite invfM mulrAC mulVf ?mul1r // gt_eqF.
have := alike_call eigh pinvh p same.
case: (missing_graphical_lasso _ _ _ X p) => [r| |]; case: (missing_graphical_lasso _ _ _ Y p) => [r'| |] //.
by case.
Qed.
Print Assumptions C136_scale_refuted.

(** expected: a missing value is filled with its conditional mean. With one variable this is the average of the observed
    values; two iterations fill in their sum instead, cut off at 1 in absolute value *)
Theorem C136_imputation_refuted : forall N (eigh : eigh_t 1) pinvh pinv (X : mdata N 1) p i0, eigh_ok eigh -> pinv_ok pinv ->
  0 < gl_rho0 p -> 0 < tau_inc (gl_rho_options p) -> 0 < tau_dec (gl_rho_options p) -> gl_over_relax p = 1 ->
  X i0 0 = None -> gl_max_iter p = 2%N -> gl_tol p <= 0 ->
  exists2 r, missing_graphical_lasso eigh pinvh pinv X p = MOk r &
  forall i, X i 0 = None ->
    let t := \sum_(j < N) (if X j 0 is Some y then y else 0) in
    (`|t| <= 1 -> mr_filled r i 0 = t) /\ (1 <= t -> mr_filled r i 0 = 1) /\ (t <= -1 -> mr_filled r i 0 = -1).
Proof.
move=> N eigh pinvh pinv X p i0 He pok r0 ti td ov hm m2 t0.
have [r hr hf] := @one_variable N eigh pinvh pinv X p He pok r0 ti td ov i0 hm m2 t0.
exists r => // i hi t; rewrite (hf i hi) /= (_ : \sum_j nan_to_num (X j 0) = t); last by apply: eq_bigr => j _; case: (X j 0).
rewrite /np_max; split; [|split]=> ht.
- by case: ltP => // h; [rewrite divr1 | have -> : `|t| = 1 by apply/eqP; rewrite eq_le ht h]; rewrite ?divr1.
- rewrite ger0_norm ?(le_trans ler01) // ltNge ht /= divff // gt_eqF // (lt_le_trans ltr01) //.
- have tn : t < 0 by apply: le_lt_trans ht _; rewrite oppr_lt0 ltr01.
  by rewrite ltr0_norm // ltNge ler_oppr ht /= invrN mulrN divff // lt_eqF.
Qed.
Print Assumptions C136_imputation_refuted.
(** three samples of one variable: 3/5, 3/5 and a missing one. The average is 3/5, the value filled in is 1 *)
Definition ex3 : mdata 3 1 := fun i _ => if (i < 2)%N then Some (3%:R / 5%:R) else None.
Example C136_case : exists (eigh : eigh_t 1) (pinv : pinv_t) r, [/\ eigh_ok eigh, pinv_ok pinv,
  missing_graphical_lasso eigh id pinv ex3 (GLParams 1 1 1 2 0 0 true true (RhoOptions 10%:R 2%:R 2%:R) true) = MOk r &
  mr_filled r (inord 2) 0 = 1].
Proof.
have [eigh he] := eigh_exists 1; set p := GLParams _ _ _ _ _ _ _ _ _ _.
have pok : pinv_ok (fun m (A : 'M[R]_m) => invmx A).
  by split=> // m A sA; rewrite /sym trmx_inv sA.
have two : (0 : R) < 2%:R by rewrite ltr0n.
have [|||||||r hr hf] := @C136_imputation_refuted 3 eigh id _ ex3 p (inord 2) he pok; rewrite ?ltr01 //.
  by rewrite /ex3 inordK.
exists eigh, (fun m (A : 'M[R]_m) => invmx A), r; split=> //.
have [|_ [h _]] := hf (inord 2); first by rewrite /ex3 inordK.
apply: h; rewrite !big_ord_recr big_ord0 /ex3 /= add0r addr0.
have num : (1 : R) <= 3%:R / 5%:R + 3%:R / 5%:R by mclra.
exact: num.
Qed.

(** C17, C18 and the stopping rule: the last two log-likelihoods differ by less than tol *)
Theorem C17_missing_graphical_lasso_off_by_one : forall N d (eigh : eigh_t d.+1) pinvh pinv (X : mdata N d.+1) p r,
  gl_return_n_iter p -> gl_return_history p -> missing_graphical_lasso eigh pinvh pinv X p = MOk r ->
  exists h k, [/\ mr_history r = Some h, mr_n_iter r = Some k, size h = k.+1, (size h <= gl_max_iter p)%N & mr_warned r -> size h = gl_max_iter p].
Proof.
move=> N d eigh pinvh pinv X p r rn rh h; have [e [it [hl hi ->]]] := ms_call h; rewrite /= rn rh.
have [h' [e1 e2 [e3 e4 e5] _ _]] := ms_loop_count hl; exists h', it; rewrite e1 /=.
by move: e2 e3 e4 e5; rewrite hi; case: h' {e1} => [|c h'] //= [->] h1 h2 h3; split.
Qed.
Print Assumptions C17_missing_graphical_lasso_off_by_one.
Theorem C18_missing_graphical_lasso_zero_iterations : forall N d (eigh : eigh_t d.+1) pinvh pinv (X : mdata N d.+1) p,
  gl_max_iter p = 0%N -> missing_graphical_lasso eigh pinvh pinv X p = MUnbound.
Proof. by move=> N d eigh pinvh pinv X p m0; rewrite /missing_graphical_lasso m0. Qed.
Print Assumptions C18_missing_graphical_lasso_zero_iterations.
Theorem C136_stops : forall N d (eigh : eigh_t d.+1) pinvh pinv (X : mdata N d.+1) p r h,
  missing_graphical_lasso eigh pinvh pinv X p = MOk r -> mr_history r = Some h ->
  let close c := exists2 x, mc_difference c = Fin x & `|x| < gl_tol p in
  [/\ forall i c0, (i < size h)%N -> mc_iteration (nth c0 h i) = i,
      forall i c0, (i.+1 < size h)%N -> ~ close (nth c0 h i),
      mr_warned r <-> (forall i c0, (i < size h)%N -> ~ close (nth c0 h i)) &
      mr_warned r -> size h = gl_max_iter p].
Proof.
move=> N d eigh pinvh pinv X p r h hr hh close; have [e [it [hl hi er]]] := ms_call hr.
have [h' [e1 e2 [e3 e4 e5] e6 [e7 e8]]] := ms_loop_count hl.
have eh : h = h' by move: hh; rewrite er /= e1; case: ifP => // _ [].
have cl c : reflect (close c) (small_diff p c).
  rewrite /small_diff /close; case: (mc_difference c) => [x| | |] /=; try (by constructor; case).
  by apply: (iffP idP) => [hx|[y [<-]]] //; exists x.
have ew : mr_warned r = le_else e by rewrite er.
rewrite eh ew; split.
- by move=> i c0 hs; rewrite -(nth_map c0 0%N) // e6 nth_iota.
- by move=> i c0 hs /cl; apply/negP; exact: e8.
- rewrite e7; split=> [hn i c0 hs /cl hc|hn]; first by apply: (negP hn); apply/(has_nthP c0); exists i.
  by apply/negP => /(has_nthP (MCheck 0 NaN)) [i hs /cl]; exact: hn.
- exact: e5.
Qed.
Print Assumptions C136_stops.
