(** Graphical lasso: wrappers for the solver call, witnesses, relabelling. *)
From Coq Require Import Reals Lra Psatz.
From mathcomp Require Import all_ssreflect all_algebra all_fingroup.
From Verif Require Import RStruct RTac LinTac Spectral S_Mat RMx ADMM NP M_Prox S_Prox P_Eigh.
From Verif Require Import P_Prox P_Prox2 P_Rules M_Loop P_Loop M_GL S_GL P_GL.
Import Order.TTheory GRing.Theory Num.Theory.

Set Implicit Arguments.
Unset Strict Implicit.
Unset Printing Implicit Defensive.
Local Open Scope ring_scope.

Section Call.
Variables (n : nat) (eigh : eigh_t n) (pinvh : 'M[R]_n -> 'M[R]_n) (S : 'M[R]_n) (p : gl_params)
  (init : init_mode n).
Local Notation e0 := (gl_loop eigh S p (gl_init pinvh S p init)).

Lemma gl_call r : graphical_lasso eigh pinvh S p init = Ok r ->
  [/\ gl_precision r = gl_Z (le_state e0), gl_covariance r = S,
      gl_history r = (if gl_return_history p then Some (le_checks e0) else None),
      gl_n_iter r = (if gl_return_n_iter p then le_iter e0 else None) &
      gl_warned r = le_else e0].
Proof.
rewrite /graphical_lasso; case: (gl_return_n_iter p); last by case=> <-.
by case: (le_iter _) => // it [<-].
Qed.

Lemma gl_call_ok : (0 < gl_max_iter p)%N -> exists r, graphical_lasso eigh pinvh S p init = Ok r.
Proof.
move=> m0; rewrite /graphical_lasso.
case: (gl_return_n_iter p); last by eexists.
have [_ h2 h3 _] := py_for_count (gl_body eigh S p) (gl_max_iter p) (gl_init pinvh S p init).
rewrite -/(gl_loop _ _ _ _) in h2 h3; rewrite h3; move: (h2 m0).
by case: (size _) => // k _; eexists.
Qed.

(** C17: one history entry per iteration; the count reported is one less *)
Lemma gl_count r : gl_return_n_iter p -> gl_return_history p ->
  graphical_lasso eigh pinvh S p init = Ok r ->
  exists h k, [/\ gl_history r = Some h, gl_n_iter r = Some k, size h = k.+1,
    (size h <= gl_max_iter p)%N & gl_warned r -> size h = gl_max_iter p].
Proof.
move=> rn rh h; have [_ _ h1 h2 h3] := gl_call h; rewrite rn rh in h1 h2.
have [c1 c2 c3 c4] := py_for_count (gl_body eigh S p) (gl_max_iter p) (gl_init pinvh S p init).
rewrite -/(gl_loop _ _ _ _) in c1 c2 c3 c4.
exists (le_checks e0); rewrite h1 h2 h3 c3.
move: h; rewrite /graphical_lasso rn c3; case E: (size _) => [|k] // _.
by exists k; split=> //; rewrite E in c1 c4 *.
Qed.

(** C18 *)
Lemma gl_zero_iter : gl_max_iter p = 0%N ->
  (gl_return_n_iter p -> graphical_lasso eigh pinvh S p init = UnboundLocalError _) /\
  (~~ gl_return_n_iter p -> exists r, graphical_lasso eigh pinvh S p init = Ok r /\
     gl_precision r = init_precision pinvh S init /\ gl_warned r = true).
Proof.
move=> m0; rewrite /graphical_lasso /gl_loop m0 /=; case: (gl_return_n_iter p); split=> // _.
by eexists; split; first reflexivity.
Qed.
End Call.

(** * one dimensional instances *)
Lemma scalar_mxD n (x y : R) : (x + y)%:M = x%:M + y%:M :> 'M[R]_n.
Proof. exact: raddfD. Qed.
Lemma scalar_mxB n (x y : R) : (x - y)%:M = x%:M - y%:M :> 'M[R]_n.
Proof. exact: raddfB. Qed.
Lemma pd_scalar1 (x : R) : 0 < x -> pd (x%:M : 'M[R]_1).
Proof. by move=> x0; rewrite -scalemx1; apply: pdZ => //; apply: pd1. Qed.
Lemma scalar1_inv (x : R) : 0 < x -> invmx (x%:M : 'M[R]_1) = (x^-1)%:M.
Proof. by move=> x0; rewrite invmx_scalar. Qed.
Lemma l1od1 (X : 'M[R]_1) : l1od X = 0.
Proof. by rewrite l1odE !big_ord1 eqxx. Qed.
Lemma sod1 (X : 'M[R]_1) l : soft_thresholding_off_diagonal X l = X.
Proof. by apply/matrixP => i j; rewrite sodE !ord1 eqxx. Qed.
Lemma fnorm1 (x : R) : 0 <= x -> fnorm (x%:M : 'M[R]_1) = x.
Proof.
move=> x0; rewrite /fnorm /fnorm2 !big_ord1 mxE eqxx mulr1n RsqrE sqrt_square //.
exact/RleP.
Qed.
Lemma gl_obj1 s alpha x : gl_obj (s%:M : 'M[R]_1) alpha x%:M = s * x - ln x.
Proof.
by rewrite /gl_obj /gl_obj2 l1od1 mulr0 addr0 -scalar_mxM mxtrace_scalar det_scalar1 mulr1n.
Qed.

Lemma gl_opt1 s alpha : 0 < s -> gl_optimum (s%:M : 'M[R]_1) alpha (s^-1)%:M.
Proof.
move=> s0; split; first by apply: pd_scalar1; rewrite invr_gt0.
move=> Y pY; have y0 := pd_diag_gt0 0 pY; rewrite (mx11_scalar Y) !gl_obj1.
move: (Y 0 0) y0 => y y0; rewrite mulfV ?lt0r_neq0 //.
have sy : 0 < s * y by apply: mulr_gt0.
have := ln_le_sub1 sy; rewrite RmulE ln_mult; try exact/RltP.
have -> : ln s^-1 = - ln s by rewrite RinvE' ln_Rinv //; exact/RltP.
by rewrite RplusE; move: (ln s) (ln y) (s * y) => a b c h; mclra.
Qed.

Lemma gl_upd1 eigh (s alpha rho z k : R) : @eigh_ok 1 eigh -> 0 < rho -> 0 < k ->
  k^-1 = s - rho * z + rho * k -> forall om,
  gl_updates eigh s%:M alpha om rho z%:M 0 =
   (k%:M, (om * k - (1 - om) * z)%:M, 0).
Proof.
move=> He r0 k0 e om; rewrite /gl_updates sod1 addr0 subrr addr0.
have -> : gl_A (z%:M : 'M[R]_1) 0 = z%:M.
  by rewrite /gl_A subr0 tr_scalar_mx -scalar_mxD scale_scalar_mx; congr _%:M; mcfield.
have -> : prox_logdet eigh (s%:M - rho *: z%:M) (1 / rho) = k%:M.
  rewrite div1r; apply: (prox_logdet_char He).
  - by apply: symB; rewrite ?scale_scalar_mx; exact: tr_scalar_mx.
  - by rewrite invr_gt0.
  - exact: pd_scalar1.
  rewrite scalar1_inv // invrK !scale_scalar_mx -scalar_mxB -scalar_mxD.
  by congr _%:M.
by rewrite !scale_scalar_mx -scalar_mxB.
Qed.

(** C16: explicit stationary point *)
Lemma gl_relax_witness (eigh : eigh_t 1) alpha om rho : eigh_ok eigh -> 0 < rho -> 1 < om -> om < 2%:R ->
  exists S Z : 'M[R]_1, pd S /\ gl_updates eigh S alpha om rho Z 0 = (1%:M, Z, 0).
Proof.
move=> He r0 o1 o2; have on : 2%:R - om != 0 :> R by rewrite subr_eq0 eq_sym lt_eqF.
have c1 : 1 < om / (2%:R - om).
  by rewrite ltr_pdivl_mulr; mclra.
exists (1 + rho * (om / (2%:R - om) - 1))%:M, (om / (2%:R - om))%:M.
split.
  apply: pd_scalar1; apply: ltr_paddr; last exact: ltr01.
  by apply: mulr_ge0; [apply: ltW | rewrite subr_ge0; apply: ltW].
rewrite (@gl_upd1 _ _ _ _ _ 1 He r0 ltr01); last first.
  by rewrite invr1; move: (om / _) => c; mcring.
by congr (_, _%:M, _); mcfield.
Qed.

(** C15: at the first iteration, stopping says nothing about optimality *)
Lemma ln2_le1 : ln (2%:R : R) <= 1.
Proof. by have := @ln_le_sub1 2%:R (ltr0n _ 2); move=> h; mclra. Qed.

Local Opaque gl_updates.
Lemma gl_first_stop (eigh : eigh_t 1) pinvh p M : eigh_ok eigh ->
  0 < gl_rho0 p -> gl_over_relax p = 1 -> 0 < gl_tol p -> 0 <= gl_rtol p ->
  (0 < gl_max_iter p)%N -> 0 <= M ->
  exists S Z0 Ko : 'M[R]_1, [/\ pd S, pd Z0, gl_optimum S (gl_alpha p) Ko &
    exists r, [/\ graphical_lasso eigh pinvh S p (InitArray Z0) = Ok r, gl_warned r = false,
      pd (gl_precision r) &
      gl_obj S (gl_alpha p) Ko + M <= gl_obj S (gl_alpha p) (gl_precision r)]].
Proof.
move=> He r0 om1 t0 rt0 m0 M0.
pose rho := gl_rho0 p; pose k := gl_tol p / rho; pose x : R := 2%:R * M + 2%:R.
have rn : rho != 0 by apply: lt0r_neq0.
have k0 : 0 < k by apply: divr_gt0.
have kn : k != 0 by apply: lt0r_neq0.
have x1 : 2%:R <= x by rewrite /x; mclra.
have x0 : 0 < x by mclra.
pose z := (x - 1) / (rho * k) + k; pose s := x / k.
have s0 : 0 < s by apply: divr_gt0.
have z0 : 0 < z.
  apply: addr_gt0 => //; apply: divr_gt0; last exact: mulr_gt0.
  by mclra.
exists s%:M, z%:M, (s^-1)%:M; split; [exact: pd_scalar1 | exact: pd_scalar1 | exact: gl_opt1 |].
have [r hr] := gl_call_ok eigh pinvh s%:M (InitArray z%:M) m0.
exists r; have [-> _ _ _ ->] := gl_call hr.
have ek : k^-1 = s - rho * z + rho * k.
  rewrite /s /z; move: kn rn; move: (k) (rho) => k' rho' kn' rn'.
  by mcfield.
have hb : gl_body eigh s%:M p 0 (gl_init pinvh s%:M p (InitArray z%:M)) =
    (Break (GLState k%:M 0 k%:M rho k%:M), (gl_body eigh s%:M p 0 (gl_init pinvh s%:M p (InitArray z%:M))).2).
  rewrite /gl_body /= -/rho (@gl_upd1 _ s (gl_alpha p) rho z k He r0 k0 ek) om1.
  rewrite subrr mul0r subr0 mul1r.
  set c := {| c_obj := _ |}.
  have -> : stop_test c = true; last by [].
  have sq : sqrt (1 * 1)%:R = 1 :> R by rewrite muln1 sqrt_1.
  rewrite /c /stop_test /= sq !np_normE subrr subr0 fnorm1; last exact: ltW.
  have f0 : fnorm (0 : 'M[R]_1) = 0 by rewrite /fnorm fnorm2_0 sqrt_0.
  rewrite !f0 mulr0 addr0 mul1r; apply/andP; split.
    apply: addr_ge0; first exact: ltW.
    apply: mulr_ge0 => //; apply: le_trans (proj1 (np_max_ge _ _)).
    by apply: ltW.
  by rewrite /k mulrCA mulfV // mulr1.
have hl : gl_loop eigh s%:M p (gl_init pinvh s%:M p (InitArray z%:M)) =
   LoopEnd (GLState k%:M 0 k%:M rho k%:M)
     [:: (gl_body eigh s%:M p 0 (gl_init pinvh s%:M p (InitArray z%:M))).2] (Some 0%N) false.
  by rewrite /gl_loop; case: (gl_max_iter p) m0 => // m _ /=; rewrite {1}hb.
rewrite hl /=; split=> //; first exact: pd_scalar1.
rewrite !gl_obj1 mulfV ?lt0r_neq0 //.
have -> : ln s^-1 = ln k - ln x.
  rewrite /s invf_div RmulE ln_mult; try exact/RltP; last by apply/RltP; rewrite invr_gt0.
  by rewrite RinvE' ln_Rinv //; exact/RltP.
have -> : s * k = x by rewrite /s divfK.
have hx : ln x <= x / 2%:R.
  have x2 : 0 < x / 2%:R by mclra.
  have := ln_le_sub1 x2; have l2 := ln2_le1.
  have -> : ln (x / 2%:R) = ln x - ln 2%:R.
    rewrite RmulE ln_mult; try exact/RltP; last by apply/RltP; rewrite invr_gt0 ltr0n.
    by rewrite RinvE' ln_Rinv //; apply/RltP; rewrite ltr0n.
  by move: (ln x) (ln 2%:R) l2 => a b l2 h; mclra.
by move: hx; rewrite /x; move: (ln _) (ln _) => a b hx; mclra.
Qed.

Local Transparent gl_updates.

(** * a diagonal optimum *)
Lemma gl_optimum_diag n (S : 'M[R]_n) alpha : sym S -> (forall i, 0 < S i i) ->
  (forall i j, i != j -> `|S i j| <= alpha) ->
  gl_optimum S alpha (diag_mx (\row_i (S i i)^-1)).
Proof.
move=> sS dS oS; set K := diag_mx _.
have pK : pd K by apply: pd_diag => i; rewrite mxE invr_gt0.
have iK : invmx K = diag_mx (\row_i S i i).
  have e : K *m diag_mx (\row_i S i i) = 1%:M.
    apply/matrixP => i j; rewrite mul_diag_mx !mxE; case: eqP => [->|_].
      by rewrite mulr1n mulVf // lt0r_neq0.
    by rewrite mulr0n mulr0.
  by rewrite -[LHS]mulmx1 -e mulmxA mulVmx ?mul1mx //; apply: pd_unit.
have lK : l1od K = 0.
  by apply: big1 => i _; apply: big1 => j ji; rewrite mxE eq_sym (negbTE ji) mulr0n normr0.
split=> // Y pY; have h := gl_f_subg sS pK pY.
rewrite /gl_f /logdet iK in h.
have h2 : fdot (diag_mx (\row_i S i i) - S) (Y - K) <= alpha * l1od Y.
  rewrite l1odE mulr_sumr; apply: ler_sum => i _; rewrite mulr_sumr; apply: ler_sum => j _.
  rewrite !mxE; case: eqP => [->|/eqP ne]; first by rewrite mulr1n subrr mul0r mulr0.
  rewrite mulr0n sub0r subr0; apply: le_trans (ler_norm _) _.
  by rewrite normrM normrN; apply: ler_wpmul2r => //; apply: oS.
rewrite -(opprB (diag_mx _) S) fdotNl in h.
rewrite /gl_obj /gl_obj2 lK mulr0 addr0.
by move: h h2; move: (\tr _) (\tr _) (ln _) (ln _) (fdot _ _) (alpha * _) => a b c d e f h h2; mclra.
Qed.

(** * relabelling *)
Section Relabel.
Variables (n : nat) (s : {perm 'I_n}).
Local Notation rl := (relabel s).
Implicit Types X Y : 'M[R]_n.

Lemma rl_conj X : rl X = perm_mx s *m X *m (perm_mx s)^T.
Proof.
by apply/matrixP => i j; rewrite tr_perm_mx -row_permE -col_permE !mxE.
Qed.
Lemma rl_orth : perm_mx s *m (perm_mx s)^T = 1%:M :> 'M[R]_n.
Proof. by rewrite tr_perm_mx -perm_mxM mulgV perm_mx1. Qed.
Lemma rl_lin c X Y : rl (c *: X + Y) = c *: rl X + rl Y.
Proof. by apply/matrixP => i j; rewrite !mxE. Qed.
Lemma rlD X Y : rl (X + Y) = rl X + rl Y.
Proof. by apply/matrixP => i j; rewrite !mxE. Qed.
Lemma rlB X Y : rl (X - Y) = rl X - rl Y.
Proof. by apply/matrixP => i j; rewrite !mxE. Qed.
Lemma rlZ c X : rl (c *: X) = c *: rl X.
Proof. by apply/matrixP => i j; rewrite !mxE. Qed.
Lemma rlT X : rl X^T = (rl X)^T.
Proof. by apply/matrixP => i j; rewrite !mxE. Qed.
Lemma rl0 : rl 0 = 0.
Proof. by apply/matrixP => i j; rewrite !mxE. Qed.
Lemma rl_sym X : sym X -> sym (rl X).
Proof. by move=> h; rewrite /sym -rlT h. Qed.
Lemma rl_pd X : pd X -> pd (rl X).
Proof. by move=> h; rewrite rl_conj; apply: pd_conj => //; apply: unitmx_perm. Qed.
Lemma rl_inv X : X \in unitmx -> invmx (rl X) = rl (invmx X).
Proof.
move=> u; have e : rl (invmx X) *m rl X = 1%:M.
  rewrite !rl_conj !mulmxA -(mulmxA _ (perm_mx s)^T) (orthogonalT rl_orth) mulmx1.
  by rewrite -(mulmxA _ (invmx X)) mulVmx // mulmx1 rl_orth.
have u' : rl X \in unitmx by case/mulmx1_unit: e.
by rewrite -[LHS]mul1mx -e -mulmxA mulmxV // mulmx1.
Qed.
Lemma rl_det X : \det (rl X) = \det X.
Proof.
have h : \det (perm_mx s) * \det (perm_mx s)^T = 1 :> R by rewrite -det_mulmx rl_orth det1.
by rewrite rl_conj !det_mulmx mulrAC h mul1r.
Qed.
Lemma rl_sum (F : 'I_n -> 'I_n -> R) : \sum_i \sum_j F (s i) (s j) = \sum_i \sum_j F i j.
Proof.
rewrite [RHS](reindex_inj (@perm_inj _ s)); apply: eq_bigr => i _.
by rewrite [RHS](reindex_inj (@perm_inj _ s)).
Qed.
Lemma rl_fdot X Y : np_sum_mul (rl X) (rl Y) = np_sum_mul X Y.
Proof.
rewrite -[RHS]rl_sum; apply: eq_bigr => i _; apply: eq_bigr => j _; by rewrite !mxE.
Qed.
Lemma rl_norm X : np_norm (rl X) = np_norm X.
Proof. by congr sqrt; exact: rl_fdot. Qed.
Lemma rl_l1od X : l1_od_norm (rl X) = l1_od_norm X.
Proof.
rewrite /l1_od_norm /matrix_l1_norm; congr (_ - _).
  by rewrite -[RHS]rl_sum; apply: eq_bigr => i _; apply: eq_bigr => j _; rewrite mxE.
by rewrite [RHS](reindex_inj (@perm_inj _ s)); apply: eq_bigr => i _; rewrite mxE.
Qed.
Lemma rl_sod X l : soft_thresholding_off_diagonal (rl X) l = rl (soft_thresholding_off_diagonal X l).
Proof.
by apply/matrixP => i j; rewrite sodE !mxE (inj_eq (@perm_inj _ s)).
Qed.

Variables (eigh eigh' : eigh_t n).
Hypothesis He : eigh_ok eigh.
Hypothesis He' : eigh_ok eigh'.

Lemma rl_logdet A lam : sym A -> 0 < lam -> prox_logdet eigh' (rl A) lam = rl (prox_logdet eigh A lam).
Proof.
move=> sA l0; have [pX eX] := prox_logdet_spec He sA l0.
apply: (prox_logdet_char He') => //; [exact: rl_sym | exact: rl_pd |].
rewrite rl_inv; last exact: pd_unit.
by rewrite eX addrC rl_lin addrC.
Qed.

Variable S : 'M[R]_n.
Hypothesis sS : sym S.
Lemma rl_updates alpha om rho Z U : 0 < rho ->
  let r := gl_updates eigh S alpha om rho Z U in
  gl_updates eigh' (rl S) alpha om rho (rl Z) (rl U) = (rl r.1.1, rl r.1.2, rl r.2).
Proof.
move=> r0 /=; rewrite /gl_updates.
have eA : gl_A (rl Z) (rl U) = rl (gl_A Z U).
  by rewrite /gl_A rlZ rlD rlT rlB.
rewrite eA -rlZ -rlB rl_logdet; last 2 first.
- exact: gl_sSA.
- by rewrite div1r invr_gt0.
by rewrite -!rlZ -rlB -rlD rl_sod -rlB -rlD.
Qed.

Definition rl_state (a b : gl_state n) : Prop :=
  [/\ gl_Z b = rl (gl_Z a), gl_U b = rl (gl_U a), gl_Zold b = rl (gl_Zold a),
      gl_rho b = gl_rho a & gl_K b = rl (gl_K a) /\ 0 < gl_rho a].

Variable p : gl_params.
Hypothesis ti : 0 < tau_inc (gl_rho_options p).
Hypothesis td : 0 < tau_dec (gl_rho_options p).

Lemma rl_body j a b : rl_state a b ->
  [/\ (gl_body eigh S p j a).2 = (gl_body eigh' (rl S) p j b).2,
      is_break (gl_body eigh S p j a).1 = is_break (gl_body eigh' (rl S) p j b).1 &
      rl_state (out_state (gl_body eigh S p j a).1) (out_state (gl_body eigh' (rl S) p j b).1)].
Proof.
move=> [eZ eU eO er [eK r0]].
rewrite /gl_body eZ eU eO er rl_updates //.
case: (gl_updates _ _ _ _ _ _ _) => [[K Z] U].
have eo : gl_objective (rl S) (rl K) (rl Z) (gl_alpha p) = gl_objective S K Z (gl_alpha p).
  by rewrite /gl_objective /logl /fast_logdet rl_det rl_fdot -rlZ rl_l1od.
rewrite /= eo -!rlB !rl_norm.
set c := {| c_obj := _ |}.
case: (stop_test c); first by split.
split=> //; split=> //=; first by rewrite rlZ.
by split=> //; apply: rho_pos.
Qed.

Lemma rl_loop a b : rl_state a b ->
  let e := gl_loop eigh S p a in let e' := gl_loop eigh' (rl S) p b in
  [/\ rl_state (le_state e) (le_state e'), le_checks e = le_checks e', le_iter e = le_iter e' &
      le_else e = le_else e'].
Proof. by move=> h; apply: py_for_sim => // j x y; apply: rl_body. Qed.

Lemma rl_call pinvh pinvh' init init' : 0 < gl_rho0 p ->
  init_precision pinvh' (rl S) init' = rl (init_precision pinvh S init) ->
  match graphical_lasso eigh pinvh S p init, graphical_lasso eigh' pinvh' (rl S) p init' with
  | Ok r, Ok r' => [/\ gl_precision r' = rl (gl_precision r), gl_covariance r' = rl (gl_covariance r),
      gl_history r' = gl_history r, gl_n_iter r' = gl_n_iter r & gl_warned r' = gl_warned r]
  | UnboundLocalError, UnboundLocalError => True
  | _, _ => False
  end.
Proof.
move=> r0 ei.
have h : rl_state (gl_init pinvh S p init) (gl_init pinvh' (rl S) p init').
  by split=> //=; rewrite ?rl0.
have [h1 h2 h3 h4] := rl_loop h; rewrite /graphical_lasso -h2 -h3 -h4.
case: h1 => eZ _ _ _ _.
case: (gl_return_n_iter p); last by split.
by case: (le_iter _) => // it; split.
Qed.
End Relabel.

(** * the call *)
Section Top.
Variables (n : nat) (eigh : eigh_t n) (pinvh : 'M[R]_n -> 'M[R]_n) (S : 'M[R]_n) (p : gl_params)
  (init : init_mode n) (r : gl_result n).
Hypothesis He : eigh_ok eigh.
Hypothesis sS : sym S.
Hypothesis r0 : 0 < gl_rho0 p.
Hypothesis ti : 0 < tau_inc (gl_rho_options p).
Hypothesis td : 0 < tau_dec (gl_rho_options p).
Hypothesis hr : graphical_lasso eigh pinvh S p init = Ok r.

Lemma gl_top_sym : (0 < gl_max_iter p)%N ->
  gl_over_relax p = 1 \/ sym (init_precision pinvh S init) -> sym (gl_precision r).
Proof.
move=> m0 h; have [-> _ _ _ _] := gl_call hr.
by case: (gl_loop_sym He sS ti td (st := gl_init pinvh S p init) r0 (@sym0 n) h m0).
Qed.
Lemma gl_top_diag i : (0 < gl_max_iter p)%N -> gl_over_relax p = 1 -> 0 < gl_precision r i i.
Proof.
move=> m0 h; have [-> _ _ _ _] := gl_call hr.
by apply: gl_loop_diag => // k; rewrite mxE.
Qed.
Lemma gl_top_K : (0 < gl_max_iter p)%N ->
  gl_over_relax p = 1 \/ sym (init_precision pinvh S init) ->
  pd (gl_K (le_state (gl_loop eigh S p (gl_init pinvh S p init)))).
Proof.
move=> m0 h.
by case: (gl_loop_sym He sS ti td (st := gl_init pinvh S p init) r0 (@sym0 n) h m0).
Qed.

Lemma gl_top_nowarn Ko N : gl_over_relax p = 1 -> tau_inc (gl_rho_options p) = 1 ->
  tau_dec (gl_rho_options p) = 1 -> 0 <= gl_alpha p -> 0 <= gl_rtol p -> 0 < n%:R * gl_tol p ->
  gl_optimum S (gl_alpha p) Ko ->
  let d := fnorm2 (init_precision pinvh S init - Ko) + fnorm2 (invmx Ko - S) / gl_rho0 p ^+ 2 in
  d <= (n%:R * gl_tol p) ^+ 2 * N%:R -> gl_rho0 p ^+ 2 * d <= (n%:R * gl_tol p) ^+ 2 * N%:R ->
  (0 < N)%N -> (N < gl_max_iter p)%N -> gl_warned r = false.
Proof.
move=> om ti1 td1 a0 rt0 nt0 mK d h1 h2 N0 Nm; have [_ _ _ _ ->] := gl_call hr.
apply/negbTE; apply: (gl_nowarn He sS om ti1 td1 a0 (st := gl_init pinvh S p init) r0 mK rt0 nt0 N0 Nm);
  rewrite /= sub0r fnorm2N fnorm2Z exprVn addrC [_^-1 * _]mulrC //.
Qed.
End Top.

Lemma archi (x c : R) : 0 < c -> exists N, (0 < N)%N /\ x <= c * N%:R.
Proof.
move=> c0; have [m hm] := pow2_large (x / c); exists (2 ^ m)%N; split; first by rewrite expn_gt0.
by rewrite natrX mulrC -ler_pdivr_mulr.
Qed.

Lemma gl_terminates n (eigh : eigh_t n) pinvh S p init : eigh_ok eigh -> sym S -> 0 < gl_rho0 p ->
  gl_over_relax p = 1 -> tau_inc (gl_rho_options p) = 1 ->
  tau_dec (gl_rho_options p) = 1 -> 0 <= gl_alpha p -> 0 <= gl_rtol p -> 0 < n%:R * gl_tol p ->
  (exists Ko, gl_optimum S (gl_alpha p) Ko) ->
  exists N, forall m, (N < m)%N -> forall r,
    graphical_lasso eigh pinvh S
      (GLParams (gl_alpha p) (gl_rho0 p) (gl_over_relax p) m (gl_tol p) (gl_rtol p)
        (gl_return_history p) (gl_return_n_iter p) (gl_rho_options p) (gl_compute_objective p)) init
      = Ok r -> gl_warned r = false.
Proof.
move=> He sS r0 om ti1 td1 a0 rt0 nt0 [Ko mK].
pose d := fnorm2 (init_precision pinvh S init - Ko) + fnorm2 (invmx Ko - S) / gl_rho0 p ^+ 2.
have e2 : 0 < (n%:R * gl_tol p) ^+ 2 by apply: exprn_gt0.
have [N1 [N10 h1]] := archi d e2; have [N2 [N20 h2]] := archi (gl_rho0 p ^+ 2 * d) e2.
exists (maxn N1 N2) => m hm r hr.
apply: (gl_top_nowarn (N := maxn N1 N2) He sS _ hr _ _ _ _ _ _ mK) => //=.
- by apply: le_trans h1 _; apply: ler_wpmul2l; rewrite ?ler_nat ?leq_maxl // ltW.
- by apply: le_trans h2 _; apply: ler_wpmul2l; rewrite ?ler_nat ?leq_maxr // ltW.
- by rewrite leq_max N10.
Qed.
