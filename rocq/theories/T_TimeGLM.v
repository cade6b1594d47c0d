(** Property theorem C82: the temporal Ising model. *)
From Coq Require Import Reals Lra.
From mathcomp Require Import all_ssreflect all_algebra.
From Verif Require Import RStruct RTac LinTac S_Mat NP M_Prox M_Loop M_LGL M_TGL M_KTGL M_Stab M_GLM S_GLM M_TimeGLM.
From Verif Require Import Calc RMx P_Prox P_Rules P_GLM P_GLM2 P_GLM5 P_TimeGLM.
Import Order.TTheory GRing.Theory Num.Theory.

Set Implicit Arguments.
Unset Strict Implicit.
Unset Printing Implicit Defensive.
Local Open Scope ring_scope.

(** one variable pair, one time, one sample (1, 1) *)
Definition exT : 'I_1 -> 'M[R]_(1, 2) := fun=> const_mx 1.
Definition exTp (k : nat) : time_glm_params 1 :=
  TimeGLMParams (2%:R^-1) 1 None k 1 0 0 true true true None 0 (RhoOptions 10%:R 2%:R 2%:R).
Definition prox_id (M : 'M[R]_2) (_ : R) := M.

(** * every returned matrix is symmetric with zero diagonal *)
Theorem C82_interactions : forall n T m (X : 'I_T -> 'M[R]_(m.+1, n)) psi (prox_psi : 'M[R]_n -> R -> 'M[R]_n) (p : time_glm_params T) res,
  (forall (M : 'M[R]_n) l, (forall i, M i i = 0) -> forall i, prox_psi M l i i = 0) ->
  fit_time_ising_model X psi prox_psi p = Some (Ok res) -> forall t, interactions (tgr_K res t).
Proof. by move=> n T m X psi prox_psi p res hp h t; apply: (time_ising_interactions hp h). Qed.
Print Assumptions C82_interactions.
(** the proximal operators of the accepted penalties keep a zero diagonal *)
Example C82_interactions_case : forall n (M : 'M[R]_n) l, 0 <= l -> (forall i, M i i = 0) -> forall i,
  soft_thresholding M l i i = 0 /\ prox_laplacian M l i i = 0.
Proof.
move=> n M l l0 h i; rewrite !mxE h; split; last by rewrite mulr0.
by have := soft1_nonexp 0 l0; rewrite normr0 normr_le0 => /eqP.
Qed.

(** * only the first sample of each time matters *)
Theorem C82_first_sample_only : forall n T m (X X' : 'I_T -> 'M[R]_(m.+1, n)) psi (prox_psi : 'M[R]_n -> R -> 'M[R]_n) (p : time_glm_params T),
  (forall t, row 0 (X t) = row 0 (X' t)) -> tg_stop_at p = None ->
  forall res, fit_time_ising_model X psi prox_psi p = Some (Ok res) ->
  exists res', [/\ fit_time_ising_model X' psi prox_psi p = Some (Ok res'), tgr_K res' = tgr_K res &
                   tgr_n_iter res' = tgr_n_iter res].
Proof.
move=> n T m X X' psi prox_psi p hX hs res h.
have := time_ising_first psi prox_psi hX hs; rewrite h.
case e : (fit_time_ising_model X' psi prox_psi p) => [[res'|]|] //= [e1 e2]; by exists res'.
Qed.
Print Assumptions C82_first_sample_only.

(** * the recorded objective *)
(** the value documented for the default kernel: minus the log-likelihoods plus the l1 norms *)
Definition time_ising_cost n T m (X : 'I_T -> 'M[R]_(m, n)) (alpha : R) (K : 'I_T -> 'M[R]_n) : R :=
  \sum_t (ising_nll (X t) (K t) + alpha * l1od (K t)).
Theorem C82_objective_sign : forall n T m (X : 'I_T -> 'M[R]_(m.+1, n)) psi (prox_psi : 'M[R]_n -> R -> 'M[R]_n) (p : time_glm_params T) res h,
  (forall (M : 'M[R]_n) l, (forall i, M i i = 0) -> forall i, prox_psi M l i i = 0) ->
  tg_kernel p = None -> tg_compute_objective p ->
  fit_time_ising_model X psi prox_psi p = Some (Ok res) -> tgr_history res = Some h ->
  c_obj (last (Convergence NaN 0 0 0 0) h) =
    Fin (time_ising_cost X (tg_alpha p) (tgr_K res) - 2%:R * \sum_t ising_nll (X t) (tgr_K res t)).
Proof.
move=> n T m X psi prox_psi p res h hp hk ho hr hh; rewrite (last_objective hp hk ho hr hh); congr Fin.
rewrite /rec_obj /time_ising_cost big_split /= -mulr_sumr.
move: (\sum_i ising_nll _ _ : R) (\sum_t l1od _ : R) (tg_alpha p : R) => a b c; by mcring.
Qed.
Print Assumptions C82_objective_sign.

Lemma exT_step0 k : exists2 th, sym th /\ th 0 1 = 2%:R^-1 &
  ising_step (exT 0) (ising_estimator_params 2 (2%:R^-1) 0 1 k) 1 0 = th /\
  ising_step (exT 0) (time_ising_inner (exTp k) 1 0) 1 0 = th.
Proof.
have gz r c : g0 (exT 0) 0 r c = if c != r then - 1 else 0.
  rewrite mxE; case: ifP => // _.
  have -> : ising_XT (exT 0) 0 0 r = 0 by apply: big1 => k' _; rewrite [(0 : 'M[R]_2) _ _]mxE mulr0.
  by rewrite th0 sub0r !mxE invr1 !mul1r.
eexists; last first.
  split; first reflexivity.
  rewrite /ising_step [ig_A _]/= [ig_A _]/= grad_noneE gradE /addA subr0 scaler0 addr0; reflexivity.
split; first exact: step_sym.
rewrite /ising_step [ig_A _]/= [ig_alpha _]/= grad_noneE sodE /=.
have -> : symmetrise (0 - 1 *: g0 (exT 0) 0) 0 1 = 1.
  rewrite mxE mxE [(_ : 'M__)^T _ _]mxE !subZE [(0 : 'M[R]_2) _ _]mxE [(0 : 'M[R]_2) _ _]mxE !sub0r !gz /=.
  by mcfield.
rewrite mulr1.
have q0 : (0 : R) <= 2%:R^-1 by rewrite invr_ge0 ler0n.
have [[_ ->]|[h _]|[/andP[_ h] _]] := soft1_cases 1 q0.
- by mcfield.
- by move: h; rewrite lt_gtF //; mclra.
- by move: h; rewrite leNgt; have -> : ((2%:R^-1 : R) < 1) by mclra.
Qed.
Lemma exT_static_step k K : sym K -> K 0 1 = 2%:R^-1 ->
  ising_step (exT 0) (ising_estimator_params 2 (2%:R^-1) 0 1 k) 1 K 0 1 != 0.
Proof.
move=> hs h01; have h10 : K 1 0 = 2%:R^-1 by rewrite -h01 -{1}hs mxE.
have x0 r : ising_XT (exT 0) K 0 r = 2%:R^-1.
  rewrite /ising_XT big_mkcond big_ord_recl big_ord1 /=.
  have -> : lift ord0 ord0 = 1 :> 'I_2 by apply: val_inj.
  rewrite !mxE; case: (r =P 0) => [->|/eqP r0] /=; first by rewrite h10 add0r mul1r.
  have -> : r = 1 by apply: val_inj; case: r r0 => -[|[|]].
  by rewrite h01 addr0 mul1r.
have gz r c : c != r -> g0 (exT 0) K r c = th (2%:R^-1) - 1.
  by move=> h; rewrite mxE h x0 !mxE invr1 !mul1r.
rewrite /ising_step [ig_A _]/= [ig_alpha _]/= grad_noneE sodE /=.
have -> : symmetrise (K - 1 *: g0 (exT 0) K) 0 1 = 1 + 2%:R^-1 - th (2%:R^-1).
  rewrite mxE mxE [(_ : 'M__)^T _ _]mxE !subZE !gz // h01 h10; move: (th _ : R) => a; by mcfield.
rewrite mulr1; have q0 : (0 : R) <= 2%:R^-1 by rewrite invr_ge0 ler0n.
have [_ h1] := th_lt1 (2%:R^-1); move: h1; move: (th _) => a h1.
have h1' : a < 1 :> R by apply/RltP.
have [[_ ->]|[h _]|[/andP[_ h] _]] := soft1_cases (1 + 2%:R^-1 - a) q0.
- by apply/eqP => e; have : 1 - a = 0 :> R; [rewrite -e; mcring | move/eqP; rewrite subr_eq0 eq_sym (lt_eqF h1')].
- by move: h; rewrite lt_gtF //; mclra.
- by move: h; rewrite leNgt; have -> : ((2%:R^-1 : R) < 1 + 2%:R^-1 - a) by mclra.
Qed.

Lemma two_steps n d (X : 'M[R]_(n, d)) p : ig_tol p = 0 -> ig_line_search p = false -> ig_max_iter p = 2%N ->
  ig_return_n_iter p = false ->
  theta_of (ising_fit X p 0 None) = Some (ising_step X p (ig_gamma p) (ising_step X p (ig_gamma p) 0)).
Proof.
move=> ht hl hm hn; rewrite /ising_fit hm /=.
have hb it s : ising_body X p 0 it s = Some (false, (let th := ising_step X p (gs_gamma s) (gs_theta s) in
   GLMState th (gs_gamma s) (rcons (gs_thetas s) th) (rcons (gs_checks s)
     (GLMCheck it (ising_objective X th (ig_alpha p)) (np_norm (gs_theta s - th)) (xdiv (np_norm (gs_theta s - th)) (np_norm th)))))).
  by rewrite /ising_body hl /= ht normr_lt0.
by rewrite !hb /= hn.
Qed.

(** * without coupling the temporal fit should be the fit of each time. Refuted: one time, default
    kernel, same alpha, step, tolerance and number of iterations. *)
Theorem C82_uncoupled_refuted : exists (X : 'I_1 -> 'M[R]_(1, 2)) (p : time_glm_params 1) theta,
  [/\ tg_kernel p = None, 0 < tg_alpha p, 0 < tg_rho0 p,
      ising_estimator_fit (X 0) (tg_alpha p) (tg_tol p) (tg_gamma p) (tg_max_iter p) = Some theta &
      forall psi, exists2 res, fit_time_ising_model X psi prox_id p = Some (Ok res) & tgr_K res 0 <> theta].
Proof.
have [K1 [hs1 h1] [e0 e1]] := exT_step0 2.
pose K2 := ising_step (exT 0) (ising_estimator_params 2 (2%:R^-1) 0 1 2) 1 K1.
pose K3 := ising_step (exT 0) (time_ising_inner (exTp 2) 1 0) 1 K1.
have hne : K3 0 1 != K2 0 1.
  apply: ridge_step => //; rewrite ?ltr01 ?invr_ge0 ?ler0n //.
    by rewrite h1 invr_eq0 pnatr_eq0.
  exact: exT_static_step.
have nlt (x : R) : (`|x| < 0) = false by rewrite normr_lt0.
exists exT, (exTp 2), K2; split=> //.
- by rewrite invr_gt0 ltr0Sn.
- by rewrite ltr01.
- rewrite -[ising_estimator_fit _ _ _ _ _]/(theta_of (ising_fit (exT 0) (ising_estimator_params 2 (2%:R^-1) 0 1 2) 0 None)).
  rewrite (@two_steps _ _ (exT 0) (ising_estimator_params 2 (2%:R^-1) 0 1 2) erefl erefl erefl erefl).
  rewrite [ig_gamma _]/= e0; exact: erefl.
move=> psi.
have hso : time_ising_solve exT (exTp 2) 0 1 0 = Some K3.
  rewrite /time_ising_solve (@two_steps _ _ (exT 0) (time_ising_inner (exTp 2) 1 0) erefl erefl erefl erefl).
  rewrite [ig_gamma _]/= e1; exact: erefl.
have [res h hK] := @time_glm_one 2 (time_ising_solve exT (exTp 2)) (fun t => ising_loss (exT t)) psi prox_id (exTp 2) _ hso
  erefl (lexx (0 : R)) (lexx (0 : R)) ler01.
by exists res; [exact: h | rewrite hK => e; move: hne; rewrite e eqxx].
Qed.
Print Assumptions C82_uncoupled_refuted.

(** the recorded objective is not the documented one *)
Theorem C82_objective_sign_refuted : exists (X : 'I_1 -> 'M[R]_(1, 2)) (p : time_glm_params 1),
  forall psi, exists res h,
  [/\ fit_time_ising_model X psi prox_id p = Some (Ok res), tgr_history res = Some h &
      c_obj (last (Convergence NaN 0 0 0 0) h) <> Fin (time_ising_cost X (tg_alpha p) (tgr_K res))].
Proof.
exists exT, (exTp 1) => psi.
have [K1 [hs1 h1] [e0 e1]] := exT_step0 1.
have nlt (x : R) : (`|x| < 0) = false by rewrite normr_lt0.
have hso : time_ising_solve exT (exTp 1) 0 1 0 = Some K1.
  by rewrite /time_ising_solve /ising_fit /= /ising_body /=; case: ifP => _ /=; rewrite e1.
have [res h hK] := @time_glm_one 2 (time_ising_solve exT (exTp 1)) (fun t => ising_loss (exT t)) psi prox_id (exTp 1) _ hso
  erefl (lexx (0 : R)) (lexx (0 : R)) ler01.
have [h' hh] : exists h', tgr_history res = Some h'.
  move: h; rewrite /time_glm_fit; case: (glm_for _ _ _ _ _) => [[s l]|] //=.
  by case: l => [i|] // [<-]; eexists; reflexivity.
exists res, h'; split=> //.
rewrite (@C82_objective_sign 2 1 0 exT psi prox_id (exTp 1) res h') // => -[] /eqP.
rewrite -subr_eq0 addrAC subrr sub0r oppr_eq0 mulf_eq0 pnatr_eq0 /= big_ord1 hK gt_eqF //.
have pos (a : R) : 0 < ln (exp a + exp (- a)) - 1 * a.
  rewrite mul1r subr_gt0; apply/RltP; rewrite -{1}(ln_exp a); apply: ln_increasing; first exact: exp_pos.
  have h2 := exp_pos (- a); rewrite -[X in Rlt X _]Rplus_0_r; exact: Rplus_lt_compat_l.
rewrite /ising_nll /sample_mean big_ord1 divr1 big_ord_recl big_ord1 addr_gt0 //.
  by rewrite [exT _ _ _]mxE; exact: pos.
by rewrite [exT _ _ _]mxE; exact: pos.
Qed.
Print Assumptions C82_objective_sign_refuted.
