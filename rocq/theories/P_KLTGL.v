(** Kernel latent time graphical lasso. *)
From Coq Require Import Reals Lra Psatz Epsilon.
From mathcomp Require Import all_ssreflect all_algebra.
From Verif Require Import RStruct RTac LinTac Spectral S_Mat RMx ADMM NP M_Prox S_Prox P_Eigh.
From Verif Require Import P_Prox P_Prox2 P_Rules M_Loop P_Loop M_GL S_GL P_GL P_GL2 M_LGL P_LGL.
From Verif Require Import M_TGL S_TGL P_TGL P_TGL2 P_Admm P_TGL3 HB P_TGL4 P_TGL5 M_KTGL P_KTGL P_KTGL2.
From Verif Require Import M_LTGL M_KLTGL S_LTGL P_LatCore P_Lat2 P_LTGL.
Import Order.TTheory GRing.Theory Num.Theory.

Set Implicit Arguments.
Unset Strict Implicit.
Unset Printing Implicit Defensive.
Local Open Scope ring_scope.

Section Bridge.
Variables (n T : nat).
Implicit Types (A K : stack n T) (D X : epair n T).
Local Notation lT := (@t_l T).
Local Notation rT := (@t_r T).

Lemma add_edgesE A D : add_edges A D = A + cadj lT rT D.
Proof. by apply/ffunP => t; rewrite stD !ffunE addrA. Qed.
Lemma cdeg_T t : cdeg lT rT t = T%:R.
Proof. by rewrite /cdeg count_lr. Qed.
Lemma kpen_couple (psi : 'M[R]_n -> R) (w : 'M[R]_T) K :
  edge_pen psi (fun e => w (t_l e) (t_r e)) (ccop lT rT K) = kernel_coupling (fun s t => w s t) psi K.
Proof.
rewrite /edge_pen /kernel_coupling -(sum_tpair (fun s t => w s t * psi (K t - K s))).
by apply: eq_bigr => e _; rewrite /= !ffunE.
Qed.

Variables (psi phi : 'M[R]_n -> R) (pp pf : 'M[R]_n -> R -> 'M[R]_n) (eigh : eigh_t n) (p : klt_params T).
Variables (S : stack n T) (ns : 'I_T -> R).
Definition ktup (v : klt_primal n T) := (klt_Z0 v, klt_ZM v, klt_W0 v, klt_WM v).
Definition ktud (d : klt_dual n T) := (klt_X0 d, klt_YM d, klt_UM d).
Definition wpsi (e : tpair T) := kpsi_of p (t_l e) (t_r e).
Definition wphi (e : tpair T) := kphi_of p (t_l e) (t_r e).
Local Notation step rho := (cstep lT rT pp pf (klt_alpha p) (klt_tau p) wpsi wphi
  (ltgl_R_update eigh S ns rho) eigh rho).

Lemma kZ0_bridge rho (Rm Wa Xa : stack n T) ZE XE :
  [ffun t => soft_thresholding (T%:R^-1 *: (add_edges (Rm + Wa + Xa) (ZE - XE)) t)
    (klt_alpha p / (rho * T%:R))] = cZ0 lT rT (klt_alpha p) rho Rm Wa Xa ZE XE.
Proof. by rewrite /cZ0 -add_edgesE; apply/ffunP => t; rewrite ffunE [RHS]ffunE cdeg_T. Qed.
Lemma kW0_bridge rho (Rm Za Xa : stack n T) WE UE :
  [ffun t => prox_trace_indicator eigh (symmetrise (T%:R^-1 *: (add_edges (Za - Rm - Xa) (WE - UE)) t))
    (klt_tau p / (rho * T%:R))] = cW0 lT rT (klt_tau p) eigh rho Rm Za Xa WE UE.
Proof. by rewrite /cW0 -add_edgesE; apply/ffunP => t; rewrite ffunE [RHS]ffunE cdeg_T. Qed.

Lemma klt_bridge rho v d Rm v' d' :
  klt_updates eigh pp pf S ns p rho v d = (Rm, v', d') <-> step rho (ktup v) (ktud d) Rm (ktup v') (ktud d').
Proof.
case: v d v' d' => [Za ZE Wa WE] [Xa XE UE] [Za' ZE' Wa' WE'] [Xa' XE' UE'].
rewrite /klt_updates /ktup /ktud /cstep; cbn [klt_Z0 klt_ZM klt_W0 klt_WM klt_X0 klt_YM klt_UM].
cbv zeta; rewrite kZ0_bridge kW0_bridge; split.
  move=> [<- <- <- <- <- <- <- <-]; split=> //.
move=> [-> -> -> [-> ->] [-> -> ->]]; reflexivity.
Qed.

Hypothesis He : eigh_ok eigh.
Hypothesis ps : forall a lam, sym a -> sym (pp a lam).
Hypothesis fs : forall a lam, sym a -> sym (pf a lam).
Hypothesis t0 : 0 <= klt_tau p.
Definition esym (X : epair n T) : Prop := (forall e, sym (X.1 e)) /\ (forall e, sym (X.2 e)).
Definition klt_sym_inv (v : klt_primal n T) (d : klt_dual n T) : Prop :=
  [/\ esym (klt_ZM v), slices (@sym n) (klt_W0 v),
      slices (@sym n) (klt_X0 d), esym (klt_YM d) & esym (klt_UM d)].
Definition klt_struct (v : klt_primal n T) (d : klt_dual n T) : Prop :=
  [/\ slices (@sym n) (klt_Z0 v), slices (@psd n) (klt_W0 v),
     esym (klt_ZM v) /\ esym (klt_WM v), slices (@sym n) (klt_X0 d) & esym (klt_YM d) /\ esym (klt_UM d)].
Lemma klt_updates_struct rho v d (Rm : stack n T) v' d' : 0 < rho -> klt_sym_inv v d -> slices (@sym n) Rm ->
  klt_updates eigh pp pf S ns p rho v d = (Rm, v', d') -> klt_struct v' d'.
Proof.
move=> r0 [h1 h2 h3 h4 h5] sR /klt_bridge hs.
have ci : cinv (ktup v) (ktud d) by [].
by have [g1 g2 [g3 g4] g5 [g6 g7]] := cstep_struct He ps fs t0 r0 ci sR hs.
Qed.
Lemma klt_struct_inv v d : klt_struct v d -> klt_sym_inv v d.
Proof. by move=> [h1 h2 [a b] h3 [f g]]; split=> // t; apply: psd_sym. Qed.
Lemma esymZ c X : esym X -> esym (c *: X).
Proof. by case=> h1 h2; split=> e; rewrite ?prS1 ?prS2 /= ffunE; apply: symZ. Qed.
Lemma klt_structZ c v d : klt_struct v d -> klt_struct v (klt_dual_scale c d).
Proof.
move=> [h1 h2 h3 h4 [f g]]; split=> //=; first exact: st_symZ.
by split; apply: esymZ.
Qed.
End Bridge.

Section Opt.
Variables (n T : nat) (psi phi : 'M[R]_n -> R) (pp pf : 'M[R]_n -> R -> 'M[R]_n) (eigh : eigh_t n).
Hypothesis He : eigh_ok eigh.
Hypotheses (cpsi : convex_fun psi) (cphi : convex_fun phi).
Variables (p : klt_params T) (rho : R).
Hypotheses (a0 : 0 <= klt_alpha p) (t0 : 0 <= klt_tau p).
Hypotheses (b0 : forall s t : 'I_T, (s < t)%N -> 0 <= kpsi_of p s t).
Hypotheses (e0 : forall s t : 'I_T, (s < t)%N -> 0 <= kphi_of p s t).
Variables (S : stack n T) (ns : 'I_T -> R).
Hypothesis sS : slices (@sym n) S.
Hypothesis ns0 : forall t, 0 < ns t.
Local Notation lT := (@t_l T).
Local Notation rT := (@t_r T).
Local Notation cop f := (cobj lT rT psi phi (klt_alpha p) (klt_tau p) (wpsi p) (wphi p) f).
Local Notation copod f := (codobj lT rT psi phi (klt_alpha p) (klt_tau p) (wpsi p) (wphi p) f).
Definition klt_problem pen (KL : stack n T * stack n T) : Prop :=
  minimiser (fun KL : stack n T * stack n T => latent_feasible (@pd n) KL.1 KL.2)
    (fun KL => latent_obj (logdet_loss ns S) pen (klt_alpha p) (klt_tau p)
       (kernel_coupling (fun s t => kpsi_of p s t) psi) (kernel_coupling (fun s t => kphi_of p s t) phi)
       KL.1 KL.2) KL.
Lemma kldfE (K L : stack n T) : ldf S ns (K - L) = logdet_loss ns S (fun t => K t - L t).
Proof. by rewrite /ldf /logdet_loss; apply: eq_bigr => t _; rewrite stB. Qed.
Lemma b0e e : 0 <= wpsi p e. Proof. exact: b0 (valP e). Qed.
Lemma e0e e : 0 <= wphi p e. Proof. exact: e0 (valP e). Qed.

Lemma klt_feasE (y : stack n T * stack n T) : latent_feasible (@pd n) y.1 y.2 <-> cfeas (slices (@pd n)) y.
Proof. by split=> -[g1 g2]; split=> // t; have := g2 t; rewrite stB. Qed.
Lemma klt_problemE KL : klt_problem (@l1 n n) KL <-> minimiser (cfeas (slices (@pd n))) (cop (ldf S ns)) KL.
Proof.
have h2 (y : stack n T * stack n T) : latent_obj (logdet_loss ns S) (@l1 n n) (klt_alpha p) (klt_tau p)
       (kernel_coupling (fun s t => kpsi_of p s t) psi) (kernel_coupling (fun s t => kphi_of p s t) phi) y.1 y.2
   = cop (ldf S ns) y.
  by rewrite /latent_obj /cobj kldfE !kpen_couple.
have h1 := klt_feasE; split; apply: minimiser_ext => // y; exact: iff_sym.
Qed.
Lemma klt_problem_odE KL : klt_problem (@l1od n) KL <-> minimiser (cfeas (slices (@pd n))) (copod (ldf S ns)) KL.
Proof.
have h2 (y : stack n T * stack n T) : latent_obj (logdet_loss ns S) (@l1od n) (klt_alpha p) (klt_tau p)
       (kernel_coupling (fun s t => kpsi_of p s t) psi) (kernel_coupling (fun s t => kphi_of p s t) phi) y.1 y.2
   = copod (ldf S ns) y.
  by rewrite /latent_obj /codobj kldfE !kpen_couple.
have h1 := klt_feasE; split; apply: minimiser_ext => // y; exact: iff_sym.
Qed.

Lemma kltgl_fixed_opt v d Rm : 0 < rho -> prox_of psi pp -> prox_of phi pf ->
  klt_updates eigh pp pf S ns p rho v d = (Rm, v, d) ->
  [/\ Rm = klt_Z0 v - klt_W0 v, klt_ZM v = ecopies (klt_Z0 v), klt_WM v = ecopies (klt_W0 v) &
      klt_problem (@l1 n n) (klt_Z0 v, klt_W0 v)].
Proof.
move=> r0 hp hf /klt_bridge hs.
have [h1 h2 h3 h4] := cstep_fixed (PA := fun=> True) cpsi cphi hp hf a0 t0 b0e e0e He r0
   (fun A _ => ld_Rspec He sS ns0 r0 A) I hs.
split=> //; apply/klt_problemE; exact: ckkt_opt h4.
Qed.

Lemma kltgl_opt_fixed K L : 0 < rho -> prox_of psi pp -> prox_of phi pf ->
  (forall x, psi x^T = psi x) -> (forall x, phi x^T = phi x) -> klt_problem (@l1 n n) (K, L) ->
  exists d, klt_sym_inv (KLTPrimal K (ecopies K) L (ecopies L)) d /\
  klt_updates eigh pp pf S ns p rho (KLTPrimal K (ecopies K) L (ecopies L)) d =
    (K - L, KLTPrimal K (ecopies K) L (ecopies L), d).
Proof.
move=> r0 hp hf psiT phiT /klt_problemE mK.
have [[/= pL dR] _] := mK.
have Dsym (X : stack n T) : slices (@pd n) X -> slices (@sym n) X by move=> h t; apply: pd_sym.
have csym : slices (@sym n) (ldc S ns (K - L)) by apply: ldc_sym.
have [X0 [XE [UE [hk s1 s2 s3]]]] := @opt_ckkt _ _ _ _ _ _ _ _ _ _ _ cpsi cphi a0 b0e e0e
  (ldf S ns) (slices (@pd n)) Dsym psiT phiT K L (ldc S ns (K - L)) csym
   (fun Y => ld_subg sS ns0 dR (Y := Y)) (fun v => ld_smooth sS ns0 dR (v := v)) mK rho r0.
have sL : slices (@sym n) L by move=> t; apply: psd_sym.
have sK : slices (@sym n) K.
  by have -> : K = (K - L) + L; [lin | apply: st_symD => //; apply: Dsym].
exists (KLTDual X0 XE UE); split.
  by split=> //=; split=> e; rewrite ffunE.
by apply/klt_bridge; apply: (ckkt_fixed (PA := fun=> True) cpsi cphi hp hf a0 t0 b0e e0e He r0
   (fun A _ => ld_Rspec He sS ns0 r0 A) I hk).
Qed.

Lemma kltgl_unique K L K' L' : klt_problem (@l1 n n) (K, L) -> klt_problem (@l1 n n) (K', L') -> K - L = K' - L'.
Proof.
move=> /klt_problemE h1 /klt_problemE h2; apply: (lat_unique cpsi cphi _ b0e e0e _ h1 h2) => // X Y.
exact: ld_mid.
Qed.

Lemma kltgl_not_od (K L : stack n T) (i : 'I_n) (s : 'I_T) : 0 < klt_alpha p ->
  klt_problem (@l1 n n) (K, L) -> ~ klt_problem (@l1od n) (K, L).
Proof.
move=> ap /klt_problemE h1 /klt_problem_odE h2; have [[/= pL dR] _] := h1.
have Kp t : 0 < K t i i.
  have := pd_diag_gt0 i (dR t); have := psd_diag_ge0 i (pL t); rewrite stB !mxE.
  by move: (K t i i) (L t i i) => a b; clear; move=> h1 h2; mclra.
by apply: (lat_not_od s ap Kp _ h1 h2) => v; apply: ld_smooth.
Qed.
End Opt.

Section Loop.
Variables (n T : nat) (eigh : eigh_t n) (nuc psi phi : 'M[R]_n -> R) (pp pf : 'M[R]_n -> R -> 'M[R]_n).
Variables (p : klt_params T) (S : stack n T) (ns : 'I_T -> R) (pinvh : 'M[R]_n -> 'M[R]_n).
Local Notation body := (klt_body eigh nuc psi pp phi pf S ns p).
Local Notation upd s := (klt_updates eigh pp pf S ns p (klt_rho s) (klt_pr s) (klt_du s)).
Local Opaque klt_updates.

Lemma klt_body_state j s : let r := upd s in
  exists rho' c, [/\ 0 < tau_inc (klt_rho_options p) -> 0 < tau_dec (klt_rho_options p) ->
      0 < klt_rho s -> 0 < rho',
    out_state (body j s).1 = KLTState r.1.2 (klt_dual_scale c r.2) (r.1.1, klt_ZM r.1.2, klt_WM r.1.2) rho' &
    rho' * c = klt_rho s \/ rho' = 0].
Proof.
rewrite /= /klt_body; case: (klt_updates _ _ _ _ _ _ _ _ _) => [[K Z] U] /=; case: (klt_old s) => [[Ro Zo] Wo].
case: (stop_test _) => /=.
  exists (klt_rho s), 1; split=> //; last by left; rewrite mulr1.
  by case: U => a b c; rewrite /klt_dual_scale !scale1r.
set r' := update_rho _ _ _ _; exists r', (klt_rho s / r'); split=> //.
  by move=> h1 h2 h; apply: rho_pos.
by have [->|nz] := eqVneq r' 0; [right | left; rewrite mulrC divfK].
Qed.
Lemma klt_body_obj j s : c_obj (body j s).2 =
  if klt_compute_objective p then klt_objective nuc S ns p psi phi (upd s).1.1 (upd s).1.2 else NaN.
Proof.
rewrite /= /klt_body; case: (klt_updates _ _ _ _ _ _ _ _ _) => [[K Z] U] /=; case: (klt_old s) => [[Ro Zo] Wo].
by case: (stop_test _).
Qed.

Lemma kupd_R rho (v : klt_primal n T) d :
  (klt_updates eigh pp pf S ns p rho v d).1.1 = ltgl_R_update eigh S ns rho (klt_Z0 v - klt_W0 v - klt_X0 d).
Proof. by []. Qed.

Hypothesis He : eigh_ok eigh.
Hypothesis sS : slices (@sym n) S.
Hypothesis ns0 : forall t, 0 < ns t.
Hypothesis ps : forall a lam, sym a -> sym (pp a lam).
Hypothesis fs : forall a lam, sym a -> sym (pf a lam).
Hypothesis t0 : 0 <= klt_tau p.
Hypothesis r0 : 0 < klt_rho0 p.
Hypothesis ti : 0 < tau_inc (klt_rho_options p).
Hypothesis td : 0 < tau_dec (klt_rho_options p).
Definition klt_inv (s : klt_state n T) : Prop := 0 < klt_rho s /\ klt_sym_inv (klt_pr s) (klt_du s).
Definition klt_post (s : klt_state n T) : Prop :=
  slices (@pd n) (klt_old s).1.1 /\ klt_struct (klt_pr s) (klt_du s).
Lemma klt_body_inv j s : klt_inv s -> klt_inv (out_state (body j s).1) /\ klt_post (out_state (body j s).1).
Proof.
move=> [rs iv]; have [rho' [c [rp -> _]]] := klt_body_state j s.
have hR := kupd_R (klt_rho s) (klt_pr s) (klt_du s).
case E: (klt_updates _ _ _ _ _ _ _ _ _) hR => [[Rm v'] d'] /= hR.
have PR : slices (@pd n) Rm by rewrite hR; have [] := ld_Rspec He sS ns0 rs (klt_Z0 (klt_pr s) - klt_W0 (klt_pr s) - klt_X0 (klt_du s)).
have sR : slices (@sym n) Rm by move=> t; apply: pd_sym.
have st := klt_updates_struct He ps fs t0 rs iv sR E.
have st' := klt_structZ c st.
by split; split=> //; [apply: rp | apply: klt_struct_inv].
Qed.

Variable init : init_mode3 n T.
Local Notation K0 := (init_precision3 pinvh S init).
Local Notation e := (klt_loop eigh nuc psi pp phi pf S ns p (klt_init p K0)).
Hypothesis sI : slices (@sym n) K0.
Lemma klt_inv0 : klt_inv (klt_init p K0).
Proof.
split=> //=; split=> //=; try split; move=> t; rewrite /= ffunE //; try exact: sI; exact: sym0.
Qed.
Lemma klt_iter_post k : klt_post (iter_state body 0 (klt_init p K0) k.+1).
Proof.
apply: (proj2 (klt_body_inv _ _)); elim: k => [|k IH]; first exact: klt_inv0.
by have [] := klt_body_inv (0 + k) IH.
Qed.
Lemma klt_loop_post : (0 < klt_max_iter p)%N -> klt_post (le_state e).
Proof.
move=> m0; apply: (@py_for_post _ _ body klt_inv) => //; [exact: klt_inv0 | exact: klt_body_inv].
Qed.
End Loop.

Section Call.
Variables (n T : nat) (eigh : eigh_t n) (nuc psi phi : 'M[R]_n -> R) (pp pf : 'M[R]_n -> R -> 'M[R]_n).
Variables (p : klt_params T) (S : stack n T) (ns : option ('I_T -> R)) (pinvh : 'M[R]_n -> 'M[R]_n).
Variable init : init_mode3 n T.
Local Notation K0 := (init_precision3 pinvh S init).
Local Notation body := (klt_body eigh nuc psi pp phi pf S (odflt (fun=> 1) ns) p).
Local Notation e := (klt_loop eigh nuc psi pp phi pf S (odflt (fun=> 1) ns) p (klt_init p K0)).
Local Notation call := (kernel_latent_time_graphical_lasso eigh nuc pinvh psi pp phi pf S ns p init).

Lemma klt_callE r : call = Ok r ->
  [/\ klt_precision r = klt_Z0 (klt_pr (le_state e)), klt_latent r = klt_W0 (klt_pr (le_state e)),
      klt_covariance r = [ffun t => pinvh (klt_precision r t)] &
   [/\ klt_history r = (if klt_return_history p then Some (le_checks e) else None),
      klt_n_iter r = (if klt_return_n_iter p then le_iter e else None) & klt_warned r = le_else e]].
Proof.
rewrite /kernel_latent_time_graphical_lasso; case: (klt_return_n_iter p); last by case=> <-.
by case: (le_iter _) => // it [<-].
Qed.
Lemma klt_count r : klt_return_n_iter p -> klt_return_history p -> call = Ok r ->
  exists h k, [/\ klt_history r = Some h, klt_n_iter r = Some k, size h = k.+1,
    (size h <= klt_max_iter p)%N & klt_warned r -> size h = klt_max_iter p].
Proof.
move=> rn rh h; have [_ _ _ [h1 h2 h3]] := klt_callE h; rewrite rn rh in h1 h2.
have [c1 c2 c3 c4] := py_for_count body (klt_max_iter p) (klt_init p K0).
rewrite -/(klt_loop _ _ _ _ _ _ _ _ _ _) in c1 c2 c3 c4.
exists (le_checks e); rewrite h1 h2 h3 c3.
move: h; rewrite /kernel_latent_time_graphical_lasso rn c3; case E: (size _) => [|k] // _.
by exists k; split=> //; rewrite -E.
Qed.
Lemma klt_zero_iter : klt_max_iter p = 0%N ->
  (klt_return_n_iter p -> call = UnboundLocalError _) /\
  (~~ klt_return_n_iter p -> exists r, [/\ call = Ok r, klt_precision r = K0, klt_latent r = 0 &
     klt_warned r = true]).
Proof.
move=> m0; rewrite /kernel_latent_time_graphical_lasso /klt_loop m0 /=.
by case: (klt_return_n_iter p); split=> // _; eexists; split; first reflexivity.
Qed.
Lemma klt_call_ok : (0 < klt_max_iter p)%N -> exists r, call = Ok r.
Proof.
move=> m0; rewrite /kernel_latent_time_graphical_lasso; case: (klt_return_n_iter p); last by eexists.
have [_ h2 h3 _] := py_for_count body (klt_max_iter p) (klt_init p K0).
rewrite -/(klt_loop _ _ _ _ _ _ _ _ _ _) in h2 h3; rewrite h3; move: (h2 m0).
by case: (size _) => // k _; eexists.
Qed.
End Call.
