(** Latent time graphical lasso and latent time matrix decomposition. *)
From Coq Require Import Reals Lra Psatz Epsilon.
From mathcomp Require Import all_ssreflect all_algebra.
From Verif Require Import RStruct RTac LinTac Spectral S_Mat RMx ADMM NP M_Prox S_Prox P_Eigh.
From Verif Require Import P_Prox P_Prox2 P_Rules M_Loop P_Loop M_GL S_GL P_GL P_GL2 M_LGL P_LGL.
From Verif Require Import M_TGL S_TGL P_TGL P_TGL2 P_Admm P_TGL3 HB P_TGL4 P_TGL5 M_KTGL P_KTGL P_KTGL2.
From Verif Require Import M_LTGL S_LTGL P_LatCore P_Lat2.
Import Order.TTheory GRing.Theory Num.Theory.

Set Implicit Arguments.
Unset Strict Implicit.
Unset Printing Implicit Defensive.
Local Open Scope ring_scope.

Lemma minimiser_ext (V : Type) (P P' : V -> Prop) (f f' : V -> R) x :
  (forall y, P y <-> P' y) -> (forall y, f y = f' y) -> minimiser P f x -> minimiser P' f' x.
Proof. by move=> hP hf [p h]; split=> [|y py]; rewrite -?hf; [apply/hP | apply: h; apply/hP]. Qed.

Lemma tgl_objE' n m (S K Z0 : stack n m.+1) Z1 Z2 ns alpha beta psi : slices (@sym n) S -> slices (@pd n) K ->
  tgl_objective ns S K Z0 Z1 Z2 alpha beta psi =
  Fin ((\sum_t ns t * (\tr (S t *m K t) - ln (\det (K t)))) + alpha * (\sum_t l1od (Z0 t))
        + beta * (\sum_t psi (Z2 t - Z1 t))).
Proof.
case: n S K Z0 Z1 Z2 psi => [|n] S K Z0 Z1 Z2 psi sS pK; last exact: tgl_objE.
rewrite /tgl_objective /tgl_loss /=.
have -> : \big[xadd/Fin 0]_t xmul (Fin (- ns t)) (log_likelihood (S t) (K t)) =
  Fin (\sum_t ns t * (\tr (S t *m K t) - ln (\det (K t)))).
  elim/big_rec2: _ => // t y1 y2 _ ->; rewrite /log_likelihood /fast_logdet det_mx00 ltr01 /= tr_fdot //.
  by congr (Fin (_ + _)); rewrite mulNr -mulrN opprB.
rewrite /=; congr (Fin (_ + _ * _ + _ * _)); apply: eq_bigr => t _; first by rewrite l1_od_normE.
by rewrite stB.
Qed.

Section Bridge.
Variables (n m : nat).
Implicit Types (A K : stack n m.+1) (D X : spair n m).
Local Notation lT := (lift (@ord_max m)).
Local Notation rT := (lift (@ord0 m)).

Lemma sum_lift (h : 'I_m.+1) (D : stack n m) t : \sum_(e | lift h e == t) D e = oapp D 0 (unlift h t).
Proof.
case: unliftP => [j ->|->] /=.
  by rewrite (big_pred1 j) // => e /=; rewrite (inj_eq lift_inj).
by rewrite big_pred0 // => e; rewrite eq_sym (negbTE (neq_lift _ _)).
Qed.
Lemma add_pairE A D : add_pair A D = A + cadj lT rT D.
Proof. by apply/ffunP => t; rewrite stD !ffunE !sum_lift addrA. Qed.
Lemma count_lift (h t : 'I_m.+1) : \sum_(e < m) (lift h e == t)%:R = 1 - (t == h)%:R :> R.
Proof.
have [->|th] := eqVneq t h.
  by rewrite big1 /= ?subrr // => e _; rewrite eq_sym (negbTE (neq_lift _ _)).
have /unlift_some [j -> _] : h != t by rewrite eq_sym.
rewrite subr0 (bigD1 j) //= eqxx big1 ?addr0 // => e ne.
by rewrite (inj_eq lift_inj) (negbTE ne).
Qed.
Lemma divisorE t : divisor t = cdeg lT rT t.
Proof.
rewrite /cdeg !count_lift /divisor; move: (t == ord0) (t == ord_max) => a b.
by move: (a%:R) (b%:R) => x y; mcring.
Qed.
Lemma scopiesE K : scopies K = ccop lT rT K. Proof. by []. Qed.
Lemma pen_couple (psi : 'M[R]_n -> R) w K :
  edge_pen psi (fun=> w) (ccop lT rT K) = w * neighbour_coupling psi K.
Proof.
rewrite /edge_pen /neighbour_coupling sum_pairs mulr_sumr.
by apply: eq_bigr => e _; rewrite /= !ffunE.
Qed.

Variables (psi phi : 'M[R]_n -> R) (pp pf : 'M[R]_n -> R -> 'M[R]_n) (eigh : eigh_t n) (p : lt_params).
Variable Rup : R -> stack n m.+1 -> stack n m.+1.
Local Notation px := (PsiPlain psi pp).
Local Notation py := (PsiPlain phi pf).
Definition tup (v : lt_primal n m) := (lt_Z0 v, lt_Z12 v, lt_W0 v, lt_W12 v).
Definition tud (d : lt_dual n m) := (lt_X0 d, lt_X12 d, lt_U12 d).
Local Notation step rho := (cstep lT rT pp pf (lt_alpha p) (lt_tau p) (fun=> lt_beta p) (fun=> lt_eta p)
  (Rup rho) eigh rho).

Lemma Z0_bridge rho (Rm Wa Xa : stack n m.+1) ZE XE :
  [ffun t => soft_thresholding ((divisor t)^-1 *: (add_pair (Rm + Wa + Xa) (ZE - XE)) t)
    (lt_alpha p / (rho * divisor t))] = cZ0 lT rT (lt_alpha p) rho Rm Wa Xa ZE XE.
Proof. by rewrite /cZ0 -add_pairE; apply/ffunP => t; rewrite ffunE [RHS]ffunE divisorE. Qed.
Lemma W0_bridge rho (Rm Za Xa : stack n m.+1) WE UE :
  [ffun t => prox_trace_indicator eigh (symmetrise ((divisor t)^-1 *: (add_pair (Za - Rm - Xa) (WE - UE)) t))
    (lt_tau p / (rho * divisor t))] = cW0 lT rT (lt_tau p) eigh rho Rm Za Xa WE UE.
Proof. by rewrite /cW0 -add_pairE; apply/ffunP => t; rewrite ffunE [RHS]ffunE divisorE. Qed.

Lemma lt_bridge rho v d Rm v' d' :
  lt_updates Rup eigh px py p rho v d = (Rm, v', d') <-> step rho (tup v) (tud d) Rm (tup v') (tud d').
Proof.
case: v d v' d' => [Za ZE Wa WE] [Xa XE UE] [Za' ZE' Wa' WE'] [Xa' XE' UE'].
rewrite /lt_updates /tup /tud /cstep; cbn [lt_Z0 lt_Z12 lt_W0 lt_W12 lt_X0 lt_X12 lt_U12].
cbv zeta; rewrite Z0_bridge W0_bridge; split.
  move=> [<- <- <- <- <- <- <- <-]; split=> //.
move=> [-> -> -> [-> ->] [-> -> ->]]; reflexivity.
Qed.

(** structure of one iteration *)
Hypothesis He : eigh_ok eigh.
Hypothesis ps : forall a lam, sym a -> sym (pp a lam).
Hypothesis fs : forall a lam, sym a -> sym (pf a lam).
Hypothesis t0 : 0 <= lt_tau p.
Definition lt_sym_inv (v : lt_primal n m) (d : lt_dual n m) : Prop :=
  [/\ slices (@sym n) (lt_Z12 v).1 /\ slices (@sym n) (lt_Z12 v).2, slices (@sym n) (lt_W0 v),
      slices (@sym n) (lt_X0 d),
      slices (@sym n) (lt_X12 d).1 /\ slices (@sym n) (lt_X12 d).2 &
      slices (@sym n) (lt_U12 d).1 /\ slices (@sym n) (lt_U12 d).2].
Definition lt_struct (v : lt_primal n m) (d : lt_dual n m) : Prop :=
  [/\ slices (@sym n) (lt_Z0 v), slices (@psd n) (lt_W0 v),
     [/\ slices (@sym n) (lt_Z12 v).1, slices (@sym n) (lt_Z12 v).2,
         slices (@sym n) (lt_W12 v).1 & slices (@sym n) (lt_W12 v).2],
     slices (@sym n) (lt_X0 d) &
     [/\ slices (@sym n) (lt_X12 d).1, slices (@sym n) (lt_X12 d).2,
         slices (@sym n) (lt_U12 d).1 & slices (@sym n) (lt_U12 d).2]].
Lemma lt_updates_struct rho v d (Rm : stack n m.+1) v' d' : 0 < rho -> lt_sym_inv v d -> slices (@sym n) Rm ->
  lt_updates Rup eigh px py p rho v d = (Rm, v', d') -> lt_struct v' d'.
Proof.
move=> r0 [h1 h2 h3 h4 h5] sR /lt_bridge hs.
have ci : cinv (tup v) (tud d) by [].
by have [g1 g2 [[g3 g4] [g5 g6]] g7 [[g8 g9] [g10 g11]]] := cstep_struct He ps fs t0 r0 ci sR hs.
Qed.
Lemma lt_struct_inv v d : lt_struct v d -> lt_sym_inv v d.
Proof. by move=> [h1 h2 [a b c e] h3 [f g h i]]; split=> // t; apply: psd_sym. Qed.
Lemma lt_structZ c v d : lt_struct v d -> lt_struct v (lt_dual_scale c d).
Proof.
move=> [h1 h2 h3 h4 [f g h i]]; split=> //=; first exact: st_symZ.
by split; apply: (@st_symZ n m).
Qed.
End Bridge.

Section Opt.
Variables (n m : nat) (psi phi : 'M[R]_n -> R) (pp pf : 'M[R]_n -> R -> 'M[R]_n) (eigh : eigh_t n).
Hypothesis He : eigh_ok eigh.
Hypotheses (cpsi : convex_fun psi) (cphi : convex_fun phi).
Variables (p : lt_params) (rho : R).
Hypotheses (a0 : 0 <= lt_alpha p) (t0 : 0 <= lt_tau p) (b0 : 0 <= lt_beta p) (e0 : 0 <= lt_eta p).
Local Notation px := (PsiPlain psi pp).
Local Notation py := (PsiPlain phi pf).
Local Notation lT := (lift (@ord_max m)).
Local Notation rT := (lift (@ord0 m)).
Local Notation cop f := (cobj lT rT psi phi (lt_alpha p) (lt_tau p) (fun=> lt_beta p) (fun=> lt_eta p) f).
Local Notation copod f := (codobj lT rT psi phi (lt_alpha p) (lt_tau p) (fun=> lt_beta p) (fun=> lt_eta p) f).
Definition couple (w : R) (h : 'M[R]_n -> R) := fun K : 'I_m.+1 -> 'M[R]_n => w * neighbour_coupling h K.
Definition lt_problem (P : 'M[R]_n -> Prop) loss pen (KL : stack n m.+1 * stack n m.+1) : Prop :=
  minimiser (fun KL : stack n m.+1 * stack n m.+1 => latent_feasible P KL.1 KL.2)
    (fun KL => latent_obj loss pen (lt_alpha p) (lt_tau p) (couple (lt_beta p) psi) (couple (lt_eta p) phi)
       KL.1 KL.2) KL.

Section Gen.
Variables (P : 'M[R]_n -> Prop) (loss : ('I_m.+1 -> 'M[R]_n) -> R).
Variables (Rup : R -> stack n m.+1 -> stack n m.+1) (f : stack n m.+1 -> R).
Hypothesis fE : forall K L : stack n m.+1, f (K - L) = loss (fun t => K t - L t).
Lemma lt_problemE KL : lt_problem P loss (@l1 n n) KL <-> minimiser (cfeas (slices P)) (cop f) KL.
Proof.
have h1 (y : stack n m.+1 * stack n m.+1) : latent_feasible P y.1 y.2 <-> cfeas (slices P) y.
  by split=> -[g1 g2]; split=> // t; have := g2 t; rewrite stB.
have h2 (y : stack n m.+1 * stack n m.+1) : latent_obj loss (@l1 n n) (lt_alpha p) (lt_tau p)
    (couple (lt_beta p) psi) (couple (lt_eta p) phi) y.1 y.2 = cop f y.
  by rewrite /latent_obj /cobj fE !pen_couple.
split; apply: minimiser_ext => // y; exact: iff_sym.
Qed.
Lemma lt_problem_odE KL : lt_problem P loss (@l1od n) KL <-> minimiser (cfeas (slices P)) (copod f) KL.
Proof.
have h1 (y : stack n m.+1 * stack n m.+1) : latent_feasible P y.1 y.2 <-> cfeas (slices P) y.
  by split=> -[g1 g2]; split=> // t; have := g2 t; rewrite stB.
have h2 (y : stack n m.+1 * stack n m.+1) : latent_obj loss (@l1od n) (lt_alpha p) (lt_tau p)
    (couple (lt_beta p) psi) (couple (lt_eta p) phi) y.1 y.2 = copod f y.
  by rewrite /latent_obj /codobj fE !pen_couple.
split; apply: minimiser_ext => // y; exact: iff_sym.
Qed.

Variable PA : stack n m.+1 -> Prop.
Hypothesis r0 : 0 < rho.
Hypothesis Rspec : forall A, PA A -> slices P (Rup rho A) /\
  forall Y : stack n m.+1, slices P Y -> f (Rup rho A) + rho * cdv n m.+1 (A - Rup rho A) (Y - Rup rho A) <= f Y.

Lemma lt_fixed_opt v d Rm : prox_of psi pp -> prox_of phi pf -> PA (lt_Z0 v - lt_W0 v - lt_X0 d) ->
  lt_updates Rup eigh px py p rho v d = (Rm, v, d) ->
  [/\ Rm = lt_Z0 v - lt_W0 v, lt_Z12 v = scopies (lt_Z0 v), lt_W12 v = scopies (lt_W0 v) &
      lt_problem P loss (@l1 n n) (lt_Z0 v, lt_W0 v)].
Proof.
move=> hp hf pA /lt_bridge hs.
have [h1 h2 h3 h4] := cstep_fixed cpsi cphi hp hf a0 t0 (fun=> b0) (fun=> e0) He r0 Rspec pA hs.
split=> //; apply/lt_problemE; exact: ckkt_opt h4.
Qed.

Variable c : stack n m.+1 -> stack n m.+1.
Hypothesis Psym : forall M, P M -> sym M.
Hypothesis csym : forall K : stack n m.+1, slices P K -> slices (@sym n) (c K).
Hypothesis fsub : forall K Y : stack n m.+1, slices P K -> slices P Y -> f K + cdv n m.+1 (c K) (Y - K) <= f Y.
Hypothesis fsm : forall (K v : stack n m.+1), slices P K -> slices (@sym n) v -> exists C d : R, [/\ 0 < d, 0 <= C &
  forall t, 0 < t -> t <= d ->
    slices P (K + t *: v) /\ f (K + t *: v) <= f K + t * cdv n m.+1 (c K) v + C * t ^+ 2].
Hypothesis PAsym : forall A : stack n m.+1, slices (@sym n) A -> PA A.

Lemma lt_opt_fixed K L : prox_of psi pp -> prox_of phi pf ->
  (forall x, psi x^T = psi x) -> (forall x, phi x^T = phi x) ->
  lt_problem P loss (@l1 n n) (K, L) ->
  exists d, lt_sym_inv (LTPrimal K (scopies K) L (scopies L)) d /\
  lt_updates Rup eigh px py p rho (LTPrimal K (scopies K) L (scopies L)) d =
    (K - L, LTPrimal K (scopies K) L (scopies L), d).
Proof.
move=> hp hf psiT phiT /lt_problemE mK.
have [[/= pL dR] _] := mK.
have Dsym (X : stack n m.+1) : slices P X -> slices (@sym n) X by move=> h t; apply: Psym.
have [X0 [XE [UE [hk s1 s2 s3]]]] := @opt_ckkt _ _ _ _ _ _ _ _ _ _ _ cpsi cphi a0 (fun=> b0) (fun=> e0)
  f (slices P) Dsym psiT phiT K L (c (K - L)) (csym dR) (fun Y => fsub dR) (fun v => fsm dR) mK rho r0.
have sL : slices (@sym n) L by move=> t; apply: psd_sym.
have sK : slices (@sym n) K.
  by have -> : K = (K - L) + L; [lin | apply: st_symD => //; apply: Dsym].
exists (LTDual X0 XE UE); split.
  by split=> //=; split=> t; rewrite ffunE.
apply/lt_bridge; apply: (ckkt_fixed cpsi cphi hp hf a0 t0 (fun=> b0) (fun=> e0) He r0 Rspec _ hk).
apply: PAsym; apply: st_symD; last exact: st_symN.
exact: Dsym.
Qed.

Hypothesis fm : forall X Y : stack n m.+1, slices P X -> slices P Y -> [/\ slices P (2%:R^-1 *: (X + Y)),
  2%:R * f (2%:R^-1 *: (X + Y)) <= f X + f Y & X <> Y -> 2%:R * f (2%:R^-1 *: (X + Y)) < f X + f Y].
Lemma lt_problem_unique K L K' L' : lt_problem P loss (@l1 n n) (K, L) ->
  lt_problem P loss (@l1 n n) (K', L') -> K - L = K' - L'.
Proof. by move=> /lt_problemE h1 /lt_problemE h2; apply: (lat_unique cpsi cphi _ _ _ fm h1 h2). Qed.

Lemma lt_problem_not_od (K L : stack n m.+1) (i : 'I_n) : 0 < lt_alpha p -> (forall t, 0 < K t i i) ->
  lt_problem P loss (@l1 n n) (K, L) -> ~ lt_problem P loss (@l1od n) (K, L).
Proof.
move=> ap Kp /lt_problemE h1 /lt_problem_odE h2; have [[/= pL dR] _] := h1.
exact: (lat_not_od (ord0 : 'I_m.+1) ap Kp (fun v => fsm dR) h1 h2).
Qed.
End Gen.

(** ** latent time graphical lasso *)
Section LT.
Variables (S : stack n m.+1) (ns : 'I_m.+1 -> R).
Hypothesis sS : slices (@sym n) S.
Hypothesis ns0 : forall t, 0 < ns t.
Lemma ldfE (K L : stack n m.+1) : ldf S ns (K - L) = logdet_loss ns S (fun t => K t - L t).
Proof. by rewrite /ldf /logdet_loss; apply: eq_bigr => t _; rewrite stB. Qed.
Local Notation prob := (lt_problem (@pd n) (logdet_loss ns S)).

Lemma ltgl_fixed_opt v d Rm : 0 < rho -> prox_of psi pp -> prox_of phi pf ->
  lt_updates (ltgl_R_update eigh S ns) eigh px py p rho v d = (Rm, v, d) ->
  [/\ Rm = lt_Z0 v - lt_W0 v, lt_Z12 v = scopies (lt_Z0 v), lt_W12 v = scopies (lt_W0 v) &
      prob (@l1 n n) (lt_Z0 v, lt_W0 v)].
Proof.
move=> r0 hp hf.
by apply: (lt_fixed_opt ldfE r0 (PA := fun=> True) (fun A _ => ld_Rspec He sS ns0 r0 A) hp hf I).
Qed.
Lemma ltgl_opt_fixed K L : 0 < rho -> prox_of psi pp -> prox_of phi pf ->
  (forall x, psi x^T = psi x) -> (forall x, phi x^T = phi x) -> prob (@l1 n n) (K, L) ->
  exists d, lt_sym_inv (LTPrimal K (scopies K) L (scopies L)) d /\
  lt_updates (ltgl_R_update eigh S ns) eigh px py p rho (LTPrimal K (scopies K) L (scopies L)) d =
    (K - L, LTPrimal K (scopies K) L (scopies L), d).
Proof.
move=> r0; apply: (lt_opt_fixed ldfE r0 (PA := fun=> True) (fun A _ => ld_Rspec He sS ns0 r0 A) (c := ldc S ns)).
- exact: pd_sym.
- move=> X; exact: ldc_sym.
- move=> X Y; exact: ld_subg.
- move=> X v; exact: ld_smooth.
- by [].
Qed.
Lemma ltgl_unique K L K' L' : prob (@l1 n n) (K, L) -> prob (@l1 n n) (K', L') -> K - L = K' - L'.
Proof. by apply: (lt_problem_unique ldfE) => X Y; apply: ld_mid. Qed.
Lemma ltgl_not_od (K L : stack n m.+1) (i : 'I_n) : 0 < lt_alpha p -> prob (@l1 n n) (K, L) -> ~ prob (@l1od n) (K, L).
Proof.
move=> ap h; have [[/= pL pR] _] := h.
have Kp t : 0 < K t i i.
  have := pd_diag_gt0 i (pR t); have := psd_diag_ge0 i (pL t); rewrite !mxE.
  by move: (K t i i) (L t i i) => a b; clear; move=> h1 h2; mclra.
apply: (lt_problem_not_od ldfE (c := ldc S ns) _ ap Kp h) => X v; exact: ld_smooth.
Qed.
End LT.

(** ** latent time matrix decomposition *)
Section MD.
Variable (S : stack n m.+1).
Hypothesis sS : slices (@sym n) S.
Lemma frfE (K L : stack n m.+1) : frf S (K - L) = frobenius_loss S (fun t => K t - L t).
Proof. by rewrite /frf /frobenius_loss; apply: eq_bigr => t _; rewrite stB. Qed.
Local Notation prob := (lt_problem (@sym n) (frobenius_loss S)).

Lemma ltmd_fixed_opt v d Rm : 0 < rho -> prox_of psi pp -> prox_of phi pf ->
  slices (@sym n) (lt_Z0 v) -> slices (@sym n) (lt_X0 d) ->
  lt_updates (ltmd_R_update S) eigh px py p rho v d = (Rm, v, d) ->
  [/\ Rm = lt_Z0 v - lt_W0 v, lt_Z12 v = scopies (lt_Z0 v), lt_W12 v = scopies (lt_W0 v) &
      prob (@l1 n n) (lt_Z0 v, lt_W0 v)].
Proof.
move=> r0 hp hf sZ sX hu.
apply: (lt_fixed_opt frfE r0 (fun A => fr_Rspec sS r0 (A := A)) hp hf _ hu).
have pW : slices (@psd n) (lt_W0 v).
  have /lt_bridge := hu; case: (v) => [Za ZE Wa WE] [_ _ eW _ _]; rewrite eW; exact: cW0_psd.
have sW : slices (@sym n) (lt_W0 v) by move=> t; apply: psd_sym.
by apply: st_symD; [apply: st_symD => // |]; apply: st_symN.
Qed.
Lemma ltmd_opt_fixed K L : 0 < rho -> prox_of psi pp -> prox_of phi pf ->
  (forall x, psi x^T = psi x) -> (forall x, phi x^T = phi x) -> prob (@l1 n n) (K, L) ->
  exists d, lt_sym_inv (LTPrimal K (scopies K) L (scopies L)) d /\
  lt_updates (ltmd_R_update S) eigh px py p rho (LTPrimal K (scopies K) L (scopies L)) d =
    (K - L, LTPrimal K (scopies K) L (scopies L), d).
Proof.
move=> r0; apply: (lt_opt_fixed frfE r0 (fun A => fr_Rspec sS r0 (A := A)) (c := frc S)) => //.
- move=> X; exact: frc_sym.
- move=> X Y _ _; exact: fr_subg.
- move=> X v; exact: fr_smooth.
Qed.
Lemma ltmd_unique K L K' L' : prob (@l1 n n) (K, L) -> prob (@l1 n n) (K', L') -> K - L = K' - L'.
Proof. by apply: (lt_problem_unique frfE) => X Y; apply: fr_mid. Qed.
Lemma ltmd_not_od (K L : stack n m.+1) (i : 'I_n) : 0 < lt_alpha p -> (forall t, 0 < K t i i) ->
  prob (@l1 n n) (K, L) -> ~ prob (@l1od n) (K, L).
Proof. by apply: (lt_problem_not_od frfE (c := frc S)) => X v; apply: fr_smooth. Qed.
End MD.
End Opt.

(** * the loop *)
Section Loop.
Variables (n m : nat) (eigh : eigh_t n) (px py : psi_mode n) (p : lt_params).
Variables (Rup : R -> stack n m.+1 -> stack n m.+1) (obj : stack n m.+1 -> lt_primal n m -> xR).
Local Notation body := (lt_body Rup obj eigh px py p).
Local Notation upd s := (lt_updates Rup eigh px py p (lt_rho s) (lt_pr s) (lt_du s)).
Local Opaque lt_updates.

Lemma lt_body_state j s : let r := upd s in
  exists rho' c, [/\ 0 < tau_inc (lt_rho_options p) -> 0 < tau_dec (lt_rho_options p) ->
      0 < lt_rho s -> 0 < rho',
    out_state (body j s).1 = LTState r.1.2 (lt_dual_scale c r.2) (r.1.1, lt_Z12 r.1.2, lt_W12 r.1.2) rho' &
    rho' * c = lt_rho s \/ rho' = 0].
Proof.
rewrite /= /lt_body; case: (lt_updates _ _ _ _ _ _ _ _) => [[K Z] U] /=; case: (lt_old s) => [[Ro Zo] Wo].
case: (stop_test _) => /=.
  exists (lt_rho s), 1; split=> //; last by left; rewrite mulr1.
  by case: U => a b c; rewrite /lt_dual_scale !scale1r.
set r' := update_rho _ _ _ _; exists r', (lt_rho s / r'); split=> //.
  by move=> h1 h2 h; apply: rho_pos.
by have [->|nz] := eqVneq r' 0; [right | left; rewrite mulrC divfK].
Qed.

Lemma lt_body_obj j s : c_obj (body j s).2 =
  if lt_compute_objective p then obj (upd s).1.1 (upd s).1.2 else NaN.
Proof.
rewrite /= /lt_body; case: (lt_updates _ _ _ _ _ _ _ _) => [[K Z] U] /=; case: (lt_old s) => [[Ro Zo] Wo].
by case: (stop_test _).
Qed.
End Loop.

Section Struct.
Variables (n m : nat) (psi phi : 'M[R]_n -> R) (pp pf : 'M[R]_n -> R -> 'M[R]_n) (eigh : eigh_t n).
Variables (p : lt_params) (Rup : R -> stack n m.+1 -> stack n m.+1).
Variable obj : stack n m.+1 -> lt_primal n m -> xR.
Hypothesis He : eigh_ok eigh.
Hypothesis ps : forall a lam, sym a -> sym (pp a lam).
Hypothesis fs : forall a lam, sym a -> sym (pf a lam).
Hypothesis t0 : 0 <= lt_tau p.
Hypothesis ti : 0 < tau_inc (lt_rho_options p).
Hypothesis td : 0 < tau_dec (lt_rho_options p).
Variable P : stack n m.+1 -> Prop.
Hypothesis Psym : forall A, P A -> slices (@sym n) A.
(** Q: Z_0 symmetric where the R-update needs it *)
Hypothesis RP : forall rho (A : stack n m.+1), 0 < rho -> slices (@sym n) A -> P (Rup rho A).
Local Notation px := (PsiPlain psi pp).
Local Notation py := (PsiPlain phi pf).
Local Notation body := (lt_body Rup obj eigh px py p).
Local Opaque lt_updates.

Definition lt_inv (s : lt_state n m) : Prop :=
  [/\ 0 < lt_rho s, lt_sym_inv (lt_pr s) (lt_du s) & slices (@sym n) (lt_Z0 (lt_pr s))].
Definition lt_post (s : lt_state n m) : Prop :=
  P (lt_old s).1.1 /\ lt_struct (lt_pr s) (lt_du s).

Lemma upd_R rho (v : lt_primal n m) d :
  (lt_updates Rup eigh px py p rho v d).1.1 = Rup rho (lt_Z0 v - lt_W0 v - lt_X0 d).
Proof. by []. Qed.

Lemma lt_body_inv j s : lt_inv s -> lt_inv (out_state (body j s).1) /\ lt_post (out_state (body j s).1).
Proof.
move=> [rs iv sZ]; have [rho' [c [rp -> _]]] := lt_body_state eigh px py p Rup obj j s.
have hR := upd_R (lt_rho s) (lt_pr s) (lt_du s).
case E: (lt_updates _ _ _ _ _ _ _ _) hR => [[Rm v'] d'] /= hR.
have PR : P Rm.
  rewrite hR; apply: RP => //; case: iv => _ h2 h3 _ _.
  by apply: st_symD; [apply: st_symD => // |]; apply: st_symN.
have st := lt_updates_struct He ps fs t0 rs iv (Psym PR) E.
have st' := lt_structZ c st.
by split; split=> //; [apply: rp | apply: lt_struct_inv | case: st].
Qed.

Variable K0 : stack n m.+1.
Hypothesis s0 : slices (@sym n) K0.
Hypothesis r0 : 0 < lt_rho0 p.
Lemma lt_inv0 : lt_inv (lt_init p K0).
Proof.
split=> //=; split=> //=; try (split); rewrite ?/but_last; move=> t; rewrite /= ?ffunE //; exact: sym0.
Qed.
Lemma lt_iter_post k : lt_post (iter_state body 0 (lt_init p K0) k.+1).
Proof.
apply: (proj2 (lt_body_inv _ _)); elim: k => [|k IH]; first exact: lt_inv0.
by have [] := lt_body_inv (0 + k) IH.
Qed.
Lemma lt_loop_post : (0 < lt_max_iter p)%N ->
  lt_post (le_state (lt_loop Rup obj eigh px py p (lt_init p K0))).
Proof.
move=> m0; apply: (@py_for_post _ _ body lt_inv) => //; [exact: lt_inv0 | exact: lt_body_inv].
Qed.
End Struct.

(** * the calls *)
Section Call.
Variables (n m : nat) (p : lt_params) (cov : stack n m.+1 -> option (stack n m.+1)).
Variables (eigh : eigh_t n) (px py : psi_mode n) (Rup : R -> stack n m.+1 -> stack n m.+1).
Variable obj : stack n m.+1 -> lt_primal n m -> xR.
Variable K0 : stack n m.+1.
Local Notation e := (lt_loop Rup obj eigh px py p (lt_init p K0)).

Lemma lt_returnE r : lt_return p cov e = Ok r ->
  [/\ lt_precision r = lt_Z0 (lt_pr (le_state e)), lt_latent r = lt_W0 (lt_pr (le_state e)),
      lt_covariance r = cov (lt_precision r) & 
   [/\ lt_history r = (if lt_return_history p then Some (le_checks e) else None),
      lt_n_iter r = (if lt_return_n_iter p then le_iter e else None) & lt_warned r = le_else e]].
Proof.
rewrite /lt_return; case: (lt_return_n_iter p); last by case=> <-.
by case: (le_iter _) => // it [<-].
Qed.
Lemma lt_count r : lt_return_n_iter p -> lt_return_history p -> lt_return p cov e = Ok r ->
  exists h k, [/\ lt_history r = Some h, lt_n_iter r = Some k, size h = k.+1,
    (size h <= lt_max_iter p)%N & lt_warned r -> size h = lt_max_iter p].
Proof.
move=> rn rh h; have [_ _ _ [h1 h2 h3]] := lt_returnE h; rewrite rn rh in h1 h2.
have [c1 c2 c3 c4] := py_for_count (lt_body Rup obj eigh px py p) (lt_max_iter p) (lt_init p K0).
rewrite -/(lt_loop _ _ _ _ _ _ _) in c1 c2 c3 c4.
exists (le_checks e); rewrite h1 h2 h3 c3.
move: h; rewrite /lt_return rn c3; case E: (size _) => [|k] // _.
by exists k; split=> //; rewrite -E.
Qed.
Lemma lt_zero_iter : lt_max_iter p = 0%N ->
  (lt_return_n_iter p -> lt_return p cov e = UnboundLocalError _) /\
  (~~ lt_return_n_iter p -> exists r, [/\ lt_return p cov e = Ok r, lt_precision r = K0, lt_latent r = 0 &
     lt_warned r = true]).
Proof.
move=> m0; rewrite /lt_return /lt_loop m0 /=.
by case: (lt_return_n_iter p); split=> // _; eexists; split; first reflexivity.
Qed.
Lemma lt_call_ok : (0 < lt_max_iter p)%N -> exists r, lt_return p cov e = Ok r.
Proof.
move=> m0; rewrite /lt_return; case: (lt_return_n_iter p); last by eexists.
have [_ h2 h3 _] := py_for_count (lt_body Rup obj eigh px py p) (lt_max_iter p) (lt_init p K0).
rewrite -/(lt_loop _ _ _ _ _ _ _) in h2 h3; rewrite h3; move: (h2 m0).
by case: (size _) => // k _; eexists.
Qed.
End Call.

Section Top.
Variables (n m : nat) (psi phi : 'M[R]_n -> R) (pp pf : 'M[R]_n -> R -> 'M[R]_n) (eigh : eigh_t n).
Variables (nuc : 'M[R]_n -> R) (pinvh : 'M[R]_n -> 'M[R]_n) (S : stack n m.+1) (p : lt_params).
Hypothesis He : eigh_ok eigh.
Hypothesis sS : slices (@sym n) S.
Hypothesis ps : forall a lam, sym a -> sym (pp a lam).
Hypothesis fs : forall a lam, sym a -> sym (pf a lam).
Hypothesis t0 : 0 <= lt_tau p.
Hypothesis r0 : 0 < lt_rho0 p.
Hypothesis ti : 0 < tau_inc (lt_rho_options p).
Hypothesis td : 0 < tau_dec (lt_rho_options p).
Local Notation px := (PsiPlain psi pp).
Local Notation py := (PsiPlain phi pf).

Section LT.
Variables (ns : 'I_m.+1 -> R) (init : init_mode3 n m.+1).
Hypothesis ns0 : forall t, 0 < ns t.
Hypothesis sI : slices (@sym n) (init_precision3 pinvh S init).
Local Notation obj := (ltgl_objective nuc S ns p psi phi).
Local Notation Rup := (ltgl_R_update eigh S ns).
Lemma ltgl_iter_struct k :
  let s := iter_state (lt_body Rup obj eigh px py p) 0 (lt_init p (init_precision3 pinvh S init)) k.+1 in
  slices (@pd n) (lt_old s).1.1 /\ lt_struct (lt_pr s) (lt_du s).
Proof.
apply: (lt_iter_post psi phi obj He ps fs t0 ti td (P := fun A : stack n m.+1 => slices (@pd n) A)) => //.
- by move=> A h t; apply: pd_sym.
- by move=> rho A rp _; have [] := ld_Rspec He sS ns0 rp A.
Qed.
Lemma ltgl_hist_obj c0 k : (forall M, psd M -> nuc M = \tr M) -> lt_compute_objective p ->
  let e := lt_loop Rup obj eigh px py p (lt_init p (init_precision3 pinvh S init)) in
  (k < size (le_checks e))%N ->
  let s := iter_state (lt_body Rup obj eigh px py p) 0 (lt_init p (init_precision3 pinvh S init)) k.+1 in
  c_obj (nth c0 (le_checks e) k) =
  Fin ((\sum_t ns t * (\tr (S t *m (lt_old s).1.1 t) - ln (\det ((lt_old s).1.1 t))))
       + lt_alpha p * (\sum_t l1od (lt_Z0 (lt_pr s) t))
       + lt_beta p * (\sum_t psi ((lt_Z12 (lt_pr s)).2 t - (lt_Z12 (lt_pr s)).1 t))
       + (lt_tau p * (\sum_t \tr (lt_W0 (lt_pr s) t))
          + lt_eta p * (\sum_t phi ((lt_W12 (lt_pr s)).2 t - (lt_W12 (lt_pr s)).1 t)))).
Proof.
move=> nucP co e; rewrite {}/e /lt_loop => ke; rewrite (py_for_nth c0 ke).
have := ltgl_iter_struct k; rewrite /= add0n; move: (iter_state _ _ _ _) => s.
rewrite lt_body_obj co; have [rho' [c [_ -> _]]] := lt_body_state eigh px py p Rup obj k s.
case: (lt_updates _ _ _ _ _ _ _ _) => [[Rm v'] d'] /= [pR [sZ pW _ _ _]].
rewrite /ltgl_objective tgl_objE' //; congr (Fin (_ + (_ * _ + _ * _))); apply: eq_bigr => t _.
  exact: nucP.
by rewrite stB.
Qed.
End LT.

Section MD.
Local Notation obj := (ltmd_objective nuc S p psi phi).
Local Notation Rup := (ltmd_R_update S).
Lemma ltmd_iter_struct k :
  let s := iter_state (lt_body Rup obj eigh px py p) 0 (lt_init p 0) k.+1 in
  slices (@sym n) (lt_old s).1.1 /\ lt_struct (lt_pr s) (lt_du s).
Proof.
apply: (lt_iter_post psi phi obj He ps fs t0 ti td (P := fun A : stack n m.+1 => slices (@sym n) A)) => //.
- by move=> rho A rp h; have [] := fr_Rspec sS rp h.
- exact: st_sym0.
Qed.
Lemma ltmd_hist_obj c0 k : (forall M, psd M -> nuc M = \tr M) -> lt_compute_objective p ->
  let e := lt_loop Rup obj eigh px py p (lt_init p 0) in
  (k < size (le_checks e))%N ->
  let s := iter_state (lt_body Rup obj eigh px py p) 0 (lt_init p 0) k.+1 in
  c_obj (nth c0 (le_checks e) k) =
  Fin ((\sum_t fnorm2 (S t - (lt_old s).1.1 t))
       + lt_alpha p * (\sum_t l1od (lt_Z0 (lt_pr s) t))
       + lt_tau p * (\sum_t \tr (lt_W0 (lt_pr s) t))
       + lt_beta p * (\sum_t psi ((lt_Z12 (lt_pr s)).2 t - (lt_Z12 (lt_pr s)).1 t))
       + lt_eta p * (\sum_t phi ((lt_W12 (lt_pr s)).2 t - (lt_W12 (lt_pr s)).1 t))).
Proof.
move=> nucP co e; rewrite {}/e /lt_loop => ke; rewrite (py_for_nth c0 ke).
have := ltmd_iter_struct k; rewrite /= add0n; move: (iter_state _ _ _ _) => s.
rewrite lt_body_obj co; have [rho' [c [_ -> _]]] := lt_body_state eigh px py p Rup obj k s.
case: (lt_updates _ _ _ _ _ _ _ _) => [[Rm v'] d'] /= [pR [sZ pW _ _ _]].
rewrite /ltmd_objective; congr (Fin (_ + _ * _ + _ * _ + _ * _ + _ * _)); apply: eq_bigr => t _.
- by rewrite stB.
- exact: l1_od_normE.
- exact: nucP.
- by rewrite stB.
- by rewrite stB.
Qed.
End MD.
End Top.
