(** Kernel time graphical lasso: recorded objective and time reversal. *)
From Coq Require Import Reals Lra Psatz.
From mathcomp Require Import all_ssreflect all_algebra.
From Verif Require Import RStruct RTac LinTac Spectral S_Mat RMx ADMM NP M_Prox S_Prox P_Eigh.
From Verif Require Import P_Prox P_Prox2 P_Rules M_Loop P_Loop M_GL S_GL P_GL P_GL2 M_LGL P_LGL.
From Verif Require Import M_TGL S_TGL P_TGL P_TGL2 P_Admm P_TGL3 HB P_TGL4 P_TGL5.
From Verif Require Import M_KTGL S_KTGL P_KTGL P_KTGL2 P_KTGL3.
Import Order.TTheory GRing.Theory Num.Theory.

Set Implicit Arguments.
Unset Strict Implicit.
Unset Printing Implicit Defensive.
Local Open Scope ring_scope.

(** * documented penalty *)
Lemma kernel_l1_not_od n m (S : stack n m.+1) ns (psi : 'M[R]_n -> R) alpha w K (i : 'I_n) :
  slices (@sym n) S -> (forall t, 0 < ns t) -> 0 < alpha ->
  minimiser (fun K : stack n m.+1 => slices (@pd n) K) (fun K => kernel_obj (@l1 n n) psi ns S alpha w K) K ->
  ~ minimiser (fun K : stack n m.+1 => slices (@pd n) K) (fun K => kernel_obj (@l1od n) psi ns S alpha w K) K.
Proof.
move=> sS ns0 a0.
apply: (@l1_not_od_gen _ _ _ _ (fun K => \sum_(s < m.+1) \sum_(t < m.+1 | (s < t)%N) w s t * psi (K t - K s))) => //.
move=> X D; apply: eq_bigr => s _; apply: eq_bigr => t _; rewrite !ffunE.
by congr (_ * psi _); rewrite opprD addrACA subrr addr0.
Qed.

(** * the recorded objective *)
Definition kwith_alpha T (p : ktgl_params T) (a : R) : ktgl_params T :=
  KTGLParams a (ktgl_rho0 p) (ktgl_kernel p) (ktgl_max_iter p) (ktgl_tol p) (ktgl_rtol p)
    (ktgl_return_history p) (ktgl_return_n_iter p) (ktgl_compute_objective p) (ktgl_stop_at p)
    (ktgl_stop_when p) (ktgl_rho_options p).

Section KTGLobj.
Variables (n m : nat) (eigh : eigh_t n.+1) (psi : 'M[R]_n.+1 -> R) (prox : 'M[R]_n.+1 -> R -> 'M[R]_n.+1).
Variable (pinvh : 'M[R]_n.+1 -> 'M[R]_n.+1).
Variables (S : stack n.+1 m.+1) (ns : 'I_m.+1 -> R) (p : ktgl_params m.+1) (init : init_mode3 n.+1 m.+1).
Hypothesis He : eigh_ok eigh.
Hypothesis sS : slices (@sym n.+1) S.
Hypothesis ns0 : forall t, 0 < ns t.
Hypothesis r0 : 0 < ktgl_rho0 p.

Lemma tgl_lossE (K : stack n.+1 m.+1) : slices (@pd n.+1) K ->
  tgl_loss S K (Some ns) = Fin (\sum_t ns t * (\tr (S t *m K t) - ln (\det (K t)))).
Proof.
move=> pK; rewrite /tgl_loss /=.
elim/big_rec2: _ => // t y1 y2 _ ->; rewrite /log_likelihood /fast_logdet pd_det_gt0 //= tr_fdot //.
by congr (Fin (_ + _)); rewrite mulNr -mulrN opprB.
Qed.

Lemma ktgl_obj_bad : ktgl_compute_objective p -> ktgl_return_history p -> (0 < ktgl_max_iter p)%N ->
  exists a, 0 < a /\ forall r,
    kernel_time_graphical_lasso eigh pinvh psi prox S (Some ns) (kwith_alpha p a) init = Ok r ->
    let s := iter_state (ktgl_body eigh psi prox S ns (kwith_alpha p a)) 0
      (ktgl_init pinvh S (kwith_alpha p a) init) 1 in
    [/\ slices (@pd n.+1) (ktgl_K s),
      exists v, ktgl_objective ns S (ktgl_K s) (ktgl_Z s).1.1 (ktgl_Z s).1.2 (ktgl_Z s).2 a (kernel_of p) psi = Fin v &
      exists h c0, ktgl_history r = Some h /\ c_obj (nth c0 h 1) = PInf].
Proof.
move=> co rh m0.
pose K := ktgl_K_update eigh S ns (ktgl_rho0 p) (kcopies (init_precision3 pinvh S init)) 0.
pose M := \sum_t \sum_i \sum_j `|K t i j|.
have M0 : 0 <= M by do 3!(apply: sumr_ge0 => ? _).
have KM t i j : `|K t i j| <= M.
  have one (I : finType) (F : I -> R) k : (forall x, 0 <= F x) -> F k <= \sum_x F x.
    by move=> F0; rewrite (bigD1 k) //= ler_addl; apply: sumr_ge0.
  apply: le_trans (one _ (fun j => `|K t i j|) j _) _ => //.
  apply: le_trans (one _ (fun i => \sum_j `|K t i j|) i _) _; first by move=> x; apply: sumr_ge0.
  apply: (one _ (fun t => \sum_i \sum_j `|K t i j|) t) => x.
  by do 2!(apply: sumr_ge0 => ? _).
exists (ktgl_rho0 p * (M + 1)); split; first by apply: mulr_gt0 => //; rewrite ltr_spaddr.
set a := ktgl_rho0 p * _ => r hr.
have pK : slices (@pd n.+1) K by apply: ktgl_K_pd.
have sb : out_state (ktgl_body eigh psi prox S ns (kwith_alpha p a) 0 (ktgl_init pinvh S (kwith_alpha p a) init)).1 =
   iter_state (ktgl_body eigh psi prox S ns (kwith_alpha p a)) 0 (ktgl_init pinvh S (kwith_alpha p a) init) 1 by [].
have [rho' [c [_ es _]]] := ktgl_body_state eigh psi prox S ns (kwith_alpha p a) 0 (ktgl_init pinvh S (kwith_alpha p a) init).
move=> s; have eKs : ktgl_K s = K by rewrite /s -sb es.
have eZ0 : (ktgl_Z s).1.1 = 0.
  rewrite /s -sb es /= -/K; apply/ffunP => t; rewrite ffunE; apply/matrixP => i j.
  have sK : K t = (K t)^T by have := pd_sym (pK t).
  have -> : symmetrise (K t + (0 : ktriple n.+1 m.+1).1.1 t) = K t.
    rewrite [(0 : ktriple _ _).1.1 t]ffunE addr0 /symmetrise -sK.
    by move: (K t) => X; lin.
  rewrite !mxE /soft1; have al : a / ktgl_rho0 p = M + 1 by rewrite /a mulrC mulKf // lt0r_neq0.
  rewrite al; suff -> : np_max (`|K t i j| - (M + 1)) 0 = 0 by rewrite mulr0 ?ffunE ?mxE.
  rewrite /np_max; case: ifP => // /negbT; rewrite -leNgt subr_ge0 => h.
  have := le_trans h (KM t i j); rewrite -[X in _ <= X]addr0 ler_add2l.
  by rewrite leNgt ltr01.
split; first by rewrite eKs.
  by rewrite /ktgl_objective tgl_lossE ?eKs //; eexists; reflexivity.
have [_ [c1 h1] _ _] := ktgl_call hr; rewrite rh in h1; rewrite h1.
exists (c1 :: le_checks (ktgl_loop eigh psi prox S ns (kwith_alpha p a) (ktgl_init pinvh S (kwith_alpha p a) init))), c1.
split=> //.
have sz : (0 < size (le_checks (ktgl_loop eigh psi prox S ns (kwith_alpha p a) (ktgl_init pinvh S (kwith_alpha p a) init))))%N.
  by have [_ h _ _] := py_for_count (ktgl_body eigh psi prox S ns (kwith_alpha p a)) (ktgl_max_iter p) (ktgl_init pinvh S (kwith_alpha p a) init); apply: h.
rewrite /ktgl_loop in sz *; rewrite [nth _ _ _](py_for_nth c1 sz) ktgl_body_check /ktgl_check co.
have := es; rewrite -[X in X = _]/s.
case E: (ktgl_updates _ _ _ _ _ _ _ _) => [[K1 Z1] U1] /= e1.
have eZ1 : Z1.1.1 = 0 by rewrite -eZ0 e1.
rewrite eZ1 /ktgl_objective.
suff -> : tgl_loss S 0 (Some ns) = PInf by [].
rewrite /tgl_loss /= (eq_bigr (fun=> PInf)) => [|t _]; last first.
  rewrite /log_likelihood /fast_logdet ffunE det0 ltxx /= /xinfmul.
  by rewrite oppr_eq0 (gt_eqF (ns0 t)) oppr_gt0 ltNge ltW.
by rewrite big_ord_recl; elim/big_rec: _ => //= i x _ ->.
Qed.
End KTGLobj.

(** * time reversal *)
Section Rev.
Variables n T : nat.
Lemma rev_pairP (e : tpair T) : (rev_ord (t_r e) < rev_ord (t_l e))%N.
Proof.
rewrite /= ltn_sub2l //; last by rewrite ltnS; exact: (valP e).
by apply: leq_ltn_trans (ltn_ord (t_r e)); exact: (valP e).
Qed.
Definition rev_pair (e : tpair T) : tpair T :=
  exist _ (rev_ord (t_r e), rev_ord (t_l e)) (rev_pairP e).
Lemma rev_pairK : involutive rev_pair.
Proof. by move=> e; apply: val_inj; rewrite /= !rev_ordK; case: e => -[]. Qed.
Lemma t_l_rev e : t_l (rev_pair e) = rev_ord (t_r e). Proof. by []. Qed.
Lemma t_r_rev e : t_r (rev_pair e) = rev_ord (t_l e). Proof. by []. Qed.
Lemma sum_rev_pair (V : zmodType) (P : pred (tpair T)) (F : tpair T -> V) :
  \sum_(e | P (rev_pair e)) F (rev_pair e) = \sum_(e | P e) F e.
Proof. by rewrite [RHS](reindex_inj (inv_inj rev_pairK)). Qed.

Definition revE (X : edges n T) : edges n T := [ffun e => X (rev_pair e)].
Lemma revED X Y : revE (X + Y) = revE X + revE Y. Proof. by apply/ffunP => t; rewrite !ffunE. Qed.
Lemma revEN X : revE (- X) = - revE X. Proof. by apply/ffunP => t; rewrite !ffunE. Qed.
Lemma revEZ a X : revE (a *: X) = a *: revE X. Proof. by apply/ffunP => t; rewrite !ffunE. Qed.
Definition revK (Z : ktriple n T) : ktriple n T := (revT Z.1.1, revE Z.2, revE Z.1.2).
Lemma revKD Z U : revK (Z + U) = revK Z + revK U.
Proof. by rewrite /revK !ktriD revTD !revED. Qed.
Lemma revKN Z : revK (- Z) = - revK Z.
Proof. by rewrite /revK !ktriN revTN !revEN. Qed.
Lemma revKZ a Z : revK (a *: Z) = a *: revK Z.
Proof. by rewrite /revK !ktriZ revTZ !revEZ. Qed.
Lemma revK0 : revK 0 = 0.
Proof. by rewrite -[X in revK X](subrr 0) revKD revKN subrr. Qed.
Lemma lefts_rev (K : stack n T) : lefts (revT K) = revE (rights K).
Proof. by apply/ffunP => e; rewrite !ffunE t_r_rev. Qed.
Lemma rights_rev (K : stack n T) : rights (revT K) = revE (lefts K).
Proof. by apply/ffunP => e; rewrite !ffunE t_l_rev. Qed.
Lemma kcopies_rev (K : stack n T) : kcopies (revT K) = revK (kcopies K).
Proof. by rewrite /kcopies /revK /= lefts_rev rights_rev. Qed.
Lemma kBt_rev (D : ktriple n T) :
  add_rights (add_lefts (revK D).1.1 (revK D).1.2) (revK D).2
  = revT (add_rights (add_lefts D.1.1 D.1.2) D.2).
Proof.
apply/ffunP => t; rewrite !ffunE /= -!addrA; congr (_ + _).
rewrite addrC; congr (_ + _).
- rewrite -(sum_rev_pair (fun e => t_l e == rev_ord t) D.1.2).
  apply: eq_big => e; last by rewrite ffunE.
  by rewrite t_l_rev (inj_eq rev_ord_inj).
- rewrite -(sum_rev_pair (fun e => t_r e == rev_ord t) D.2).
  apply: eq_big => e; last by rewrite ffunE.
  by rewrite t_r_rev (inj_eq rev_ord_inj).
Qed.
Lemma ksqnorm_rev (Z : ktriple n T) : ktriple_sqnorm (revK Z) = ktriple_sqnorm Z.
Proof.
have h X : edges_sqnorm (revE X) = edges_sqnorm X.
  rewrite /edges_sqnorm -[RHS](sum_rev_pair xpredT); by apply: eq_bigr => t _; rewrite ffunE.
rewrite /ktriple_sqnorm /revK /= !h addrAC; congr (_ + _ + _).
by rewrite /stack_sqnorm -[RHS]sum_rev; apply: eq_bigr => t _; rewrite ffunE.
Qed.
End Rev.

Section Reversal.
Variables (n T : nat) (eigh : eigh_t n) (psi : 'M[R]_n -> R) (prox : 'M[R]_n -> R -> 'M[R]_n).
Hypothesis psi_even : forall x, psi (- x) = psi x.
Hypothesis prox_odd : forall x lam, prox (- x) lam = - prox x lam.
Variables (S : stack n T) (ns : 'I_T -> R) (p p' : ktgl_params T).
Hypothesis hp : [/\ ktgl_alpha p' = ktgl_alpha p, ktgl_rho0 p' = ktgl_rho0 p,
  ktgl_max_iter p' = ktgl_max_iter p, ktgl_tol p' = ktgl_tol p & ktgl_rtol p' = ktgl_rtol p].
Hypothesis hp2 : [/\ ktgl_return_history p' = ktgl_return_history p,
  ktgl_return_n_iter p' = ktgl_return_n_iter p, ktgl_compute_objective p' = ktgl_compute_objective p,
  ktgl_stop_at p' = ktgl_stop_at p & ktgl_stop_when p' = ktgl_stop_when p].
Hypothesis hp3 : ktgl_rho_options p' = ktgl_rho_options p.
Hypothesis hk : forall s t : 'I_T, (s < t)%N -> kernel_of p' s t = kernel_of p (rev_ord t) (rev_ord s).
Local Notation rS := (revT S).
Local Notation rns := (fun t : 'I_T => ns (rev_ord t)).

Lemma hke e : kernel_of p' (t_l e) (t_r e) = kernel_of p (t_l (rev_pair e)) (t_r (rev_pair e)).
Proof. by rewrite hk //; exact: (valP e). Qed.

Lemma kpair_rev (A1 A2 : 'M[R]_n) beta rho :
  pair_update prox A2 A1 beta rho = ((pair_update prox A1 A2 beta rho).2, (pair_update prox A1 A2 beta rho).1).
Proof.
rewrite /pair_update /= -(opprB A2 A1) prox_odd.
move: (prox _ _) => e; congr pair; congr (_ *: _); lin.
Qed.

Lemma kedge_rev rho (X Y : edges n T) :
  ktgl_edge_update prox (kernel_of p') rho (revE Y) (revE X) =
   (revE (ktgl_edge_update prox (kernel_of p) rho X Y).2, revE (ktgl_edge_update prox (kernel_of p) rho X Y).1).
Proof.
by congr pair; apply/ffunP => e; rewrite !ffunE hke; rewrite -?/(pair_update _ _ _ _ _) (kpair_rev (X _)).
Qed.

Lemma kupdates_rev rho (Z U : ktriple n T) K Z' U' :
  ktgl_updates eigh prox S ns p rho Z U = (K, Z', U') ->
  ktgl_updates eigh prox rS rns p' rho (revK Z) (revK U) = (revT K, revK Z', revK U').
Proof.
case: hp => ea _ _ _ _.
move=> [eK eZ <-]; rewrite eK in eZ *; rewrite /ktgl_updates.
have -> : ktgl_K_update eigh rS rns rho (revK Z) (revK U) = revT K.
  rewrite -eK /ktgl_K_update -revKN -revKD kBt_rev; apply/ffunP => t.
  by rewrite [add_rights]lock !ffunE -lock.
have -> : [ffun t => soft_thresholding (symmetrise (revT K t + (revK U).1.1 t)) (ktgl_alpha p' / rho)] =
  revT [ffun t => soft_thresholding (symmetrise (K t + U.1.1 t)) (ktgl_alpha p / rho)].
  by apply/ffunP => t; rewrite !ffunE ea.
have -> : ktgl_edge_update prox (kernel_of p') rho (lefts (revT K) + (revK U).1.2) (rights (revT K) + (revK U).2) =
   (revE (ktgl_edge_update prox (kernel_of p) rho (lefts K + U.1.2) (rights K + U.2)).2,
    revE (ktgl_edge_update prox (kernel_of p) rho (lefts K + U.1.2) (rights K + U.2)).1).
  by rewrite lefts_rev rights_rev -!revED kedge_rev.
rewrite -eZ revKD revKD revKN kcopies_rev.
by congr (_, _, _).
Qed.

Lemma kobjective_rev (K Z0 : stack n T) Z1 Z2 :
  ktgl_objective rns rS (revT K) (revT Z0) (revE Z2) (revE Z1) (ktgl_alpha p') (kernel_of p') psi =
  ktgl_objective ns S K Z0 Z1 Z2 (ktgl_alpha p) (kernel_of p) psi.
Proof.
case: hp => -> _ _ _ _.
rewrite /ktgl_objective; congr (xadd (xadd _ (Fin (_ * _))) (Fin _)).
- rewrite /tgl_loss /= [RHS](reindex_inj rev_ord_inj) /=.
  by apply: eq_bigr => t _; rewrite !ffunE.
- rewrite -[RHS]sum_rev; by apply: eq_bigr => t _; rewrite ffunE.
- rewrite -[RHS](sum_rev_pair xpredT); apply: eq_bigr => e _; rewrite hke !ffunE.
  by rewrite -(opprB (Z2 _)) psi_even.
Qed.

Local Opaque ktgl_updates.
Definition krev_state (s s' : ktgl_state n T) : Prop :=
  [/\ ktgl_Z s' = revK (ktgl_Z s), ktgl_U s' = revK (ktgl_U s), ktgl_Zold s' = revK (ktgl_Zold s),
      ktgl_rho s' = ktgl_rho s & ktgl_K s' = revT (ktgl_K s)].

Lemma kbody_rev j s s' : krev_state s s' ->
  let b := ktgl_body eigh psi prox S ns p j s in let b' := ktgl_body eigh psi prox rS rns p' j s' in
  [/\ b.2 = b'.2, is_break b.1 = is_break b'.1 & krev_state (out_state b.1) (out_state b'.1)].
Proof.
move=> [eZ eU eo er eK] b b'; rewrite {}/b {}/b' /ktgl_body eZ eU eo er.
case E: (ktgl_updates _ _ S _ _ _ _ _) => [[K Z] U]; rewrite (kupdates_rev E).
rewrite -!revKN kcopies_rev -!revKD !ksqnorm_rev [(revK Z).1.1]/= [(revK Z).1.2]/= [(revK Z).2]/=.
rewrite kobjective_rev hp3; case: hp => _ _ _ -> ->; case: hp2 => _ _ -> -> ->.
set c := {| c_obj := _ |}; set o := (if ktgl_compute_objective p then _ else _).
set r' := update_rho _ _ _ _.
case: (stop_at_test o (ktgl_stop_at p) (ktgl_stop_when p)).
  by split=> //; split.
case: (stop_test c); first by split=> //; split.
by split=> //; split=> //=; rewrite revKZ.
Qed.

Lemma krev_call pinvh pinvh' init init' :
  init_precision3 pinvh' rS init' = revT (init_precision3 pinvh S init) ->
  (forall M, pinvh' M = pinvh M) ->
  match kernel_time_graphical_lasso eigh pinvh psi prox S (Some ns) p init,
        kernel_time_graphical_lasso eigh pinvh' psi prox rS (Some rns) p' init' with
  | Ok r, Ok r' => [/\ ktgl_precision r' = revT (ktgl_precision r), ktgl_covariance r' = revT (ktgl_covariance r),
      ktgl_history r' = ktgl_history r, ktgl_n_iter r' = ktgl_n_iter r & ktgl_warned r' = ktgl_warned r]
  | UnboundLocalError, UnboundLocalError => True
  | _, _ => False
  end.
Proof.
move=> ei epi; have [_ er em _ _] := hp; have [eh en _ _ _] := hp2.
have h : krev_state (ktgl_init pinvh S p init) (ktgl_init pinvh' rS p' init').
  by split=> //=; rewrite ?revK0 ?ei ?kcopies_rev.
have [h1 h2 h3 h4] := py_for_sim kbody_rev (ktgl_max_iter p) 0 [::] None h.
rewrite /kernel_time_graphical_lasso /ktgl_loop em eh en -h2 -h3 -h4 /= ei lefts_rev rights_rev kobjective_rev.
case: h1 => -> _ _ _ _.
have ec (Z : stack n T) : [ffun t => pinvh' (revT Z t)] = revT [ffun t => pinvh (Z t)] :> stack n T.
  by apply/ffunP => t; rewrite !ffunE epi.
case: (ktgl_return_n_iter p); last by split=> //=; rewrite ec.
by case: (le_iter _) => // it; split=> //=; rewrite ec.
Qed.
End Reversal.
