(** Time graphical lasso: time reversal, and the recorded objective. *)
From Coq Require Import Reals Lra Psatz.
From mathcomp Require Import all_ssreflect all_algebra.
From Verif Require Import RStruct RTac LinTac Spectral S_Mat RMx ADMM NP M_Prox S_Prox P_Eigh.
From Verif Require Import P_Prox P_Prox2 P_Rules M_Loop P_Loop M_GL S_GL P_GL P_GL2 M_LGL P_LGL.
From Verif Require Import M_TGL S_TGL P_TGL P_TGL2 P_TGL3.
Import Order.TTheory GRing.Theory Num.Theory.

Set Implicit Arguments.
Unset Strict Implicit.
Unset Printing Implicit Defensive.
Local Open Scope ring_scope.

Lemma xaddA : associative xadd.
Proof. by move=> [a| | |] [b| | |] [c| | |] //=; rewrite addrA. Qed.
Lemma xaddC : commutative xadd.
Proof. by move=> [a| | |] [b| | |] //=; rewrite addrC. Qed.
Lemma xadd0 : left_id (Fin 0) xadd.
Proof. by move=> [a| | |] //=; rewrite add0r. Qed.
Lemma xaddr0 : right_id (Fin 0) xadd.
Proof. by move=> [a| | |] //=; rewrite addr0. Qed.
Canonical xadd_monoid := Monoid.Law xaddA xadd0 xaddr0.
Canonical xadd_comoid := Monoid.ComLaw xaddC.

Section Rev.
Variable n : nat.
Definition revT T (X : stack n T) : stack n T := [ffun t => X (rev_ord t)].
Lemma revTE T (X : stack n T) t : revT X t = X (rev_ord t). Proof. by rewrite ffunE. Qed.
Lemma revTD T (X Y : stack n T) : revT (X + Y) = revT X + revT Y.
Proof. by apply/ffunP => t; rewrite !ffunE. Qed.
Lemma revTN T (X : stack n T) : revT (- X) = - revT X.
Proof. by apply/ffunP => t; rewrite !ffunE. Qed.
Lemma revTB T (X Y : stack n T) : revT (X - Y) = revT X - revT Y.
Proof. by rewrite revTD revTN. Qed.
Lemma revTZ T a (X : stack n T) : revT (a *: X) = a *: revT X.
Proof. by apply/ffunP => t; rewrite !ffunE. Qed.
Lemma revT0 T : revT (0 : stack n T) = 0.
Proof. by apply/ffunP => t; rewrite !ffunE. Qed.

Lemma rev_lift0 m (t : 'I_m) : rev_ord (lift ord0 t) = lift ord_max (rev_ord t).
Proof. by apply: ord_inj; rewrite lift_max /= /bump /= add1n. Qed.
Lemma rev_lift_max m (t : 'I_m) : rev_ord (lift ord_max t) = lift ord0 (rev_ord t).
Proof. by apply: rev_ord_inj; rewrite rev_lift0 !rev_ordK. Qed.
Lemma rev_max m : rev_ord (@ord_max m) = ord0.
Proof. by apply: val_inj; rewrite /= subnn. Qed.
Lemma rev_0 m : rev_ord (@ord0 m) = ord_max.
Proof. by rewrite -rev_max rev_ordK. Qed.

Lemma but_last_rev m (K : stack n m.+1) : but_last (revT K) = revT (but_first K).
Proof. by apply/ffunP => t; rewrite !ffunE rev_lift_max. Qed.
Lemma but_first_rev m (K : stack n m.+1) : but_first (revT K) = revT (but_last K).
Proof. by apply/ffunP => t; rewrite !ffunE rev_lift0. Qed.

Definition revW m (Z : triple n m) : triple n m := (revT Z.1.1, revT Z.2, revT Z.1.2).
Lemma revWD m (Z U : triple n m) : revW (Z + U) = revW Z + revW U.
Proof. by rewrite /revW !triD !revTD. Qed.
Lemma revWN m (Z : triple n m) : revW (- Z) = - revW Z.
Proof. by rewrite /revW !triN !revTN. Qed.
Lemma revWZ m a (Z : triple n m) : revW (a *: Z) = a *: revW Z.
Proof. by rewrite /revW !triZ !revTZ. Qed.
Lemma revW0 m : revW (0 : triple n m) = 0.
Proof. by rewrite -[X in revW X](subrr 0) revWD revWN subrr. Qed.
Lemma copies_rev m (K : stack n m.+1) : copies (revT K) = revW (copies K).
Proof. by rewrite /copies /revW /= but_last_rev but_first_rev. Qed.

Lemma unlift0_rev m (t : 'I_m.+1) : unlift ord0 (rev_ord t) = omap (@rev_ord m) (unlift ord_max t).
Proof.
by case: (unliftP ord_max t) => [j|] ->; rewrite ?rev_max ?unlift_none // rev_lift_max liftK.
Qed.
Lemma unlift_max_rev m (t : 'I_m.+1) : unlift ord_max (rev_ord t) = omap (@rev_ord m) (unlift ord0 t).
Proof.
by case: (unliftP ord0 t) => [j|] ->; rewrite ?rev_0 ?unlift_none // rev_lift0 liftK.
Qed.
Lemma Bt_rev m (D : triple n m) :
  add_but_first (add_but_last (revW D).1.1 (revW D).1.2) (revW D).2
  = revT (add_but_first (add_but_last D.1.1 D.1.2) D.2).
Proof.
apply/ffunP => t; rewrite [add_but_first]lock !ffunE -lock; rewrite !ffunE unlift0_rev unlift_max_rev /=.
rewrite -!addrA; congr (_ + _); rewrite addrC.
by congr (_ + _); [case: (unlift ord0 t) | case: (unlift ord_max t)] => //= j; rewrite ffunE.
Qed.
Lemma divisor_rev m (t : 'I_m.+1) : divisor (rev_ord t) = divisor t.
Proof.
have e1 : (rev_ord t == ord0) = (t == ord_max) by rewrite -(inj_eq rev_ord_inj) rev_ordK rev_0.
have e2 : (rev_ord t == ord_max) = (t == ord0) by rewrite -(inj_eq rev_ord_inj) rev_ordK rev_max.
rewrite /divisor e1 e2.
by rewrite addrAC.
Qed.
Lemma sum_rev T (F : 'I_T -> R) : \sum_t F (rev_ord t) = \sum_t F t.
Proof. by rewrite [RHS](reindex_inj rev_ord_inj). Qed.
Lemma sqnorm_rev m (Z : triple n m) : triple_sqnorm (revW Z) = triple_sqnorm Z.
Proof.
have h T (X : stack n T) : stack_sqnorm (revT X) = stack_sqnorm X.
  rewrite /stack_sqnorm -[RHS]sum_rev; by apply: eq_bigr => t _; rewrite ffunE.
by rewrite /triple_sqnorm /revW /= !h addrAC.
Qed.
End Rev.

Section Reversal.
Variables (n m : nat) (eigh : eigh_t n) (psi : 'M[R]_n -> R) (prox : 'M[R]_n -> R -> 'M[R]_n).
Hypothesis psi_even : forall x, psi (- x) = psi x.
Hypothesis prox_odd : forall x lam, prox (- x) lam = - prox x lam.
Variables (S : stack n m.+1) (ns : 'I_m.+1 -> R) (p : tgl_params).
Local Notation px := (PsiPlain psi prox).
Local Notation rS := (revT S).
Local Notation rns := (fun t : 'I_m.+1 => ns (rev_ord t)).

Lemma pair_rev (A1 A2 : 'M[R]_n) beta rho :
  pair_update prox A2 A1 beta rho = ((pair_update prox A1 A2 beta rho).2, (pair_update prox A1 A2 beta rho).1).
Proof.
rewrite /pair_update /= -(opprB A2 A1) prox_odd.
move: (prox _ _) => e; congr pair; congr (_ *: _); lin.
Qed.

Lemma updates_rev rho (Z U : triple n m) K Z' U' :
  tgl_updates eigh px S ns p rho Z U = (K, Z', U') ->
  tgl_updates eigh px rS rns p rho (revW Z) (revW U) = (revT K, revW Z', revW U').
Proof.
move=> [eK eZ <-]; rewrite eK in eZ *; rewrite /tgl_updates.
have -> : tgl_K_update eigh rS rns rho (revW Z) (revW U) = revT K.
  rewrite -eK /tgl_K_update -revWN -revWD Bt_rev; apply/ffunP => t.
  by rewrite [add_but_first]lock !ffunE -lock divisor_rev.
have -> : tgl_Z0_update (tgl_alpha p) rho (revT K) (revW U).1.1 =
  revT (tgl_Z0_update (tgl_alpha p) rho K U.1.1) by apply/ffunP => t; rewrite !ffunE.
have -> : tgl_pair_update px p rho (but_last (revT K) + (revW U).1.2) (but_first (revT K) + (revW U).2) =
   (revT (tgl_pair_update px p rho (but_last K + U.1.2) (but_first K + U.2)).2,
    revT (tgl_pair_update px p rho (but_last K + U.1.2) (but_first K + U.2)).1).
  rewrite but_last_rev but_first_rev -!revTD /tgl_pair_update.
  congr pair; apply/ffunP => t.
  - by rewrite revTE [LHS]ffunE [RHS]ffunE !revTE pair_rev.
  - by rewrite revTE [LHS]ffunE [RHS]ffunE !revTE pair_rev.
rewrite -eZ revWD revWD revWN copies_rev.
by congr (_, _, _).
Qed.

Lemma objective_rev (K Z0 : stack n m.+1) Z1 Z2 :
  tgl_objective rns rS (revT K) (revT Z0) (revT Z2) (revT Z1) (tgl_alpha p) (tgl_beta p) psi =
  tgl_objective ns S K Z0 Z1 Z2 (tgl_alpha p) (tgl_beta p) psi.
Proof.
rewrite /tgl_objective; congr (xadd (xadd _ (Fin (_ * _))) (Fin (_ * _))).
- rewrite /tgl_loss /= [RHS](reindex_inj rev_ord_inj) /=.
  by apply: eq_bigr => t _; rewrite !ffunE.
- rewrite -[RHS]sum_rev; by apply: eq_bigr => t _; rewrite ffunE.
- rewrite -[RHS]sum_rev; apply: eq_bigr => t _; rewrite !stB !revTE.
  by rewrite -(opprB (Z2 _)) psi_even.
Qed.

Local Opaque tgl_updates.
Definition rev_state (s s' : tgl_state n m) : Prop :=
  [/\ tgl_Z s' = revW (tgl_Z s), tgl_U s' = revW (tgl_U s), tgl_Zold s' = revW (tgl_Zold s),
      tgl_rho s' = tgl_rho s & tgl_K s' = revT (tgl_K s)].

Lemma body_rev j s s' : rev_state s s' ->
  let b := tgl_body eigh px S ns p j s in let b' := tgl_body eigh px rS rns p j s' in
  [/\ b.2 = b'.2, is_break b.1 = is_break b'.1 & rev_state (out_state b.1) (out_state b'.1)].
Proof.
move=> [eZ eU eo er eK] b b'; rewrite {}/b {}/b' /tgl_body eZ eU eo er.
case E: (tgl_updates _ _ S _ _ _ _ _) => [[K Z] U]; rewrite (updates_rev E).
rewrite -!revWN copies_rev -!revWD !sqnorm_rev [(revW Z).1.1]/= [(revW Z).1.2]/= [(revW Z).2]/=.
rewrite /psi_norm objective_rev.
set c := {| c_obj := _ |}; set o := (if tgl_compute_objective p then _ else _).
set r' := update_rho _ _ _ _.
case: (stop_at_test o (tgl_stop_at p) (tgl_stop_when p)).
  by split=> //; split.
case: (stop_test c); first by split=> //; split.
by split=> //; split=> //=; rewrite revWZ.
Qed.

Lemma rev_call pinvh pinvh' init init' :
  init_precision3 pinvh' rS init' = revT (init_precision3 pinvh S init) ->
  (forall M, pinvh' M = pinvh M) ->
  match time_graphical_lasso eigh pinvh px S (Some ns) p init,
        time_graphical_lasso eigh pinvh' px rS (Some rns) p init' with
  | Ok r, Ok r' => [/\ tgl_precision r' = revT (tgl_precision r), tgl_covariance r' = revT (tgl_covariance r),
      tgl_history r' = tgl_history r, tgl_n_iter r' = tgl_n_iter r & tgl_warned r' = tgl_warned r]
  | UnboundLocalError, UnboundLocalError => True
  | _, _ => False
  end.
Proof.
move=> ei epi.
have h : rev_state (tgl_init pinvh S p init) (tgl_init pinvh' rS p init').
  by split=> //=; rewrite ?revW0 ?copies_rev ?ei ?copies_rev.
have [h1 h2 h3 h4] := py_for_sim body_rev (tgl_max_iter p) 0 [::] None h.
rewrite /time_graphical_lasso /tgl_loop -h2 -h3 -h4 /= ei but_last_rev but_first_rev objective_rev.
case: h1 => -> _ _ _ _.
have ec (Z : stack n m.+1) : [ffun t => pinvh' (revT Z t)] = revT [ffun t => pinvh (Z t)] :> stack n m.+1.
  by apply/ffunP => t; rewrite !ffunE epi.
case: (tgl_return_n_iter p); last by split=> //=; rewrite ec.
by case: (le_iter _) => // it; split=> //=; rewrite ec.
Qed.
End Reversal.

(** * the recorded objective *)
Lemma py_for_nth S C (body : nat -> S -> outcome S * C) todo st c0 k :
  let e := py_for body todo 0 st [::] None in (k < size (le_checks e))%N ->
  nth c0 (le_checks e) k = (body k (iter_state body 0 st k)).2.
Proof.
have [k' [_ _ hc _ _]] := py_forP body todo 0 st [::] None; rewrite /= hc /= size_map size_iota => kk.
by rewrite (nth_map 0%N) ?size_iota // nth_iota // add0n.
Qed.

Lemma gl_objE n (S K Z : 'M[R]_n) alpha : sym S -> pd K -> 0 <= alpha ->
  gl_objective S K Z alpha = Fin (gl_obj2 S alpha K Z).
Proof.
move=> sS pK a0; rewrite /gl_objective /logl /fast_logdet pd_det_gt0 //= /gl_obj2 tr_fdot //.
by rewrite l1_od_normE l1odZ // opprD opprK (addrC (- _)).
Qed.

Section GLobj.
Variables (n : nat) (eigh : eigh_t n) (pinvh : 'M[R]_n -> 'M[R]_n) (S : 'M[R]_n) (p : gl_params) (init : init_mode n).
Hypothesis He : eigh_ok eigh.
Hypothesis sS : sym S.
Hypothesis r0 : 0 < gl_rho0 p.
Hypothesis ti : 0 < tau_inc (gl_rho_options p).
Hypothesis td : 0 < tau_dec (gl_rho_options p).
Hypothesis a0 : 0 <= gl_alpha p.
Local Opaque gl_updates.

Lemma gl_hist_obj c0 k : gl_compute_objective p -> gl_over_relax p = 1 \/ sym (init_precision pinvh S init) ->
  let e := gl_loop eigh S p (gl_init pinvh S p init) in (k < size (le_checks e))%N ->
  let s := iter_state (gl_body eigh S p) 0 (gl_init pinvh S p init) k.+1 in
  c_obj (nth c0 (le_checks e) k) = Fin (gl_obj2 S (gl_alpha p) (gl_K s) (gl_Z s)).
Proof.
move=> co si e; rewrite {}/e /gl_loop => ke; rewrite (py_for_nth c0 ke) /= add0n.
set st := gl_init pinvh S p init.
pose I (s : gl_state n) := [/\ 0 < gl_rho s, sym (gl_U s) & gl_over_relax p = 1 \/ sym (gl_Z s)].
have hI : I (iter_state (gl_body eigh S p) 0 st k).
  apply: iter_inv; first by split=> //; apply: sym0.
  move=> j s [rs su sz]; have [rho' [c [rp -> _]]] := gl_body_state eigh S ti td j s.
  have [h1 h2] := gl_sym_gen He sS (gl_alpha p) rs su sz.
  by split=> /=; [apply: rp | apply: symZ | right].
move: hI; move: (iter_state _ _ _ _) => s [rs su sz]; rewrite /gl_body co.
case E: (gl_updates _ _ _ _ _ _ _) => [[K Z] U] /=.
have pK : pd K by have := gl_K_pd He sS (gl_alpha p) (gl_over_relax p) (gl_Z s) (gl_U s) rs; rewrite E.
set c := {| c_obj := _ |}.
by case: (stop_test c) => /=; apply: gl_objE.
Qed.
End GLobj.

Section LGLobj.
Variables (n : nat) (eigh : eigh_t n) (nuc : 'M[R]_n -> R) (pinvh : 'M[R]_n -> 'M[R]_n) (S : 'M[R]_n).
Variables (p : lgl_params) (init : init_mode n).
Hypothesis He : eigh_ok eigh.
Hypothesis sS : sym S.
Hypothesis nucP : forall M, psd M -> nuc M = \tr M.
Hypothesis r0 : 0 < lgl_rho0 p.
Hypothesis ti : 0 < tau_inc (lgl_rho_options p).
Hypothesis td : 0 < tau_dec (lgl_rho_options p).
Hypothesis a0 : 0 <= lgl_alpha p.
Hypothesis tau0 : 0 <= lgl_tau p.
Local Opaque lgl_updates.

Lemma lgl_hist_obj c0 k : lgl_compute_objective p ->
  let e := lgl_loop eigh nuc S p (lgl_init pinvh S p init) in (k < size (le_checks e))%N ->
  let s := iter_state (lgl_body eigh nuc S p) 0 (lgl_init pinvh S p init) k.+1 in
  c_obj (nth c0 (le_checks e) k) =
  Fin (\tr (S *m lgl_Rold s) - ln (\det (lgl_Rold s)) + lgl_alpha p * l1od (lgl_K s) + lgl_tau p * \tr (lgl_L s)).
Proof.
move=> co e; rewrite {}/e /lgl_loop => ke; rewrite (py_for_nth c0 ke).
have [pL sU sK pR] := lgl_iter_post nuc pinvh He sS r0 tau0 ti td init k.
move: pL sU sK pR; rewrite /= add0n; move: (iter_state _ _ _ _) => s; rewrite /lgl_body co.
case E: (lgl_updates _ _ _ _ _ _ _ _) => [[[Rm K] L] U].
set c := {| c_obj := _ |}.
by case: (stop_test c) => /=; [|case: (is_pinf _)] => /= pL sU sK pR;
  rewrite /lgl_objective gl_objE //= nucP.
Qed.
End LGLobj.

(** ** time graphical lasso: the likelihood is taken at Z_0 *)
Definition with_alpha (p : tgl_params) (a : R) : tgl_params :=
  TGLParams a (tgl_rho0 p) (tgl_beta p) (tgl_max_iter p) (tgl_tol p) (tgl_rtol p) (tgl_return_history p)
    (tgl_return_n_iter p) (tgl_compute_objective p) (tgl_stop_at p) (tgl_stop_when p) (tgl_rho_options p).

Section TGLobj.
Variables (n m : nat) (eigh : eigh_t n.+1) (px : psi_mode n.+1) (pinvh : 'M[R]_n.+1 -> 'M[R]_n.+1).
Variables (S : stack n.+1 m.+1) (ns : 'I_m.+1 -> R) (p : tgl_params) (init : init_mode3 n.+1 m.+1).
Hypothesis He : eigh_ok eigh.
Hypothesis sS : slices (@sym n.+1) S.
Hypothesis ns0 : forall t, 0 < ns t.
Hypothesis r0 : 0 < tgl_rho0 p.

Lemma tgl_objE (K Z0 : stack n.+1 m.+1) Z1 Z2 alpha beta psi : slices (@pd n.+1) K ->
  tgl_objective ns S K Z0 Z1 Z2 alpha beta psi =
  Fin ((\sum_t ns t * (\tr (S t *m K t) - ln (\det (K t)))) + alpha * (\sum_t l1od (Z0 t))
        + beta * (\sum_t psi (Z2 t - Z1 t))).
Proof.
move=> pK; rewrite /tgl_objective /tgl_loss /=.
have -> : \big[xadd/Fin 0]_t xmul (Fin (- ns t)) (log_likelihood (S t) (K t)) =
  Fin (\sum_t ns t * (\tr (S t *m K t) - ln (\det (K t)))).
  elim/big_rec2: _ => // t y1 y2 _ ->; rewrite /log_likelihood /fast_logdet pd_det_gt0 //= tr_fdot //.
  by congr (Fin (_ + _)); rewrite mulNr -mulrN opprB.
rewrite /=; congr (Fin (_ + _ * _ + _ * _)); apply: eq_bigr => t _; first by rewrite l1_od_normE.
by rewrite stB.
Qed.

Lemma tgl_obj_bad : tgl_compute_objective p -> tgl_return_history p -> (0 < tgl_max_iter p)%N ->
  exists a, 0 < a /\ forall r,
    time_graphical_lasso eigh pinvh px S (Some ns) (with_alpha p a) init = Ok r ->
    let s := iter_state (tgl_body eigh px S ns (with_alpha p a)) 0 (tgl_init pinvh S (with_alpha p a) init) 1 in
    [/\ slices (@pd n.+1) (tgl_K s),
      exists v, tgl_objective ns S (tgl_K s) (tgl_Z s).1.1 (tgl_Z s).1.2 (tgl_Z s).2 a (tgl_beta p) (psi_norm px) = Fin v &
      exists h c0, tgl_history r = Some h /\ c_obj (nth c0 h 1) = PInf].
Proof.
move=> co rh m0.
pose K := tgl_K_update eigh S ns (tgl_rho0 p) (copies (init_precision3 pinvh S init)) 0.
pose M := \sum_t \sum_i \sum_j `|K t i j|.
have M0 : 0 <= M by do 3!(apply: sumr_ge0 => ? _).
have KM t i j : `|K t i j| <= M.
  have one (I : finType) (F : I -> R) k : (forall x, 0 <= F x) -> F k <= \sum_x F x.
    by move=> F0; rewrite (bigD1 k) //= ler_addl; apply: sumr_ge0.
  apply: le_trans (one _ (fun j => `|K t i j|) j _) _ => //.
  apply: le_trans (one _ (fun i => \sum_j `|K t i j|) i _) _; first by move=> x; apply: sumr_ge0.
  apply: (one _ (fun t => \sum_i \sum_j `|K t i j|) t) => x.
  by do 2!(apply: sumr_ge0 => ? _).
exists (tgl_rho0 p * (M + 1)); split; first by apply: mulr_gt0 => //; rewrite ltr_spaddr.
set a := tgl_rho0 p * _ => r hr.
have pK : slices (@pd n.+1) K by apply: tgl_K_pd.
have sb : out_state (tgl_body eigh px S ns (with_alpha p a) 0 (tgl_init pinvh S (with_alpha p a) init)).1 =
   iter_state (tgl_body eigh px S ns (with_alpha p a)) 0 (tgl_init pinvh S (with_alpha p a) init) 1 by [].
have [rho' [c [_ es _]]] := tgl_body_state eigh px S ns (with_alpha p a) 0 (tgl_init pinvh S (with_alpha p a) init).
move=> s; have eKs : tgl_K s = K by rewrite /s -sb es.
have eZ0 : (tgl_Z s).1.1 = 0.
  rewrite /s -sb es /= -/K; apply/ffunP => t; rewrite ffunE; apply/matrixP => i j.
  have sK : K t = (K t)^T by have := pd_sym (pK t).
  have -> : symmetrise (K t + (0 : triple n.+1 m).1.1 t) = K t.
    rewrite [(0 : triple _ _).1.1 t]ffunE addr0 /symmetrise -sK.
    by move: (K t) => X; lin.
  rewrite !mxE /soft1; have al : a / tgl_rho0 p = M + 1 by rewrite /a mulrC mulKf // lt0r_neq0.
  rewrite al; suff -> : np_max (`|K t i j| - (M + 1)) 0 = 0 by rewrite mulr0 ?ffunE ?mxE.
  rewrite /np_max; case: ifP => // /negbT; rewrite -leNgt subr_ge0 => h.
  have := le_trans h (KM t i j); rewrite -[X in _ <= X]addr0 ler_add2l.
  by rewrite leNgt ltr01.
split; first by rewrite eKs.
  by rewrite tgl_objE ?eKs //; eexists; reflexivity.
have [_ [c1 h1] _ _] := tgl_call hr; rewrite rh in h1; rewrite h1.
exists (c1 :: le_checks (tgl_loop eigh px S ns (with_alpha p a) (tgl_init pinvh S (with_alpha p a) init))), c1.
split=> //.
have sz : (0 < size (le_checks (tgl_loop eigh px S ns (with_alpha p a) (tgl_init pinvh S (with_alpha p a) init))))%N.
  by have [_ h _ _] := py_for_count (tgl_body eigh px S ns (with_alpha p a)) (tgl_max_iter p) (tgl_init pinvh S (with_alpha p a) init); apply: h.
rewrite /tgl_loop in sz *; rewrite [nth _ _ _](py_for_nth c1 sz) tgl_body_check /tgl_check co.
have := es; rewrite -[X in X = _]/s.
case E: (tgl_updates _ _ _ _ _ _ _ _) => [[K1 Z1] U1] /= e1.
have eZ1 : Z1.1.1 = 0 by rewrite -eZ0 e1.
rewrite eZ1 /tgl_objective.
suff -> : tgl_loss S 0 (Some ns) = PInf by [].
rewrite /tgl_loss /= (eq_bigr (fun=> PInf)) => [|t _]; last first.
  rewrite /log_likelihood /fast_logdet ffunE det0 ltxx /= /xinfmul.
  by rewrite oppr_eq0 (gt_eqF (ns0 t)) oppr_gt0 ltNge ltW.
by rewrite big_ord_recl; elim/big_rec: _ => //= i x _ ->.
Qed.
End TGLobj.
