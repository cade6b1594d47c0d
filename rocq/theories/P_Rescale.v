(** Stationary states stay stationary when the penalty rho is changed and the dual is rescaled. *)
From Coq Require Import Reals.
From mathcomp Require Import all_ssreflect all_algebra.
From Verif Require Import RStruct RTac LinTac S_Mat NP M_Prox M_Loop M_GL M_LGL M_TGL M_KTGL S_TGL S_KTGL.
From Verif Require Import RMx ADMM P_Eigh P_Prox P_Rules P_Loop P_GL P_GL2 P_TGL P_TGL2 P_TGL3 P_TGL4.
From Verif Require Import P_KTGL P_KTGL2 P_KTGL3.
Import Order.TTheory GRing.Theory Num.Theory.

Set Implicit Arguments.
Unset Strict Implicit.
Unset Printing Implicit Defensive.
Local Open Scope ring_scope.

Lemma kkt_rescale (V W : lmodType R) (dv : innerp V) (dw : innerp W) (B : V -> W) (Bt : W -> V) D f g rho rho' :
  (forall x w, dw (B x) w = dv x (Bt w)) -> 0 < rho' ->
  forall x u, kkt dv dw B Bt D f g rho x u -> kkt dv dw B Bt D f g rho' x ((rho / rho') *: u).
Proof.
move=> Badj r0 x u [[Dx h1] h2]; have rn : rho' != 0 by apply: lt0r_neq0.
have eB : rho' *: Bt ((rho / rho') *: u) = rho *: Bt u.
  apply/eqP; rewrite -subr_eq0; apply/eqP; apply: (@ip_eq0 _ dv).
  set y := _ - _; rewrite {1}/y ipDl ipNl !ipZl !(ipC dv _ y) -!Badj (ipC dw _ (_ *: u)) ipZl (ipC dw u).
  by rewrite mulrA mulrCA divff // mulr1 subrr.
split.
  split=> // y Dy; have := h1 _ Dy.
  by rewrite !scaleNr eB.
by move=> w; rewrite scalerA mulrCA divff // mulr1; apply: h2.
Qed.

Section GLr.
Variables (n : nat) (eigh : eigh_t n) (S : 'M[R]_n) (p : gl_params).
Hypotheses (He : eigh_ok eigh) (sS : sym S) (ov : gl_over_relax p = 1) (a0 : 0 <= gl_alpha p).
Hypotheses (ti : 0 < tau_inc (gl_rho_options p)) (td : 0 < tau_dec (gl_rho_options p)).
Local Notation upd s := (gl_updates eigh S (gl_alpha p) (gl_over_relax p) (gl_rho s) (gl_Z s) (gl_U s)).

Lemma gl_rescale rho rho' Z U K : 0 < rho -> 0 < rho' ->
  gl_updates eigh S (gl_alpha p) 1 rho Z U = (K, Z, U) ->
  gl_updates eigh S (gl_alpha p) 1 rho' Z ((rho / rho') *: U) = (K, Z, (rho / rho') *: U).
Proof.
move=> r0 r0' E; have [e k] := step_fixed (gl_step He sS a0 r0 E); subst Z.
have k' := kkt_rescale (fun x w => erefl) r0' k.
case E' : (gl_updates _ _ _ _ _ _ _) => [[K' Z'] U'].
have st := gl_step He sS a0 r0' E'.
by have [-> -> ->] := kkt_step_fixed (fun x y => erefl) (fun x w => erefl) r0' k' st.
Qed.

Lemma gl_stay j s K : 0 < gl_rho s -> upd s = (K, gl_Z s, gl_U s) ->
  let s' := out_state (gl_body eigh S p j s).1 in
  [/\ 0 < gl_rho s', gl_Z s' = gl_Z s & upd s' = (K, gl_Z s', gl_U s')].
Proof.
move=> r0 E; rewrite /= /gl_body E.
case: (stop_test _) => /=; first by [].
set r' := update_rho _ _ _ _; have r0' : 0 < r' by apply: rho_pos.
by split=> //; rewrite ov; apply: gl_rescale => //; rewrite -ov.
Qed.

Lemma gl_stay_iter s K k : 0 < gl_rho s -> upd s = (K, gl_Z s, gl_U s) ->
  let s' := iter_state (gl_body eigh S p) 0 s k in
  [/\ 0 < gl_rho s', gl_Z s' = gl_Z s & upd s' = (K, gl_Z s', gl_U s')].
Proof.
move=> r0 E /=; elim: k => [|k [h1 h2 h3]] //=.
by have [g1 g2 g3] := gl_stay (0 + k) h1 h3; rewrite -h2.
Qed.
End GLr.

Section TGLr.
Variables (n m : nat) (eigh : eigh_t n) (psi : 'M[R]_n -> R) (prox : 'M[R]_n -> R -> 'M[R]_n).
Variables (S : stack n m.+1) (ns : 'I_m.+1 -> R) (p : tgl_params).
Hypotheses (He : eigh_ok eigh) (sS : slices (@sym n) S) (ns0 : forall t, 0 < ns t).
Hypotheses (cv : convex_fun psi) (hp : prox_of psi prox) (a0 : 0 <= tgl_alpha p) (b0 : 0 <= tgl_beta p).
Hypotheses (ti : 0 < tau_inc (tgl_rho_options p)) (td : 0 < tau_dec (tgl_rho_options p)).
Local Notation px := (PsiPlain psi prox).
Local Notation upd s := (tgl_updates eigh px S ns p (tgl_rho s) (tgl_Z s) (tgl_U s)).

Lemma triZs (a : R) (U : triple n m) : slices (@sym n) U.1.1 -> slices (@sym n) (a *: U).1.1.
Proof. by move=> h t; rewrite ffunE; apply: symZ; apply: h. Qed.
Lemma triZ (a : R) (U : triple n m) : (a *: U).1.1 = a *: U.1.1. Proof. by []. Qed.

Lemma tgl_rescale rho rho' (Z U : triple n m) K : 0 < rho -> 0 < rho' -> slices (@sym n) U.1.1 ->
  tgl_updates eigh px S ns p rho Z U = (K, Z, U) ->
  tgl_updates eigh px S ns p rho' Z ((rho / rho') *: U) = (K, Z, (rho / rho') *: U).
Proof.
move=> r0 r0' sU E; have [e k] := step_fixed (tgl_step He sS ns0 cv hp a0 b0 r0 sU E); subst Z.
have k' := kkt_rescale (@copies_adj n m) r0' k.
have sU' : slices (@sym n) ((rho / rho') *: U).1.1 by move=> t; rewrite triZ ffunE; apply: symZ.
case E' : (tgl_updates _ _ _ _ _ _ _ _) => [[K' Z'] U'].
have st := tgl_step He sS ns0 cv hp a0 b0 r0' sU' E'.
by have [-> -> [-> _]] := kkt_step_fixed (@copiesB n m) (@copies_adj n m) r0' k' st.
Qed.

Lemma tgl_stay j s K : 0 < tgl_rho s -> slices (@sym n) (tgl_U s).1.1 -> upd s = (K, tgl_Z s, tgl_U s) ->
  let s' := out_state (tgl_body eigh px S ns p j s).1 in
  [/\ 0 < tgl_rho s', slices (@sym n) (tgl_U s').1.1, tgl_Z s' = tgl_Z s & upd s' = (K, tgl_Z s', tgl_U s')].
Proof.
move=> r0 sU E; rewrite /= /tgl_body E.
case: (stop_at_test _ _ _) => /=; first by [].
case: (stop_test _) => /=; first by [].
set r' := update_rho _ _ _ _; have r0' : 0 < r' by apply: rho_pos.
split=> //; last exact: tgl_rescale.
exact: triZs.
Qed.

Lemma tgl_stay_iter s K k : 0 < tgl_rho s -> slices (@sym n) (tgl_U s).1.1 -> upd s = (K, tgl_Z s, tgl_U s) ->
  let s' := iter_state (tgl_body eigh px S ns p) 0 s k in
  [/\ 0 < tgl_rho s', slices (@sym n) (tgl_U s').1.1, tgl_Z s' = tgl_Z s & upd s' = (K, tgl_Z s', tgl_U s')].
Proof.
move=> r0 sU E /=; elim: k => [|k [h1 h2 h3 h4]] //=.
by have [g1 g2 g3 g4] := tgl_stay (0 + k) h1 h2 h4; rewrite -h3.
Qed.
End TGLr.

Section KTGLr.
Variables (n T : nat) (eigh : eigh_t n) (psi : 'M[R]_n -> R) (prox : 'M[R]_n -> R -> 'M[R]_n).
Variables (S : stack n T) (ns : 'I_T -> R) (p : ktgl_params T).
Hypotheses (He : eigh_ok eigh) (sS : slices (@sym n) S) (ns0 : forall t, 0 < ns t).
Hypotheses (cv : convex_fun psi) (hp : prox_of psi prox) (a0 : 0 <= ktgl_alpha p) (b0 : kern_ge0 (kernel_of p)).
Hypotheses (ti : 0 < tau_inc (ktgl_rho_options p)) (td : 0 < tau_dec (ktgl_rho_options p)).
Local Notation upd s := (ktgl_updates eigh prox S ns p (ktgl_rho s) (ktgl_Z s) (ktgl_U s)).

Lemma ktriZs (a : R) (U : ktriple n T) : slices (@sym n) U.1.1 -> slices (@sym n) (a *: U).1.1.
Proof. by move=> h t; rewrite ffunE; apply: symZ; apply: h. Qed.
Lemma ktriZ (a : R) (U : ktriple n T) : (a *: U).1.1 = a *: U.1.1. Proof. by []. Qed.

Lemma ktgl_rescale rho rho' (Z U : ktriple n T) K : 0 < rho -> 0 < rho' -> slices (@sym n) U.1.1 ->
  ktgl_updates eigh prox S ns p rho Z U = (K, Z, U) ->
  ktgl_updates eigh prox S ns p rho' Z ((rho / rho') *: U) = (K, Z, (rho / rho') *: U).
Proof.
move=> r0 r0' sU E; have [e k] := step_fixed (ktgl_step He sS ns0 cv hp a0 b0 r0 sU E); subst Z.
have k' := kkt_rescale (@kcopies_adj n T) r0' k.
have sU' : slices (@sym n) ((rho / rho') *: U).1.1 by move=> t; rewrite ktriZ ffunE; apply: symZ.
case E' : (ktgl_updates _ _ _ _ _ _ _ _) => [[K' Z'] U'].
have st := ktgl_step He sS ns0 cv hp a0 b0 r0' sU' E'.
by have [-> -> [-> _ _]] := kkt_step_fixed (@kcopiesB n T) (@kcopies_adj n T) r0' k' st.
Qed.

Lemma ktgl_stay j s K : 0 < ktgl_rho s -> slices (@sym n) (ktgl_U s).1.1 -> upd s = (K, ktgl_Z s, ktgl_U s) ->
  let s' := out_state (ktgl_body eigh psi prox S ns p j s).1 in
  [/\ 0 < ktgl_rho s', slices (@sym n) (ktgl_U s').1.1, ktgl_Z s' = ktgl_Z s & upd s' = (K, ktgl_Z s', ktgl_U s')].
Proof.
move=> r0 sU E; rewrite /= /ktgl_body E.
case: (stop_at_test _ _ _) => /=; first by [].
case: (stop_test _) => /=; first by [].
set r' := update_rho _ _ _ _; have r0' : 0 < r' by apply: rho_pos.
split=> //; last exact: ktgl_rescale.
exact: ktriZs.
Qed.

Lemma ktgl_stay_iter s K k : 0 < ktgl_rho s -> slices (@sym n) (ktgl_U s).1.1 -> upd s = (K, ktgl_Z s, ktgl_U s) ->
  let s' := iter_state (ktgl_body eigh psi prox S ns p) 0 s k in
  [/\ 0 < ktgl_rho s', slices (@sym n) (ktgl_U s').1.1, ktgl_Z s' = ktgl_Z s & upd s' = (K, ktgl_Z s', ktgl_U s')].
Proof.
move=> r0 sU E /=; elim: k => [|k [h1 h2 h3 h4]] //=.
by have [g1 g2 g3 g4] := ktgl_stay (0 + k) h1 h2 h4; rewrite -h3.
Qed.
End KTGLr.

(** * graphical_lasso's covariance_ *)
Lemma gl_cov_fixed n (eigh : eigh_t n) (S : 'M[R]_n) alpha rho Z U K i j :
  eigh_ok eigh -> sym S -> 0 < alpha -> 0 < rho -> sym U -> i != j -> S i j != 0 ->
  gl_updates eigh S alpha 1 rho Z U = (K, Z, U) -> Z *m S != 1%:M.
Proof.
move=> He sS a0 r0 sU ij Sij E.
have [eK [pK _]] := gl_fixed_opt He sS (ltW a0) r0 E; rewrite eK in E.
have sZ := pd_sym pK.
move: E; rewrite /gl_updates subrr scale0r subr0 scale1r div1r.
have eA : gl_A Z U = Z - U by rewrite /gl_A (symB sZ sU); move: (Z - U) => X; lin.
case=> eP; rewrite eP => eZ _.
have ir0 : 0 < rho^-1 by rewrite invr_gt0.
have [_ eX] := prox_logdet_spec He (gl_sSA sS Z U rho) ir0.
rewrite eP invrK eA in eX.
apply/eqP => e1.
have uZ : Z \in unitmx by have [] := mulmx1_unit e1.
have eS : invmx Z = S by rewrite -[invmx Z]mulmx1 -e1 mulKmx.
have U0 : U = 0.
  have e2 : rho *: U = 0.
    have : S = S + rho *: U by rewrite -{1}eS eX; lin.
    by move/eqP; rewrite -subr_eq0 opprD addrA subrr sub0r oppr_eq0 => /eqP.
  by apply/eqP; have := scaler_eq0 rho U; rewrite e2 eqxx => /esym/orP [/eqP re|//]; move: r0; rewrite re ltxx.
have Zod a b : a != b -> Z a b = 0.
  move=> ab; move: eZ; rewrite U0 addr0 => /matrixP /(_ a b).
  have l0 : 0 < alpha / rho by apply: divr_gt0.
  rewrite sodE (negbTE ab); move: (Z a b) (alpha / rho) l0 => x l l0 hx.
  by case: (soft1_cases x (ltW l0)) => h; move: h => [h1 h2]; clear -h1 h2 hx l0; rewrite hx in h2; mclra.
have := congr1 (fun X : 'M[R]_n => X i j) e1; rewrite !mxE (negbTE ij) (bigD1 i) //= big1 ?addr0; last first.
  by move=> k ki; rewrite Zod ?mul0r // eq_sym.
move/eqP; rewrite mulf_eq0 (negbTE Sij) orbF => /eqP Z0.
by have := pd_diag_gt0 i pK; rewrite Z0 ltxx.
Qed.
