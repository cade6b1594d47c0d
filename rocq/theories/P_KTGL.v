(** Proofs about the kernel time graphical lasso model: structure and the ADMM step. *)
From Coq Require Import Reals Lra Psatz.
From mathcomp Require Import all_ssreflect all_algebra.
From Verif Require Import RStruct RTac LinTac Spectral S_Mat RMx ADMM NP M_Prox S_Prox P_Eigh.
From Verif Require Import P_Prox P_Prox2 P_Rules M_Loop P_Loop M_GL S_GL P_GL P_GL2 M_LGL P_LGL.
From Verif Require Import M_TGL S_TGL P_TGL M_KTGL S_KTGL.
Import Order.TTheory GRing.Theory Num.Theory.

Set Implicit Arguments.
Unset Strict Implicit.
Unset Printing Implicit Defensive.
Local Open Scope ring_scope.

(** * index bookkeeping *)
Lemma sum_tpair T (F : 'I_T -> 'I_T -> R) :
  \sum_(e : tpair T) F (t_l e) (t_r e) = \sum_(s < T) \sum_(t < T | (s < t)%N) F s t.
Proof.
rewrite pair_big_dep /=; symmetry.
rewrite (@reindex_omap _ _ _ _ (tpair_finType T) val insub) /=; last first.
  by move=> e he; rewrite insubT.
apply: eq_bigl => e; rewrite (valP e) /= valK; exact: eqxx.
Qed.

Lemma count_lr T (t : 'I_T) :
  1 + (\sum_(e : tpair T) (t_l e == t)%:R) + (\sum_(e : tpair T) (t_r e == t)%:R) = T%:R :> R.
Proof.
rewrite (sum_tpair (fun s u => (s == t)%:R)) (sum_tpair (fun s u => (u == t)%:R)).
have -> : \sum_(s < T) \sum_(u < T | (s < u)%N) (s == t)%:R = \sum_(u < T) (t < u)%N%:R :> R.
  rewrite (bigD1 t) //= [X in _ + X]big1 ?addr0 => [|s /negPf st]; last first.
    by rewrite big1 // => u _; rewrite st.
  by rewrite eqxx big_mkcond; apply: eq_bigr => u _; case: ifP.
have -> : \sum_(s < T) \sum_(u < T | (s < u)%N) (u == t)%:R = \sum_(s < T) (s < t)%N%:R :> R.
  apply: eq_bigr => s _; rewrite big_mkcond (bigD1 t) //= [X in _ + X]big1 ?addr0 => [|u /negPf ut].
    by rewrite eqxx; case: ifP.
  by rewrite ut; case: ifP.
have -> : T%:R = \sum_(u < T) ((u == t)%:R + (t < u)%N%:R + (u < t)%N%:R) :> R; last first.
  rewrite !big_split /=; congr (_ + _ + _).
  by rewrite (bigD1 t) //= eqxx big1 ?addr0 // => u /negPf ->.
have -> : T%:R = \sum_(u < T) 1 :> R by rewrite sumr_const card_ord.
apply: eq_bigr => u _; rewrite -(inj_eq val_inj) /=.
by case: (ltngtP u t) => _; rewrite ?addr0 ?add0r.
Qed.

Section Stack.
Variables (n T : nat).
Implicit Types (K A : stack n T) (X Y : edges n T) (Z U W : ktriple n T).
Definition kdv : innerp [lmodType R of stack n T] := ffun_ip [finType of 'I_T] (mat_ip n n).
Definition kde : innerp [lmodType R of edges n T] := ffun_ip [finType of tpair T] (mat_ip n n).
Definition kdw : innerp [lmodType R of ktriple n T] := pair_ip (pair_ip kdv kde) kde.
Definition kBt (W : ktriple n T) : stack n T := add_rights (add_lefts W.1.1 W.1.2) W.2.

Lemma kdvE K A : kdv K A = \sum_t fdot (K t) (A t). Proof. by []. Qed.
Lemma kdwE Z U : kdw Z U = \sum_t fdot (Z.1.1 t) (U.1.1 t) + \sum_e fdot (Z.1.2 e) (U.1.2 e)
   + \sum_e fdot (Z.2 e) (U.2 e).
Proof. by []. Qed.
Lemma ksqnormE Z : ktriple_sqnorm Z = kdw Z Z.
Proof.
by rewrite /ktriple_sqnorm /stack_sqnorm /edges_sqnorm kdwE; congr (_ + _ + _); apply: eq_bigr => t _;
  rewrite -fnorm2E.
Qed.
Lemma edD X Y e : (X + Y) e = X e + Y e. Proof. by rewrite ffunE. Qed.
Lemma edN X e : (- X) e = - X e. Proof. by rewrite ffunE. Qed.
Lemma edB X Y e : (X - Y) e = X e - Y e. Proof. by rewrite !ffunE. Qed.
Lemma edZ (a : R) X e : (a *: X) e = a *: X e. Proof. by rewrite ffunE. Qed.
Lemma ktriD Z U : ((Z + U).1.1 = Z.1.1 + U.1.1) * ((Z + U).1.2 = Z.1.2 + U.1.2) * ((Z + U).2 = Z.2 + U.2).
Proof. by []. Qed.
Lemma ktriN Z : ((- Z).1.1 = - Z.1.1) * ((- Z).1.2 = - Z.1.2) * ((- Z).2 = - Z.2).
Proof. by []. Qed.
Lemma ktriZ (a : R) Z : ((a *: Z).1.1 = a *: Z.1.1) * ((a *: Z).1.2 = a *: Z.1.2) * ((a *: Z).2 = a *: Z.2).
Proof. by []. Qed.
Lemma kcopiesB K A : kcopies (K - A) = kcopies K - kcopies A.
Proof. by congr (_, _, _); apply/ffunP => t; rewrite !ffunE. Qed.
Lemma kcopiesL a K A : kcopies (a *: K + A) = a *: kcopies K + kcopies A.
Proof. by rewrite /kcopies; congr (_, _, _); apply/ffunP => t; rewrite !ffunE. Qed.

Lemma fdot_sumr (I : finType) (P : pred I) (A : 'M[R]_n) (F : I -> 'M[R]_n) :
  fdot A (\sum_(i | P i) F i) = \sum_(i | P i) fdot A (F i).
Proof.
by elim/big_rec2: _ => [|i y1 y2 _ <-]; rewrite ?fdot0r ?fdotDr.
Qed.

Lemma kcopies_adj K W : kdw (kcopies K) W = kdv K (kBt W).
Proof.
rewrite kdvE kdwE /kBt.
have -> : \sum_t fdot (K t) (add_rights (add_lefts W.1.1 W.1.2) W.2 t) =
  \sum_t fdot (K t) (W.1.1 t) + \sum_t fdot (K t) (\sum_(e | t_l e == t) W.1.2 e)
  + \sum_t fdot (K t) (\sum_(e | t_r e == t) W.2 e).
  by rewrite -!big_split; apply: eq_bigr => t _; rewrite !ffunE !fdotDr.
have red (h : tpair T -> 'I_T) (X : edges n T) :
   \sum_t fdot (K t) (\sum_(e | h e == t) X e) = \sum_e fdot (K (h e)) (X e).
  under eq_bigr do rewrite fdot_sumr.
  rewrite (exchange_big_dep xpredT) //=; apply: eq_bigr => e _.
  by rewrite (big_pred1 (h e)) // => t /=; rewrite eq_sym.
by rewrite !red; congr (_ + _ + _); apply: eq_bigr => e _; rewrite ffunE.
Qed.
Lemma kBtB Z U : kBt (Z - U) = kBt Z - kBt U.
Proof.
have e1 : (Z - U).1.1 = Z.1.1 - U.1.1 by [].
have e2 : (Z - U).1.2 = Z.1.2 - U.1.2 by [].
have e3 : (Z - U).2 = Z.2 - U.2 by [].
rewrite /kBt e1 e2 e3; apply/ffunP => t; rewrite !ffunE.
have sb (h : tpair T -> 'I_T) X Y : \sum_(e | h e == t) (X - Y) e =
   \sum_(e | h e == t) X e - \sum_(e | h e == t) Y e.
  by rewrite -sumrB; apply: eq_bigr => e _; rewrite edB.
rewrite !sb; move: (Z.1.1 t) (U.1.1 t) (\sum_(e | _) _) (\sum_(e | _) _) (\sum_(e | _) _) (\sum_(e | _) _).
by move=> a b c d e f; lin.
Qed.
Lemma kBt_copies K t : kBt (kcopies K) t = T%:R *: K t.
Proof.
have red (h : tpair T -> 'I_T) : \sum_(e | h e == t) K (h e) = (\sum_e (h e == t)%:R) *: K t.
  rewrite scaler_suml big_mkcond; apply: eq_bigr => e _; case: eqP => [->|_]; last by rewrite scale0r.
  by rewrite scale1r.
rewrite !ffunE /=.
have -> : \sum_(e | t_l e == t) lefts K e = \sum_(e | t_l e == t) K (t_l e).
  by apply: eq_bigr => e _; rewrite ffunE.
have -> : \sum_(e | t_r e == t) rights K e = \sum_(e | t_r e == t) K (t_r e).
  by apply: eq_bigr => e _; rewrite ffunE.
by rewrite !red -{1}[K t]scale1r -!scalerDl count_lr.
Qed.
Lemma T_gt0 (t : 'I_T) : 0 < T%:R :> R.
Proof. by rewrite ltr0n; apply: leq_ltn_trans (ltn_ord t). Qed.
End Stack.

Section KTGL.
Variables (n T : nat) (eigh : eigh_t n) (psi : 'M[R]_n -> R) (prox : 'M[R]_n -> R -> 'M[R]_n).
Hypothesis He : eigh_ok eigh.
Variables (S : stack n T) (ns : 'I_T -> R).
Hypothesis sS : slices (@sym n) S.
Hypothesis ns0 : forall t, 0 < ns t.
Implicit Types (K : stack n T) (Z U W : ktriple n T) (p : ktgl_params T).

Definition ktri_sym (Z : ktriple n T) : Prop :=
  [/\ slices (@sym n) Z.1.1, (forall e, sym (Z.1.2 e)) & (forall e, sym (Z.2 e))].

Lemma ktgl_K_pd rho Z U : 0 < rho -> slices (@pd n) (ktgl_K_update eigh S ns rho Z U).
Proof.
move=> r0 t; rewrite ffunE; apply: (proj1 (prox_logdet_spec He _ _)).
  by apply: symD => //; apply: symZ; apply: symmetrise_sym.
by apply: divr_gt0 => //; apply: mulr_gt0 => //; apply: T_gt0.
Qed.

Lemma ktgl_struct p rho Z U K Z' U' :
  (forall a lam, sym a -> sym (prox a lam)) -> 0 < rho -> ktri_sym U ->
  ktgl_updates eigh prox S ns p rho Z U = (K, Z', U') ->
  [/\ slices (@pd n) K, ktri_sym Z' & ktri_sym U'].
Proof.
move=> hp r0 [u0 u1 u2] [eK eZ <-]; rewrite eK in eZ *; rewrite eZ.
have pK : slices (@pd n) K by rewrite -eK; apply: ktgl_K_pd.
have sK t : sym (K t) by apply: pd_sym.
have sZ : ktri_sym Z'.
  rewrite -eZ; split=> t; rewrite !ffunE.
  - by apply: soft_sym; apply: symmetrise_sym.
  - apply: symZ; apply: symB; last by apply: hp; apply: symB; apply: symD.
    by apply: symD; apply: symD.
  - apply: symZ; apply: symD; last by apply: hp; apply: symB; apply: symD.
    by apply: symD; apply: symD.
split=> //; case: sZ => z1 z2 z3.
by split=> t; rewrite !(ktriD, ktriN) /= !ffunE; apply: symD => //; apply: symB.
Qed.

(** * the solver as an instance of ADMM *)
Hypothesis cv : convex_fun psi.
Hypothesis hp : prox_of psi prox.
Definition ktgl_g (alpha : R) (w : 'M[R]_T) (Z : ktriple n T) : R :=
  alpha * (\sum_t l1 (Z.1.1 t)) + \sum_e w (t_l e) (t_r e) * psi (Z.2 e - Z.1.2 e).
Definition kern_ge0 (w : 'M[R]_T) : Prop := forall s t : 'I_T, (s < t)%N -> 0 <= w s t.
Local Notation kf := (fun K : stack n T => \sum_t ns t * gl_f (S t) (K t)).
Local Notation kD := (fun K : stack n T => slices (@pd n) K).
Local Notation step p rho := (admm_step (@kdv n T) (@kdw n T) (@kcopies n T) (@kBt n T) kD kf
  (ktgl_g (ktgl_alpha p) (kernel_of p)) rho).

Lemma ktgl_step p rho Z U K Z' U' : 0 <= ktgl_alpha p -> kern_ge0 (kernel_of p) -> 0 < rho ->
  slices (@sym n) U.1.1 ->
  ktgl_updates eigh prox S ns p rho Z U = (K, Z', U') -> step p rho Z U K Z' U'.
Proof.
move=> a0 b0 r0 sU [eK eZ <-]; rewrite eK in eZ *; rewrite eZ.
have pK : slices (@pd n) K by rewrite -eK; apply: ktgl_K_pd.
have sK t : sym (K t) by apply: pd_sym.
have rn : rho != 0 by apply: lt0r_neq0.
split.
- split=> // Y pY; rewrite kdvE -big_split; apply: ler_sum => t _.
  have d0 := T_gt0 t; have dn : T%:R != 0 :> R by apply: lt0r_neq0.
  have nn : ns t != 0 by apply: lt0r_neq0.
  set A := kBt (Z - U) t.
  have sA : sym ((- rho * T%:R / ns t) *: symmetrise (T%:R^-1 *: A) + S t).
    by apply: symD => //; apply: symZ; apply: symmetrise_sym.
  have l0 : 0 < ns t / (rho * T%:R) by apply: divr_gt0 => //; apply: mulr_gt0.
  have [_] := prox_logdet_spec He sA l0.
  have -> : prox_logdet eigh ((- rho * T%:R / ns t) *: symmetrise (T%:R^-1 *: A) + S t)
     (ns t / (rho * T%:R)) = K t by rewrite -eK ffunE.
  move=> eI; have := gl_f_subg (sS t) (pK t) (pY t); rewrite eI.
  rewrite -(ler_pmul2l (ns0 t)) mulrDr -fdotZl.
  have eB : kBt (kcopies K - Z + U) t = T%:R *: K t - A.
    have -> : kcopies K - Z + U = kcopies K - (Z - U) by lin.
    by rewrite kBtB stB kBt_copies.
  have -> : fdot ((- rho *: kBt (kcopies K - Z + U)) t) ((Y - K) t)
    = fdot (- rho *: (T%:R *: K t - A)) (Y t - K t) by rewrite -eB stZ stB.
  have -> : ns t *: (S t - ((- rho * T%:R / ns t) *: symmetrise (T%:R^-1 *: A) + S t
      + (ns t / (rho * T%:R))^-1 *: K t)) = - rho *: (T%:R *: K t - symmetrise A).
    have -> : symmetrise (T%:R^-1 *: A) = T%:R^-1 *: symmetrise A by exact: symmetriseZ.
    move: (S t) (symmetrise A) (K t) dn => X B C; move: (T%:R : R) => d dn.
    by lin.
  rewrite !fdotZl !fdotBl.
  have -> : fdot (symmetrise A) (Y t - K t) = fdot A (Y t - K t).
    by rewrite /symmetrise fdot_asym //; apply: symB => //; apply: pd_sym.
  by [].
- move=> W; rewrite kdwE /ktgl_g.
  have h0 : ktgl_alpha p * (\sum_t l1 (Z'.1.1 t)) +
     \sum_t fdot ((rho *: (kcopies K + U - Z')).1.1 t) ((W - Z').1.1 t) <=
     ktgl_alpha p * \sum_t l1 (W.1.1 t).
    rewrite !mulr_sumr -big_split; apply: ler_sum => t _; cbv beta.
    rewrite !(ktriZ, ktriD, ktriN) !(stZ, stD, stN) /=.
    have ar : 0 <= ktgl_alpha p / rho by apply: divr_ge0 => //; apply: ltW.
    have eZ0 : Z'.1.1 t = soft_thresholding (K t + U.1.1 t) (ktgl_alpha p / rho).
      by rewrite -eZ /= ffunE symmetrise_id //; apply: symD.
    rewrite eZ0; have := soft_subgrad (K t + U.1.1 t) (W.1.1 t) ar.
    rewrite -(ler_pmul2l r0) mulrDr fdotZl !(mulrA rho (ktgl_alpha p / rho)).
    by have -> : rho * (ktgl_alpha p / rho) = ktgl_alpha p by rewrite mulrCA mulfV ?mulr1.
  have h1 : (\sum_e kernel_of p (t_l e) (t_r e) * psi (Z'.2 e - Z'.1.2 e)) +
     (\sum_e fdot ((rho *: (kcopies K + U - Z')).1.2 e) ((W - Z').1.2 e) +
      \sum_e fdot ((rho *: (kcopies K + U - Z')).2 e) ((W - Z').2 e)) <=
     \sum_e kernel_of p (t_l e) (t_r e) * psi (W.2 e - W.1.2 e).
    rewrite -!big_split; apply: ler_sum => e _; cbv beta.
    rewrite !(ktriZ, ktriD, ktriN) !(edZ, edD, edN) /= !fdotZl -mulrDr.
    have e1 : Z'.1.2 e = (pair_update prox (lefts K e + U.1.2 e) (rights K e + U.2 e)
       (kernel_of p (t_l e) (t_r e)) rho).1 by rewrite -eZ /= ffunE !edD.
    have e2 : Z'.2 e = (pair_update prox (lefts K e + U.1.2 e) (rights K e + U.2 e)
       (kernel_of p (t_l e) (t_r e)) rho).2 by rewrite -eZ /= ffunE !edD.
    rewrite e1 e2; apply: pair_subgrad => //; apply: b0; exact: (valP e).
  move: h0 h1; rewrite -(addrA (\sum_t fdot _ _)).
  move: (\sum_t fdot _ _) (\sum_e fdot _ _ + _) (_ * \sum_t l1 _) (_ * \sum_t l1 _) => a b c d.
  move: (\sum_e _) (\sum_e _) => e f h0 h1.
  by clear -h0 h1; mclra.
- by move: (kcopies K) => X; lin.
Qed.
End KTGL.
