(** Proofs about the time graphical lasso model. *)
From Coq Require Import Reals Lra Psatz.
From mathcomp Require Import all_ssreflect all_algebra.
From Verif Require Import RStruct RTac LinTac Spectral S_Mat RMx ADMM NP M_Prox S_Prox P_Eigh.
From Verif Require Import P_Prox P_Prox2 P_Rules M_Loop P_Loop M_GL S_GL P_GL P_GL2 M_LGL P_LGL.
From Verif Require Import M_TGL S_TGL.
Import Order.TTheory GRing.Theory Num.Theory.

Set Implicit Arguments.
Unset Strict Implicit.
Unset Printing Implicit Defensive.
Local Open Scope ring_scope.

(** * index bookkeeping *)
Lemma sum_lift_max (m : nat) (F : 'I_m.+1 -> R) :
  \sum_t F t = \sum_(t < m) F (lift ord_max t) + F ord_max.
Proof.
rewrite big_ord_recr; congr (_ + _); apply: eq_bigr => i _; congr F; apply: val_inj.
by rewrite /= /bump leqNgt ltn_ord.
Qed.
Lemma sum_lift0 (m : nat) (F : 'I_m.+1 -> R) :
  \sum_t F t = \sum_(t < m) F (lift ord0 t) + F ord0.
Proof. by rewrite big_ord_recl addrC. Qed.

Lemma stackE n T (X Y : stack n T) : (forall t, X t = Y t) -> X = Y.
Proof. by move=> h; apply/ffunP. Qed.

Lemma stD n T (X Y : stack n T) t : (X + Y) t = X t + Y t. Proof. by rewrite ffunE. Qed.
Lemma stN n T (X : stack n T) t : (- X) t = - X t. Proof. by rewrite ffunE. Qed.
Lemma stB n T (X Y : stack n T) t : (X - Y) t = X t - Y t. Proof. by rewrite !ffunE. Qed.
Lemma stZ n T (a : R) (X : stack n T) t : (a *: X) t = a *: X t. Proof. by rewrite ffunE. Qed.

Lemma symmetriseZ n a (A : 'M[R]_n) : symmetrise (a *: A) = a *: symmetrise A.
Proof. by apply/matrixP => i j; rewrite !mxE -mulrDr mulrCA. Qed.

Section Stack.
Variables (n m : nat).
Implicit Types (K A : stack n m.+1) (X Y : stack n m) (Z U W : triple n m).
Local Notation di T := (ffun_ip [finType of 'I_T] (mat_ip n n)).
Definition dv : innerp [lmodType R of stack n m.+1] := di m.+1.
Definition dw : innerp [lmodType R of triple n m] := pair_ip (pair_ip (di m.+1) (di m)) (di m).
Definition Bt (W : triple n m) : stack n m.+1 := add_but_first (add_but_last W.1.1 W.1.2) W.2.

Lemma dvE K A : dv K A = \sum_t fdot (K t) (A t). Proof. by []. Qed.
Lemma dwE Z U : dw Z U = \sum_t fdot (Z.1.1 t) (U.1.1 t) + \sum_t fdot (Z.1.2 t) (U.1.2 t)
   + \sum_t fdot (Z.2 t) (U.2 t).
Proof. by []. Qed.
Lemma sqnormE Z : triple_sqnorm Z = dw Z Z.
Proof.
by rewrite /triple_sqnorm /stack_sqnorm dwE; congr (_ + _ + _); apply: eq_bigr => t _;
  rewrite -fnorm2E.
Qed.

Lemma triD Z U : ((Z + U).1.1 = Z.1.1 + U.1.1) * ((Z + U).1.2 = Z.1.2 + U.1.2) * ((Z + U).2 = Z.2 + U.2).
Proof. by []. Qed.
Lemma triN Z : ((- Z).1.1 = - Z.1.1) * ((- Z).1.2 = - Z.1.2) * ((- Z).2 = - Z.2).
Proof. by []. Qed.
Lemma triZ (a : R) Z : ((a *: Z).1.1 = a *: Z.1.1) * ((a *: Z).1.2 = a *: Z.1.2) * ((a *: Z).2 = a *: Z.2).
Proof. by []. Qed.
Lemma copiesB K A : copies (K - A) = copies K - copies A.
Proof. by congr (_, _, _); apply/ffunP => t; rewrite !ffunE. Qed.
Lemma copies_adj K W : dw (copies K) W = dv K (Bt W).
Proof.
rewrite dvE dwE /Bt.
have -> : \sum_t fdot (K t) (add_but_first (add_but_last W.1.1 W.1.2) W.2 t) =
  \sum_t fdot (K t) (W.1.1 t) + \sum_t fdot (K t) (oapp W.1.2 0 (unlift ord_max t))
  + \sum_t fdot (K t) (oapp W.2 0 (unlift ord0 t)).
  by rewrite -!big_split; apply: eq_bigr => t _; rewrite !ffunE !fdotDr.
congr (_ + _ + _).
  rewrite sum_lift_max unlift_none /= fdot0r addr0.
  by apply: eq_bigr => t _; rewrite ffunE liftK.
rewrite sum_lift0 unlift_none /= fdot0r addr0.
by apply: eq_bigr => t _; rewrite ffunE liftK.
Qed.
Lemma BtB Z U : Bt (Z - U) = Bt Z - Bt U.
Proof.
have e1 : (Z - U).1.1 = Z.1.1 - U.1.1 by [].
have e2 : (Z - U).1.2 = Z.1.2 - U.1.2 by [].
have e3 : (Z - U).2 = Z.2 - U.2 by [].
rewrite /Bt e1 e2 e3; apply/ffunP => t; rewrite !ffunE.
case: unliftP => [i|] _; case: unliftP => [j|] _ /=; rewrite ?ffunE; move: (Z.1.1 t) (U.1.1 t) => a b.
- by move: (Z.1.2 i) (Z.2 j) (U.1.2 i) (U.2 j) => c d e f; lin.
- by move: (Z.1.2 i) (U.1.2 i) => c d; lin.
- by move: (Z.2 j) (U.2 j) => c d; lin.
by lin.
Qed.
Lemma Bt_copies K t : Bt (copies K) t = divisor t *: K t.
Proof.
rewrite !ffunE /divisor; case: unliftP => [i|] e1; case: unliftP => [j|] e2 /=;
  rewrite ?ffunE -?e1 -?e2 ?eqxx.
- have -> : t == ord0 = false by rewrite e2 eq_sym (negbTE (neq_lift _ _)).
  have -> : t == ord_max = false by rewrite e1 eq_sym (negbTE (neq_lift _ _)).
  by move: (K t) => X; lin.
- have -> : t == ord_max = false by rewrite e1 eq_sym (negbTE (neq_lift _ _)).
  by move: (K t) => X; lin.
- have -> : t == ord0 = false by rewrite e2 eq_sym (negbTE (neq_lift _ _)).
  by move: (K t) => X; lin.
by move: (K t) => X; lin.
Qed.
Lemma divisor_gt0 (t : 'I_m.+1) : 0 < divisor t.
Proof. by rewrite /divisor; case: eqP; case: eqP => _ _; rewrite ?mulr1n ?mulr0n; mclra. Qed.
End Stack.

(** subgradient of a convex function from its prox *)
Lemma prox_subgrad_mat n (psi : 'M[R]_n -> R) prox : convex_fun psi -> prox_of psi prox ->
  forall a lam y, 0 <= lam -> lam * psi (prox a lam) + fdot (a - prox a lam) (y - prox a lam) <= lam * psi y.
Proof.
move=> cv hp a lam y l0; have hm := hp a lam l0.
have cf : convex_on (@everywhere _) (fun x => lam * psi x).
  move=> x z t _ _ t0 t1; split=> //.
  have -> : x + t *: (z - x) = (1 - t) *: x + t *: z by lin.
  have := ler_wpmul2l l0 (cv x z t (ltW t0) t1).
  by move: (psi _) (psi _) (psi _) => u v w h; mclra.
apply: (@prox_variational _ (mat_ip n n) _ _ _ _ cf) => //; split=> // z _ /=.
rewrite -!fnorm2E; have [->|ne] := eqVneq z (prox a lam); first exact: lexx.
by apply: ltW; apply: (proj2 hm) => //; apply/eqP.
Qed.

Lemma pair_subgrad n (psi : 'M[R]_n -> R) prox A1 A2 beta rho W1 W2 :
  convex_fun psi -> prox_of psi prox -> 0 <= beta -> 0 < rho ->
  let Z := pair_update prox A1 A2 beta rho in
  beta * psi (Z.2 - Z.1) + rho * (fdot (A1 - Z.1) (W1 - Z.1) + fdot (A2 - Z.2) (W2 - Z.2))
    <= beta * psi (W2 - W1).
Proof.
move=> cv hp b0 r0 /=.
have l0 : 0 <= 2%:R * beta / rho by apply: divr_ge0; [apply: mulr_ge0 => //; mclra | apply: ltW].
have h := prox_subgrad_mat cv hp (A2 - A1) (W2 - W1) l0.
move: (prox _ _) h => e h.
have -> : 2%:R^-1 *: (A1 + A2 + e) - 2%:R^-1 *: (A1 + A2 - e) = e by lin.
have -> : A1 - 2%:R^-1 *: (A1 + A2 - e) = - (2%:R^-1 *: (A2 - A1 - e)) by lin.
have -> : A2 - 2%:R^-1 *: (A1 + A2 + e) = 2%:R^-1 *: (A2 - A1 - e) by lin.
rewrite fdotNl [- _ + _]addrC -fdotBr fdotZl.
have -> : W2 - 2%:R^-1 *: (A1 + A2 + e) - (W1 - 2%:R^-1 *: (A1 + A2 - e)) = W2 - W1 - e by lin.
move: h; rewrite -(ler_pmul2l r0) mulrDr.
have ec z : rho * (2%:R * beta / rho * z) = 2%:R * beta * z.
  by rewrite mulrA mulrCA mulfV ?mulr1 // lt0r_neq0.
rewrite !ec; move: (psi _) (psi _) (fdot _ _) => x y d h.
by clear -h; mclra.
Qed.

Section TGL.
Variables (n m : nat) (eigh : eigh_t n) (psi : 'M[R]_n -> R) (prox : 'M[R]_n -> R -> 'M[R]_n).
Hypothesis He : eigh_ok eigh.
Variables (S : stack n m.+1) (ns : 'I_m.+1 -> R).
Hypothesis sS : slices (@sym n) S.
Hypothesis ns0 : forall t, 0 < ns t.
Implicit Types (K : stack n m.+1) (Z U W : triple n m) (p : tgl_params).
Local Notation px := (PsiPlain psi prox).

(** * structure (C22) *)
Definition tri_sym (Z : triple n m) : Prop :=
  [/\ slices (@sym n) Z.1.1, slices (@sym n) Z.1.2 & slices (@sym n) Z.2].

Lemma tgl_K_pd rho Z U : 0 < rho -> slices (@pd n) (tgl_K_update eigh S ns rho Z U).
Proof.
move=> r0 t; rewrite ffunE; apply: (proj1 (prox_logdet_spec He _ _)).
  by apply: symD => //; apply: symZ; apply: symmetrise_sym.
by apply: divr_gt0 => //; apply: mulr_gt0 => //; apply: divisor_gt0.
Qed.

Lemma tgl_struct p rho Z U K Z' U' :
  (forall a lam, sym a -> sym (prox a lam)) -> 0 < rho -> tri_sym U ->
  tgl_updates eigh px S ns p rho Z U = (K, Z', U') ->
  [/\ slices (@pd n) K, tri_sym Z' & tri_sym U'].
Proof.
move=> hp r0 [u0 u1 u2] [eK eZ <-]; rewrite eK in eZ *; rewrite eZ.
have pK : slices (@pd n) K by rewrite -eK; apply: tgl_K_pd.
have sK t : sym (K t) by apply: pd_sym.
have sZ : tri_sym Z'.
  rewrite -eZ; split=> t; rewrite !ffunE.
  - by apply: soft_sym; apply: symmetrise_sym.
  - apply: symZ; apply: symB; last by apply: hp; apply: symB; apply: symD.
    by apply: symD; apply: symD.
  - apply: symZ; apply: symD; last by apply: hp; apply: symB; apply: symD.
    by apply: symD; apply: symD.
split=> //; case: sZ => z1 z2 z3.
by split=> t; rewrite !(triD, triN) /= !ffunE; apply: symD => //; apply: symB.
Qed.

(** * the solver as an instance of ADMM *)
Hypothesis cv : convex_fun psi.
Hypothesis hp : prox_of psi prox.
Definition tgl_f (K : stack n m.+1) : R := \sum_t ns t * gl_f (S t) (K t).
Definition tgl_g (alpha beta : R) (Z : triple n m) : R :=
  alpha * (\sum_t l1 (Z.1.1 t)) + beta * (\sum_t psi (Z.2 t - Z.1.2 t)).
Definition tgl_D (K : stack n m.+1) : Prop := slices (@pd n) K.
Local Notation step p rho := (admm_step (@dv n m) (@dw n m) (@copies n m) (@Bt n m) tgl_D tgl_f
  (tgl_g (tgl_alpha p) (tgl_beta p)) rho).

Lemma tgl_step p rho Z U K Z' U' : 0 <= tgl_alpha p -> 0 <= tgl_beta p -> 0 < rho ->
  slices (@sym n) U.1.1 ->
  tgl_updates eigh px S ns p rho Z U = (K, Z', U') -> step p rho Z U K Z' U'.
Proof.
move=> a0 b0 r0 sU [eK eZ <-]; rewrite eK in eZ *; rewrite eZ.
have pK : slices (@pd n) K by rewrite -eK; apply: tgl_K_pd.
have sK t : sym (K t) by apply: pd_sym.
have rn : rho != 0 by apply: lt0r_neq0.
split.
- split=> // Y pY; rewrite dvE -big_split; apply: ler_sum => t _.
  have d0 := divisor_gt0 t; have dn : divisor t != 0 by apply: lt0r_neq0.
  have nn : ns t != 0 by apply: lt0r_neq0.
  set A := Bt (Z - U) t.
  have sA : sym ((- rho * divisor t / ns t) *: symmetrise ((divisor t)^-1 *: A) + S t).
    by apply: symD => //; apply: symZ; apply: symmetrise_sym.
  have l0 : 0 < ns t / (rho * divisor t) by apply: divr_gt0 => //; apply: mulr_gt0.
  have [_] := prox_logdet_spec He sA l0.
  have -> : prox_logdet eigh ((- rho * divisor t / ns t) *: symmetrise ((divisor t)^-1 *: A) + S t)
     (ns t / (rho * divisor t)) = K t by rewrite -eK ffunE.
  move=> eI; have := gl_f_subg (sS t) (pK t) (pY t); rewrite eI.
  rewrite -(ler_pmul2l (ns0 t)) mulrDr -fdotZl.
  have eB : Bt (copies K - Z + U) t = divisor t *: K t - A.
    have -> : copies K - Z + U = copies K - (Z - U) by lin.
    by rewrite BtB stB Bt_copies.
  have -> : fdot ((- rho *: Bt (copies K - Z + U)) t) ((Y - K) t)
    = fdot (- rho *: (divisor t *: K t - A)) (Y t - K t) by rewrite -eB stZ stB.
  have -> : ns t *: (S t - ((- rho * divisor t / ns t) *: symmetrise ((divisor t)^-1 *: A) + S t
      + (ns t / (rho * divisor t))^-1 *: K t)) = - rho *: (divisor t *: K t - symmetrise A).
    have -> : symmetrise ((divisor t)^-1 *: A) = (divisor t)^-1 *: symmetrise A.
      exact: symmetriseZ.
    move: (S t) (symmetrise A) (K t) => X B C.
    by lin.
  rewrite !fdotZl !fdotBl.
  have -> : fdot (symmetrise A) (Y t - K t) = fdot A (Y t - K t).
    by rewrite /symmetrise fdot_asym //; apply: symB => //; apply: pd_sym.
  by [].
- move=> W; rewrite dwE /tgl_g.
  have h0 : tgl_alpha p * (\sum_t l1 (Z'.1.1 t)) +
     \sum_t fdot ((rho *: (copies K + U - Z')).1.1 t) ((W - Z').1.1 t) <=
     tgl_alpha p * \sum_t l1 (W.1.1 t).
    rewrite !mulr_sumr -big_split; apply: ler_sum => t _; cbv beta.
    rewrite !(triZ, triD, triN) !(stZ, stD, stN) /=.
    have ar : 0 <= tgl_alpha p / rho by apply: divr_ge0 => //; apply: ltW.
    have eZ0 : Z'.1.1 t = soft_thresholding (K t + U.1.1 t) (tgl_alpha p / rho).
      by rewrite -eZ /= ffunE symmetrise_id //; apply: symD.
    rewrite eZ0; have := soft_subgrad (K t + U.1.1 t) (W.1.1 t) ar.
    rewrite -(ler_pmul2l r0) mulrDr fdotZl !(mulrA rho (tgl_alpha p / rho)).
    by have -> : rho * (tgl_alpha p / rho) = tgl_alpha p by rewrite mulrCA mulfV ?mulr1.
  have h1 : tgl_beta p * (\sum_t psi (Z'.2 t - Z'.1.2 t)) +
     (\sum_t fdot ((rho *: (copies K + U - Z')).1.2 t) ((W - Z').1.2 t) +
      \sum_t fdot ((rho *: (copies K + U - Z')).2 t) ((W - Z').2 t)) <=
     tgl_beta p * \sum_t psi (W.2 t - W.1.2 t).
    rewrite !mulr_sumr -!big_split; apply: ler_sum => t _; cbv beta.
    rewrite !(triZ, triD, triN) !(stZ, stD, stN) /= !fdotZl -mulrDr.
    have e1 : Z'.1.2 t = (pair_update prox (but_last K t + U.1.2 t) (but_first K t + U.2 t)
       (tgl_beta p) rho).1 by rewrite -eZ /= ffunE !stD.
    have e2 : Z'.2 t = (pair_update prox (but_last K t + U.1.2 t) (but_first K t + U.2 t)
       (tgl_beta p) rho).2 by rewrite -eZ /= ffunE !stD.
    rewrite e1 e2; exact: pair_subgrad.
  move: h0 h1; rewrite -(addrA (\sum_t fdot _ _)).
  move: (\sum_t fdot _ _) (\sum_t fdot _ _ + _) (_ * \sum_t l1 _) (_ * \sum_t l1 _) => a b c d.
  move: (_ * \sum_t psi _) (_ * \sum_t psi _) => e f h0 h1.
  by clear -h0 h1; mclra.
- by move: (copies K) => X; lin.
Qed.
End TGL.
