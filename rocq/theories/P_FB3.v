(** Proofs about the forward-backward model: values, gradients, second order expansion. *)
From Coq Require Import Reals Lra Psatz String.
From mathcomp Require Import all_ssreflect all_algebra.
From Verif Require Import RStruct RTac LinTac Spectral S_Mat RMx ADMM NP Str M_Prox S_Prox P_Eigh.
From Verif Require Import P_Prox P_Prox2 P_Prox3 M_Loop P_Loop M_GL S_GL P_GL M_LGL P_LGL S_Fit.
From Verif Require Import M_TGL S_TGL P_TGL P_TGL2 P_KTGL5 M_FB S_FB P_FB P_FB2.
Import Order.TTheory GRing.Theory Num.Theory.

Set Implicit Arguments.
Unset Strict Implicit.
Unset Printing Implicit Defensive.
Local Open Scope ring_scope.

(** * the Laplacian term *)
Section Lap.
Variables (n m : nat).
Implicit Types X H : stack n m.+2.
Definition dif k (X : stack n k.+1) : stack n k := but_first X - but_last X.
Lemma difE k (X : stack n k.+1) s : dif X s = X (lift ord0 s) - X (lift ord_max s).
Proof. by rewrite stB !ffunE. Qed.
Lemma difD k (X H : stack n k.+1) : dif (X + H) = dif X + dif H.
Proof. by apply: stackE => s; rewrite [RHS]stD !difE !stD; lin. Qed.
Lemma lap_aux X t : laplacian_aux X t =
  oapp (dif X) 0 (unlift ord0 t) - oapp (dif X) 0 (unlift ord_max t).
Proof.
rewrite /laplacian_aux; case: unliftP => [s|] et.
  have /negPf -> : t != ord0 by rewrite et eq_sym neq_lift.
  have es : inord t.-1 = lift ord_max s :> 'I_m.+2.
    have e1 : nat_of_ord t = s.+1 by rewrite et /= /bump leq0n add1n.
    apply: val_inj => /=; rewrite inordK e1 /=; last by rewrite ltnW // ltnS ltn_ord.
    by rewrite /bump leqNgt ltn_ord add0n.
  case: unliftP => [s'|] et'.
    have /negPf -> : t != ord_max by rewrite et' eq_sym neq_lift.
    have es' : inord t.+1 = lift ord0 s' :> 'I_m.+2.
      have e1 : nat_of_ord t = s' by rewrite et' /= /bump leqNgt ltn_ord add0n.
      apply: val_inj => /=; rewrite inordK e1; first by rewrite /bump leq0n add1n.
      by rewrite ltnS; apply: ltn_ord s'.
    by rewrite /= !difE -et -et' es es'; lin.
  rewrite et' eqxx /= difE -et et' oppr0 addr0; congr (_ - X _); rewrite -es et' /=.
  by [].
rewrite et eqxx; case: unliftP => [s'|] et'; last by [].
have e0 : nat_of_ord s' = 0%N.
  by have := congr1 val et'; rewrite /= /bump leqNgt ltn_ord add0n.
rewrite /= difE -et' sub0r opprB; congr (_ - X _); apply: val_inj => /=.
by rewrite inordK // /bump leq0n e0.
Qed.
Lemma lap_adj X H : \sum_t fdot (laplacian_aux X t) (H t) = sip n m.+1 (dif X) (dif H).
Proof.
rewrite (eq_bigr (fun t => fdot (oapp (dif X) 0 (unlift ord0 t)) (H t)
                         - fdot (oapp (dif X) 0 (unlift ord_max t)) (H t))); last first.
  by move=> t _; rewrite lap_aux fdotBl.
rewrite sumrB [X in X - _]sum_lift0 [X in _ - X]sum_lift_max !unlift_none [oapp _ _ None]/= !fdot0l !addr0.
rewrite sipE -sumrB; apply: eq_bigr => s _.
by rewrite !liftK /= (difE H) fdotBr.
Qed.
Lemma dif_bound X : sip n m.+1 (dif X) (dif X) <= 4%:R * sip n m.+2 X X.
Proof.
rewrite !sipE.
apply: (@le_trans _ _ (\sum_s (2%:R * fdot (X (lift ord0 s)) (X (lift ord0 s)) +
   2%:R * fdot (X (lift ord_max s)) (X (lift ord_max s))))).
  apply: ler_sum => s _; rewrite difE; move: (X _) (X _) => A B.
  have := fdotAA_ge0 (A + B); rewrite !fdotBl !fdotBr !fdotDl !fdotDr (fdotC B A).
  by move: (fdot A A) (fdot A B) (fdot B B) => *; mclra.
rewrite big_split /= -!mulr_sumr.
have h1 : \sum_(s < m.+1) fdot (X (lift ord0 s)) (X (lift ord0 s)) <= \sum_t fdot (X t) (X t).
  by rewrite [X in _ <= X]sum_lift0 ler_addl fdotAA_ge0.
have h2 : \sum_(s < m.+1) fdot (X (lift ord_max s)) (X (lift ord_max s)) <= \sum_t fdot (X t) (X t).
  by rewrite [X in _ <= X]sum_lift_max ler_addl fdotAA_ge0.
by move: (\sum_s _) (\sum_s _) (\sum_s _) h1 h2 => *; mclra.
Qed.
End Lap.

Section Prob.
Variables (n m : nat) (pinvh : 'M[R]_n -> 'M[R]_n) (S : stack n m.+2) (ns : 'I_m.+2 -> R) (p : fb_params).
Hypothesis Hp : pinvh_ok pinvh.
Hypothesis sS : slices (@sym n) S.
Local Notation lap := (fb_laplacian p).
Local Notation smooth := (fb_smooth lap ns S (fb_beta p) (fb_vareps p)).
Local Notation prob := (fb_problem lap ns S (fb_alpha p) (fb_beta p) (fb_vareps p)).
Local Notation G := (fb_grad pinvh S ns p).
Local Notation sipn := (sip n m.+2).
Implicit Types X Z K : stack n m.+2.

Lemma pairs_dif X :
  \sum_(s < m.+2) \sum_(t < m.+2 | t == s.+1 :> nat) fnorm2 (X t - X s) = sip n m.+1 (dif X) (dif X).
Proof.
rewrite (sum_pairs (fun t s => fnorm2 (X t - X s))) sipE; apply: eq_bigr => s _.
by rewrite difE fnorm2E.
Qed.
Lemma tgl_lossE' K : slices (@pd n) K ->
  tgl_loss S K (Some ns) = Fin (\sum_t ns t * (\tr (S t *m K t) - ln (\det (K t)))).
Proof.
move=> pK; rewrite /tgl_loss /=.
elim/big_rec2: _ => // t y1 y2 _ ->; rewrite /log_likelihood /fast_logdet pd_det_gt0 //= tr_fdot //.
by congr (Fin (_ + _)); rewrite mulNr -mulrN opprB.
Qed.
Lemma fb_fE K : slices (@pd n) K -> fb_f S (Some ns) p K = Fin (smooth K).
Proof.
move=> pK; rewrite /fb_f /loss_laplacian /fb_loss /fb_smooth tgl_lossE' //=.
have e : scalar_product K K = \sum_t fnorm2 (K t) by apply: eq_bigr => t _; rewrite fnorm2E.
by rewrite e; case: lap; rewrite /= ?addr0 // pairs_dif.
Qed.
Lemma fb_objE K : fb_obj (@l1 1 m.+1) S (Some ns) p K =
  xadd (fb_f S (Some ns) p K) (Fin (greal lap (fb_alpha p) (fb_beta p) K)).
Proof.
rewrite /fb_obj /fb_f /objective_laplacian /fb_objective /penalty_laplacian /fb_penalty /greal.
by rewrite (eq_bigr (fun t => l1od (K t))) => [|t _]; [case: lap; rewrite ?addr0|rewrite l1_od_normE].
Qed.
Lemma fb_gE K : fb_g (@l1 1 m.+1) p K = greal lap (fb_alpha p) (fb_beta p) K.
Proof.
rewrite /fb_g /penalty_laplacian /fb_penalty /greal.
by rewrite (eq_bigr (fun t => l1od (K t))) => [|t _]; [case: lap; rewrite ?addr0|rewrite l1_od_normE].
Qed.
Lemma probE K : prob K = smooth K + greal lap (fb_alpha p) (fb_beta p) K.
Proof.
rewrite /fb_problem /time_obj /fb_smooth /greal; case: lap.
  move: (\sum_t _) (\sum_t _) (\sum_t _) (\sum_(s < m.+2) _) => *; mcring.
rewrite vnorm_l1; move: (\sum_t _) (\sum_t _) (\sum_t _) (\sum_(s < m.+2) _) => *; mcring.
Qed.

Lemma gradE X t : slices (@pd n) X -> G X t =
  ns t *: (S t - invmx (X t)) + fb_vareps p *: X t +
  (if lap then (2%:R * fb_beta p) *: laplacian_aux X t else 0).
Proof.
move=> pX; rewrite /fb_grad /grad_loss_laplacian; case: lap; rewrite !ffunE ?addr0 Hp //.
1,3: by apply: pd_sym; apply: pX.
1,2: by apply: pd_unit; apply: pX.
Qed.

Definition gap (A B : 'M[R]_n) : R := ln (\det A) + \tr (invmx A *m (B - A)) - ln (\det B).
Lemma gap_ge0 A B : pd A -> pd B -> 0 <= gap A B.
Proof. by move=> pA pB; have := logdet_tangent pA pB; rewrite /logdet /gap subr_ge0. Qed.

Lemma smooth_expand X Z : slices (@pd n) X -> slices (@pd n) Z ->
  smooth Z = smooth X + sipn (G X) (Z - X) + \sum_t ns t * gap (X t) (Z t)
    + fb_vareps p / 2%:R * sipn (Z - X) (Z - X)
    + (if lap then fb_beta p * sip n m.+1 (dif (Z - X)) (dif (Z - X)) else 0).
Proof.
move=> pX pZ; rewrite /fb_smooth !pairs_dif.
have e1 : sipn (G X) (Z - X) = \sum_t ns t * (fdot (S t) (Z t - X t) - \tr (invmx (X t) *m (Z t - X t)))
   + fb_vareps p * sipn X (Z - X) + (if lap then 2%:R * fb_beta p * sip n m.+1 (dif X) (dif (Z - X)) else 0).
  rewrite sipE (eq_bigr (fun t => ns t * (fdot (S t) (Z t - X t) - \tr (invmx (X t) *m (Z t - X t)))
    + fb_vareps p * fdot (X t) ((Z - X) t) + (if lap then 2%:R * fb_beta p * fdot (laplacian_aux X t) ((Z - X) t) else 0))).
    rewrite !big_split /= -mulr_sumr; congr (_ + _ + _).
    by case: lap; rewrite ?big1_eq // -mulr_sumr lap_adj.
  move=> t _; rewrite gradE // !fdotDl !fdotZl fdotBl stB tr_fdot; last first.
    by apply: sym_inv; apply: pd_sym; apply: pX.
  by case: lap; rewrite ?fdotZl ?fdot0l.
have e2 : \sum_t ns t * (\tr (S t *m Z t) - ln (\det (Z t))) =
  \sum_t ns t * (\tr (S t *m X t) - ln (\det (X t))) +
  \sum_t ns t * (fdot (S t) (Z t - X t) - \tr (invmx (X t) *m (Z t - X t))) + \sum_t ns t * gap (X t) (Z t).
  rewrite -!big_split /=; apply: eq_bigr => t _; rewrite -!mulrDr; congr (_ * _).
  rewrite (tr_fdot _ (sS t)) (tr_fdot _ (sS t)) fdotBr /gap.
  by move: (fdot _ _) (fdot _ _) (ln _) (ln _) (\tr _) => *; mcring.
have e3 : \sum_t fnorm2 (Z t) = \sum_t fnorm2 (X t) + 2%:R * sipn X (Z - X) + sipn (Z - X) (Z - X).
  rewrite !sipE mulr_sumr -!big_split /=; apply: eq_bigr => t _.
  by rewrite stB -fnorm2E -fnorm2D; congr fnorm2; lin.
have e4 : sip n m.+1 (dif Z) (dif Z) = sip n m.+1 (dif X) (dif X) + 2%:R * sip n m.+1 (dif X) (dif (Z - X))
   + sip n m.+1 (dif (Z - X)) (dif (Z - X)).
  by rewrite -nrm2D -difD; have -> : X + (Z - X) = Z by lin.
rewrite e1 e2 e3 e4; move: (sip n m.+1 _ _) (sip n m.+1 _ _) (sip n m.+1 _ _) => q1 q2 q3.
move: (sipn _ _) (sipn _ _) (\sum_t _) (\sum_t _) (\sum_t _) (\sum_t _) => *.
by case: lap; mcfield.
Qed.

Hypothesis ns0 : forall t, 0 <= ns t.
Hypothesis v0 : 0 <= fb_vareps p.
Hypothesis b0 : 0 <= fb_beta p.

Lemma smooth_lower X Z : slices (@pd n) X -> slices (@pd n) Z ->
  smooth X + sipn (G X) (Z - X) <= smooth Z.
Proof.
move=> pX pZ; rewrite (smooth_expand pX pZ).
have num (a b c d e : R) : 0 <= c -> 0 <= d -> 0 <= e -> a + b <= a + b + c + d + e.
  by move=> *; mclra.
apply: num.
- by apply: sumr_ge0 => t _; apply: mulr_ge0 => //; apply: gap_ge0.
- by apply: mulr_ge0; [rewrite divr_ge0 // ; mclra|apply: ip_ge0].
- by case: lap => //; apply: mulr_ge0 => //; apply: ip_ge0.
Qed.

Lemma smooth_upper (c N : R) X Z : 0 < c -> (forall t, ns t <= N) ->
  slices (fun A => psd (A - c%:M)) X -> slices (fun A => psd (A - c%:M)) Z ->
  smooth Z <= smooth X + sipn (G X) (Z - X) +
    (N * c^-1 ^+ 2 + fb_vareps p / 2%:R + 4%:R * fb_beta p) * sipn (Z - X) (Z - X).
Proof.
move=> c0 hN fX fZ.
have pX : slices (@pd n) X by move=> t; apply: floor_pd c0 (fX t).
have pZ : slices (@pd n) Z by move=> t; apply: floor_pd c0 (fZ t).
rewrite (smooth_expand pX pZ) 2!mulrDl.
have num (a b k d e k' e' : R) : k <= k' -> e <= e' -> a + b + k + d + e <= a + b + (k' + d + e').
  by move=> *; mclra.
apply: num.
  rewrite sipE mulr_sumr; apply: ler_sum => t _.
  have h := logdet_upper c0 (fX t) (fZ t).
  apply: (@le_trans _ _ (ns t * (c^-1 ^+ 2 * fdot ((Z - X) t) ((Z - X) t)))).
    by apply: ler_wpmul2l => //; rewrite -fnorm2E stB.
  rewrite -mulrA; apply: ler_wpmul2r => //; apply: mulr_ge0; first exact: sqr_ge0.
  exact: fdotAA_ge0.
have q0 : 0 <= 4%:R * fb_beta p * sipn (Z - X) (Z - X).
  apply: mulr_ge0; last exact: ip_ge0.
  by apply: mulr_ge0 => //; mclra.
case: lap => //.
rewrite -mulrA mulrCA; exact: (ler_wpmul2l b0 (dif_bound (Z - X))).
Qed.
End Prob.
