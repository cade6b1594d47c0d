(** Time graphical lasso: stationary points, the loop, termination, counts. *)
From Coq Require Import Reals Lra Psatz Epsilon.
From mathcomp Require Import all_ssreflect all_algebra.
From Verif Require Import RStruct RTac LinTac Spectral S_Mat RMx ADMM NP M_Prox S_Prox P_Eigh.
From Verif Require Import P_Prox P_Prox2 P_Rules M_Loop P_Loop M_GL S_GL P_GL P_GL2 M_LGL P_LGL.
From Verif Require Import M_TGL S_TGL P_TGL P_Admm.
Import Order.TTheory GRing.Theory Num.Theory.

Set Implicit Arguments.
Unset Strict Implicit.
Unset Printing Implicit Defensive.
Local Open Scope ring_scope.

Lemma sum_pairs m (F : 'I_m.+1 -> 'I_m.+1 -> R) :
  \sum_(s < m.+1) \sum_(t < m.+1 | t == s.+1 :> nat) F t s =
  \sum_(s < m) F (lift ord0 s) (lift ord_max s).
Proof.
rewrite sum_lift_max [X in _ + X]big1 ?addr0; last first.
  by move=> t /eqP /= e; move: (ltn_ord t); rewrite e ltnn.
apply: eq_bigr => s _; rewrite (big_pred1 (lift ord0 s)) // => t.
rewrite /= -[RHS]val_eqE /= /bump leq0n add1n.
by have -> : (m <= s)%N = false by rewrite leqNgt ltn_ord.
Qed.

Lemma fin_pos_bound T (d : 'I_T -> R) : (forall t, 0 < d t) -> exists e, 0 < e /\ forall t, e <= d t.
Proof.
elim: T d => [|T IH] d d0; first by exists 1; split=> [|[]]//; exact: ltr01.
have [e [e0 he]] := IH (fun t => d (lift ord0 t)) (fun t => d0 _).
have [m1 m2 m3] := np_minP (d ord0) e.
exists (np_min (d ord0) e); split; first by case: m3 => ->.
move=> t; case: (unliftP ord0 t) => [j|] -> //; exact: le_trans m2 (he j).
Qed.

Section Diag.
Variables (n : nat) (i : 'I_n).
Implicit Types K : 'M[R]_n.
Lemma fdot_delta K : fdot K (delta_mx i i) = K i i.
Proof.
rewrite /fdot (bigD1 i) //= (bigD1 i) //= !big1 ?addr0; first by rewrite mxE !eqxx mulr1.
  by move=> a ai; rewrite big1 // => b _; rewrite mxE (negbTE ai) mulr0.
by move=> a ai; rewrite mxE (negbTE ai) andbF mulr0.
Qed.
Lemma l1_shift K t : 0 <= K i i -> 0 <= K i i + t -> l1 (K + t *: delta_mx i i) = l1 K + t.
Proof.
move=> ki kt; transitivity (l1 K + t * fdot (const_mx 1) (delta_mx i i)).
  rewrite /l1 /fdot mulr_sumr -big_split; apply: eq_bigr => a _.
  rewrite mulr_sumr -big_split; apply: eq_bigr => b _; rewrite !mxE mul1r /=.
  case: eqP => [->|_]; last by rewrite !mulr0 !addr0.
  case: eqP => [->|_]; last by rewrite !mulr0 !addr0.
  by rewrite mulr1 (ger0_norm kt) (ger0_norm ki).
by rewrite fdot_delta mxE mulr1.
Qed.
Lemma l1od_shift K t : l1od (K + t *: delta_mx i i) = l1od K.
Proof.
rewrite !l1odE; apply: eq_bigr => a _; apply: eq_bigr => b _.
case: eqP => // ab; rewrite !mxE; case: eqP => [ai|_]; last by rewrite mulr0 addr0.
by case: eqP => [e|_]; [case: ab; rewrite e ai | rewrite mulr0 addr0].
Qed.
Lemma delta_sym : sym (delta_mx i i : 'M[R]_n). Proof. by rewrite /sym trmx_delta. Qed.

(** second order smoothness of the likelihood along the diagonal *)
Lemma gl_f_smooth (S K : 'M[R]_n) : sym S -> pd K -> exists C d, [/\ 0 < d, 0 <= C &
  forall t, 0 < t -> t <= d -> [/\ pd (K + t *: delta_mx i i), pd (K - t *: delta_mx i i), t <= K i i &
    gl_f S (K + t *: delta_mx i i) + gl_f S (K - t *: delta_mx i i) <= 2%:R * gl_f S K + C * t ^+ 2]].
Proof.
move=> sS pK; have sE := delta_sym.
have [C1 [d1 [p1 c1 h1]]] := logdet_expand pK sE.
have [C2 [d2 [p2 c2 h2]]] := logdet_expand pK (symN sE).
have k0 := pd_diag_gt0 i pK.
have [m1 m2 m3] := np_minP d1 d2; have [q1 q2 q3] := np_minP (np_min d1 d2) (K i i).
exists (C1 + C2), (np_min (np_min d1 d2) (K i i)); split; first by case: q3 => -> //; case: m3 => ->.
  exact: addr_ge0.
move=> t t0 td.
have t12 := le_trans td q1.
have [pa ha] := h1 t t0 (le_trans t12 m1); have [pb hb] := h2 t t0 (le_trans t12 m2).
rewrite scalerN in pb hb; split=> //; first exact: le_trans td q2.
rewrite /gl_f !tr_fdot // (fdotDr K _ S) (fdotBr K _ S); rewrite mulmxN linearN /= in hb.
move: ha hb; move: (logdet _) (logdet _) (logdet _) (fdot _ _) (fdot _ _) (\tr _).
by clear; move=> a b c d e f ha hb; mclra.
Qed.
End Diag.

Section TGL2.
Variables (n m : nat) (eigh : eigh_t n) (psi : 'M[R]_n -> R) (prox : 'M[R]_n -> R -> 'M[R]_n).
Hypothesis He : eigh_ok eigh.
Variables (S : stack n m.+1) (ns : 'I_m.+1 -> R).
Hypothesis sS : slices (@sym n) S.
Hypothesis ns0 : forall t, 0 < ns t.
Hypothesis cv : convex_fun psi.
Hypothesis hp : prox_of psi prox.
Implicit Types (K : stack n m.+1) (Z U W : triple n m) (p : tgl_params).
Local Notation px := (PsiPlain psi prox).

Lemma time_objE alpha beta K :
  time_obj (@l1 n n) psi ns S alpha beta K =
  tgl_f S ns K + tgl_g psi alpha beta (copies K).
Proof.
rewrite /time_obj /tgl_f /tgl_g sum_pairs addrA; congr (_ + _ + _ * _).
by apply: eq_bigr => s _; rewrite !ffunE.
Qed.

(** C23 *)
Lemma tgl_fixed_opt p rho Z U K : 0 <= tgl_alpha p -> 0 <= tgl_beta p -> 0 < rho ->
  slices (@sym n) U.1.1 -> tgl_updates eigh px S ns p rho Z U = (K, Z, U) ->
  Z = copies K /\
  minimiser (fun K : stack n m.+1 => slices (@pd n) K)
    (fun K => time_obj (@l1 n n) psi ns S (tgl_alpha p) (tgl_beta p) K) K.
Proof.
move=> a0 b0 r0 sU E.
have st := tgl_step He sS ns0 cv hp a0 b0 r0 sU E.
have [e k] := step_fixed st; split=> //.
have [h1 h2] := kkt_opt (@copiesB n m) (@copies_adj n m) k.
by split=> // Y pY; rewrite !time_objE; apply: h2.
Qed.

(** the documented objective *)
Lemma tgl_l1_not_od alpha beta K (i : 'I_n) : 0 < alpha ->
  minimiser (fun K : stack n m.+1 => slices (@pd n) K) (fun K => time_obj (@l1 n n) psi ns S alpha beta K) K ->
  ~ minimiser (fun K : stack n m.+1 => slices (@pd n) K) (fun K => time_obj (@l1od n) psi ns S alpha beta K) K.
Proof.
move=> a0 [pK h1] [_ h2].
pose Q (t : 'I_m.+1) (cd : R * R) := [/\ 0 < cd.2, 0 <= cd.1 &
  forall x, 0 < x -> x <= cd.2 -> [/\ pd (K t + x *: delta_mx i i), pd (K t - x *: delta_mx i i), x <= K t i i &
    gl_f (S t) (K t + x *: delta_mx i i) + gl_f (S t) (K t - x *: delta_mx i i)
      <= 2%:R * gl_f (S t) (K t) + cd.1 * x ^+ 2]].
have [cd hcd] : exists cd : 'I_m.+1 -> R * R, forall t, Q t (cd t).
  have ex t : exists cd, Q t cd.
    by have [C [d h]] := gl_f_smooth i (sS t) (pK t); exists (C, d).
  by exists (fun t => epsilon (inhabits (0, 0)) (Q t)) => t; apply: epsilon_spec.
have [e [e0 he]] := @fin_pos_bound _ (fun t => (cd t).2) (fun t => let: And3 h _ _ := hcd t in h).
pose C := \sum_t ns t * (cd t).1.
have C0 : 0 <= C by apply: sumr_ge0 => t _; apply: mulr_ge0; [exact: ltW | case: (hcd t)].
suff : 0 <= - (alpha * m.+1%:R) by rewrite oppr_ge0 leNgt mulr_gt0.
apply: (@le0_lim_delta _ C _ e0) => x x0 xe.
have hx t := let: And3 _ _ h := hcd t in h x x0 (le_trans xe (he t)).
pose Kp : stack n m.+1 := [ffun t => K t + x *: delta_mx i i].
pose Km : stack n m.+1 := [ffun t => K t - x *: delta_mx i i].
have pp : slices (@pd n) Kp by move=> t; rewrite ffunE; case: (hx t).
have pm : slices (@pd n) Km by move=> t; rewrite ffunE; case: (hx t).
have := h2 Kp pp; have := h1 Km pm; rewrite /time_obj !sum_pairs.
have -> : \sum_(s < m) psi (Kp (lift ord0 s) - Kp (lift ord_max s))
  = \sum_(s < m) psi (K (lift ord0 s) - K (lift ord_max s)).
  by apply: eq_bigr => s _; rewrite !ffunE; congr psi; rewrite opprD addrACA subrr addr0.
have -> : \sum_(s < m) psi (Km (lift ord0 s) - Km (lift ord_max s))
  = \sum_(s < m) psi (K (lift ord0 s) - K (lift ord_max s)).
  by apply: eq_bigr => s _; rewrite !ffunE; congr psi; rewrite opprD addrACA opprK addNr addr0.
have -> : \sum_t l1od (Kp t) = \sum_t l1od (K t).
  by apply: eq_bigr => t _; rewrite ffunE l1od_shift.
have -> : \sum_t l1 (Km t) = \sum_t l1 (K t) - m.+1%:R * x.
  have -> : m.+1%:R * x = \sum_(t < m.+1) x by rewrite sumr_const card_ord mulr_natl.
  rewrite -sumrB; apply: eq_bigr => t _.
  rewrite ffunE -scaleNr l1_shift //; first exact: ltW (pd_diag_gt0 i (pK t)).
  by rewrite subr_ge0; case: (hx t).
have hs : \sum_t ns t * (\tr (S t *m Kp t) - ln (\det (Kp t))) +
  \sum_t ns t * (\tr (S t *m Km t) - ln (\det (Km t))) <=
  2%:R * (\sum_t ns t * (\tr (S t *m K t) - ln (\det (K t)))) + C * x ^+ 2.
  rewrite -big_split mulr_sumr /C mulr_suml -big_split; apply: ler_sum => t _ /=.
  have [_ _ _ h] := hx t; rewrite !ffunE -mulrDr.
  have := ler_wpmul2l (ltW (ns0 t)) h; rewrite /gl_f /logdet.
  move: (_ - ln _) (_ - ln _) (_ - ln _) (cd t).1 (ns t) => a b c d e1 h'.
  by clear -h'; mclra.
move: hs; rewrite -(pmulr_rge0 _ x0).
move: (\sum_t ns t * _) (\sum_t ns t * _) (\sum_t ns t * _) (\sum_t l1 _) (\sum_t l1od _).
move: (\sum_(s < m) _) (m.+1%:R) => q T a b c d f h3 h4 h5.
clear -h3 h4 h5; mclra.
Qed.

Lemma tgl_fixed_not_doc p rho Z U K (i : 'I_n) : 0 < tgl_alpha p -> 0 <= tgl_beta p -> 0 < rho ->
  slices (@sym n) U.1.1 -> tgl_updates eigh px S ns p rho Z U = (K, Z, U) ->
  ~ minimiser (fun K : stack n m.+1 => slices (@pd n) K)
    (fun K => time_obj (@l1od n) psi ns S (tgl_alpha p) (tgl_beta p) K) K.
Proof.
move=> a0 b0 r0 sU E; apply: (tgl_l1_not_od i a0).
by have [] := tgl_fixed_opt (ltW a0) b0 r0 sU E.
Qed.
End TGL2.
