(** Finite-dimensional Hahn-Banach and the multiplier rule. Mathematics only. *)
From Coq Require Import Reals Lra Psatz.
From mathcomp Require Import all_ssreflect all_algebra.
From Verif Require Import RStruct RTac LinTac S_Mat RMx ADMM NP P_Prox2 P_GL.
Import Order.TTheory GRing.Theory Num.Theory.

Set Implicit Arguments.
Unset Strict Implicit.
Unset Printing Implicit Defensive.
Local Open Scope ring_scope.

(** greatest lower bounds *)
Definition is_glb (E : R -> Prop) (x : R) : Prop :=
  (forall y, E y -> x <= y) /\ (forall b, (forall y, E y -> b <= y) -> b <= x).
Lemma glb_exists (E : R -> Prop) : (exists x, E x) -> (exists b, forall y, E y -> b <= y) -> {x | is_glb E x}.
Proof.
move=> ne bd; have b2 : bound (fun x => E (- x)).
  by case: bd => b hb; exists (- b) => x /hb h; toR; lra.
have n2 : exists x, E (- x) by case: ne => x ex; exists (- x); rewrite opprK.
have [x [h1 h2]] := completeness _ b2 n2; exists (- x); split.
- by move=> y ey; have := h1 (- y); rewrite opprK => /(_ ey) h; toR; lra.
- move=> b hb; have : Rle x (- b) by apply: h2 => y /hb h; toR; lra.
  by move=> h; toR; lra.
Qed.

Definition sublinear (W : lmodType R) (P : W -> R) : Prop :=
  (forall x y, P (x + y) <= P x + P y) /\ (forall a x, 0 < a -> P (a *: x) = a * P x).

Section Ext.
Variables (W : lmodType R).
Implicit Types P : W -> R.

Lemma sublin0 P : sublinear P -> P 0 = 0.
Proof.
move=> [_ h]; have := h 2%:R 0 (ltr0n _ 2); rewrite scaler0; move: (P 0) => x; clear; mclra.
Qed.
Lemma sublinN P x : sublinear P -> 0 <= P x + P (- x).
Proof. by move=> h; rewrite -(sublin0 h) -(subrr x); apply: h.1. Qed.

Lemma sublin_step P (e : W) : sublinear P -> exists P', [/\ sublinear P',
  (forall x, P' x <= P x) & P' e + P' (- e) = 0].
Proof.
move=> hP; have [h1 h2] := hP.
pose E v y := exists s, 0 <= s /\ y = P (v + s *: e) - s * P e.
have ne v : exists y, E v y by exists (P (v + 0 *: e) - 0 * P e), 0.
have bd v : exists b, forall y, E v y -> b <= y.
  exists (- P (- v)) => y [s [s0 ->]].
  have h : s * P e <= P (v + s *: e) + P (- v).
    case: (eqVneq s 0) => [->|sn].
      by rewrite mul0r scale0r addr0; apply: sublinN.
    rewrite -h2 ?lt_def ?sn //; have := h1 (v + s *: e) (- v).
    by have -> : v + s *: e - v = s *: e by lin.
  by move: h; move: (s * P e) (P _) (P _) => a b c h; mclra.
pose P' v := proj1_sig (glb_exists (ne v) (bd v)).
have hg v : is_glb (E v) (P' v) by rewrite /P'; case: (glb_exists _ _).
have le x : P' x <= P x.
  by apply: (hg x).1; exists 0; split=> //; rewrite scale0r addr0 mul0r subr0.
have sP : sublinear P'.
  split.
    move=> x y.
    suff h a b : E x a -> E y b -> P' (x + y) <= a + b.
      suff : P' (x + y) - P' y <= P' x by rewrite ler_subl_addr.
      apply: (hg x).2 => a Ea.
      suff : P' (x + y) - a <= P' y by move: (P' _) (P' _) => u v k; clear -k; mclra.
      by apply: (hg y).2 => b Eb; have := h _ _ Ea Eb; move: (P' _) => u k; clear -k; mclra.
    move=> [s [s0 ->]] [t [t0 ->]].
    have ex : E (x + y) (P (x + y + (s + t) *: e) - (s + t) * P e).
      by exists (s + t); split=> //; apply: addr_ge0.
    apply: le_trans ((hg _).1 _ ex) _.
    have -> : x + y + (s + t) *: e = (x + s *: e) + (y + t *: e) by lin.
    have := h1 (x + s *: e) (y + t *: e).
    by move: (P _) (P _) (P _) (P e) => u v w z k; clear -k; mclra.
  have le1 a x : 0 < a -> P' (a *: x) <= a * P' x.
    move=> a0; rewrite -ler_pdivr_mull //; apply: (hg x).2 => y [s [s0 ->]].
    rewrite ler_pdivr_mull //; apply: (hg _).1; exists (a * s); split; first by apply: mulr_ge0 => //; apply: ltW.
    have -> : a *: x + (a * s) *: e = a *: (x + s *: e) by lin.
    by rewrite h2 // mulrBr mulrA.
  move=> a x a0; apply/eqP; rewrite eq_le le1 //=.
  have ai : 0 < a^-1 by rewrite invr_gt0.
  have := le1 a^-1 (a *: x) ai; rewrite scalerA mulVf ?lt0r_neq0 // scale1r.
  by rewrite -ler_pdivr_mull // invrK.
exists P'; split=> //; apply/eqP; rewrite eq_le sublinN // andbT.
have l1 : P' (- e) <= - P e.
  apply: (hg _).1; exists 1; split=> //.
  by rewrite scale1r addNr (sublin0 hP) mul1r sub0r.
by have := le e; move: l1; move: (P' e) (P' _) (P e) => a b c l1 l2; clear -l1 l2; mclra.
Qed.

Lemma sublin_seq (es : seq W) P : sublinear P -> exists P', [/\ sublinear P',
  (forall x, P' x <= P x) & forall e, e \in es -> P' e + P' (- e) = 0].
Proof.
elim: es P => [|e es IH] P hP; first by exists P.
have [P1 [s1 l1 z1]] := sublin_step e hP; have [P2 [s2 l2 z2]] := IH P1 s1.
exists P2; split=> // [x|x]; first exact: le_trans (l2 x) (l1 x).
rewrite inE => /orP[/eqP ->|]; last exact: z2.
apply/eqP; rewrite eq_le sublinN // andbT -z1; exact: ler_add.
Qed.

Lemma sublin_lin P e : sublinear P -> P e + P (- e) = 0 -> forall v a, P (v + a *: e) = P v + a * P e.
Proof.
move=> hP z v a; have [h1 h2] := hP.
have h a' : P (a' *: e) = a' * P e.
  case: (ltrgt0P a') => [a0|a0|->]; first exact: h2.
    have -> : a' *: e = (- a') *: (- e) by lin.
    rewrite h2 ?oppr_gt0 //; move: z; move: (P _) (P _) => x y z.
    have -> : y = - x by clear -z; mclra.
    by clear; mcring.
  by rewrite scale0r mul0r sublin0.
apply/eqP; rewrite eq_le -h h1 /=.
have := h1 (v + a *: e) ((- a) *: e); rewrite h mulNr -h.
have -> : v + a *: e + (- a) *: e = v by lin.
by rewrite ler_subr_addr.
Qed.

Lemma hahn_banach (I : finType) (es : I -> W) (co : I -> W -> R) P :
  (forall w, w = \sum_i co i w *: es i) -> sublinear P ->
  exists l : I -> R, forall w, \sum_i co i w * l i <= P w.
Proof.
move=> hw hP; have [P' [s le z]] := sublin_seq [seq es i | i <- enum I] hP.
have z' i : P' (es i) + P' (- es i) = 0 by apply: z; apply/mapP; exists i; rewrite ?mem_enum.
exists (fun i => P' (es i)) => w; apply: le_trans (le w); rewrite {2}(hw w).
suff -> : forall r : seq I, P' (\sum_(i <- r) co i w *: es i) = \sum_(i <- r) co i w * P' (es i) by [].
elim=> [|i r IH]; first by rewrite !big_nil sublin0.
by rewrite !big_cons addrC sublin_lin // IH addrC.
Qed.
End Ext.

(** * The multiplier rule *)
Section Mult.
Variables (V W : lmodType R) (dv : innerp V) (dw : innerp W) (B : V -> W).
Hypothesis BL : forall a x y, B (a *: x + y) = a *: B x + B y.
Variables (I : finType) (es : I -> W).
Hypothesis onb : forall w, w = \sum_i dw (es i) w *: es i.
Variable g : W -> R.
Hypothesis gc : forall x y (t : R), 0 <= t -> t <= 1 ->
  g ((1 - t) *: x + t *: y) <= (1 - t) * g x + t * g y.
Variables (V0 : V -> Prop) (x : V) (c : V).
(** V0 is a convex cone *)
Hypothesis V00 : V0 0.
Hypothesis V0D : forall u v, V0 u -> V0 v -> V0 (u + v).
Hypothesis V0Z : forall a u, 0 < a -> V0 u -> V0 (a *: u).
(** x minimises <c, .> + g(B .) to first order along the directions of V0 *)
Hypothesis opt : forall v, V0 v -> exists C d, [/\ 0 < d, 0 <= C &
  forall t, 0 < t -> t <= d -> g (B x) <= g (B (x + t *: v)) + t * dv c v + C * t ^+ 2].

Let q t v w := (g (B x + t *: (w + B v)) - g (B x)) / t + dv c v.

Lemma B0 : B 0 = 0.
Proof. by have := BL (-1) 0 0; rewrite scaler0 addr0 scaleN1r addNr. Qed.

Lemma q_add t1 t2 v1 v2 w1 w2 : 0 < t1 -> 0 < t2 ->
  q (t1 * t2 / (t1 + t2)) (v1 + v2) (w1 + w2) <= q t1 v1 w1 + q t2 v2 w2.
Proof.
move=> p1 p2; have ps : 0 < t1 + t2 by apply: addr_gt0.
set t := _ / (t1 + t2); have tp : 0 < t by apply: divr_gt0 => //; apply: mulr_gt0.
rewrite /q ipDr addrACA ler_add2r.
have e1 : B (v1 + v2) = B v1 + B v2 by have := BL 1 v1 v2; rewrite !scale1r.
pose s := t1 / (t1 + t2).
have s0 : 0 <= s by apply: divr_ge0; apply: ltW.
have s1 : s <= 1 by rewrite ler_pdivr_mulr // mul1r ler_addl ltW.
have ets : t = s * t2 by rewrite /t /s; clear -ps; mcfield; toR; lra.
have et1 : t = (1 - s) * t1.
  by rewrite /t /s; move: p1 p2 ps; clear; move=> p1 p2 ps; mcfield; toR; lra.
have := gc (B x + t1 *: (w1 + B v1)) (B x + t2 *: (w2 + B v2)) s0 s1.
have -> : (1 - s) *: (B x + t1 *: (w1 + B v1)) + s *: (B x + t2 *: (w2 + B v2))
  = B x + t *: (w1 + w2 + B (v1 + v2)).
  rewrite e1 !scalerDr !scalerA -et1 -ets.
  move: (t *: w1) (t *: w2) (t *: B v1) (t *: B v2) => a1 a2 a3 a4; lin.
move: (g _) (g _) (g _) (g _) => g0 g2 g1 a h.
rewrite ler_pdivr_mulr // mulrDl {1}et1 ets.
have -> : (g1 - g0) / t1 * ((1 - s) * t1) = (1 - s) * (g1 - g0).
  by clear -p1; mcfield; toR; lra.
have -> : (g2 - g0) / t2 * (s * t2) = s * (g2 - g0).
  by clear -p2; mcfield; toR; lra.
by clear -h; mclra.
Qed.

Lemma q0_ge t v : 0 < t -> V0 v -> 0 <= q t v 0.
Proof.
move=> t0 vv; have [C [d [d0 C0 h]]] := opt vv.
have [m1 m2 m3] := np_minP d t.
have e0 : 0 < np_min d t by case: m3 => ->.
apply: (@le0_lim_delta _ C _ e0) => s s0 sd.
have sd1 := le_trans sd m1; have sd2 := le_trans sd m2.
have := h s s0 sd1; rewrite (addrC x) BL /q add0r (addrC (s *: _)).
have z0 : 0 <= s / t by apply: divr_ge0; apply: ltW.
have z1 : s / t <= 1 by rewrite ler_pdivr_mulr // mul1r.
have := gc (B x) (B x + t *: B v) z0 z1.
have -> : (1 - s / t) *: B x + (s / t) *: (B x + t *: B v) = B x + s *: B v.
  by rewrite scalerDr scalerA divfK ?lt0r_neq0 //; lin.
move: (g _) (g _) (g _) (dv _ _) => e b a f h1 h2.
suff : 0 <= s * ((e - b) / t + f + s * C) by rewrite pmulr_rge0.
have -> : s * ((e - b) / t + f + s * C) = s / t * (e - b) + s * f + C * s ^+ 2 by clear; mcring.
by move: h1 h2; move: (s / t) => r; clear; move=> h1 h2; mclra.
Qed.

Lemma multiplier_cone : exists y, (forall w, g (B x) + dw y (w - B x) <= g w) /\
  forall v, V0 v -> - dw y (B v) <= dv c v.
Proof.
pose E w r := exists t v, [/\ 0 < t, V0 v & r = q t v w].
have ne w : exists r, E w r by exists (q 1 0 w), 1, 0.
have bd w : exists b, forall r, E w r -> b <= r.
  exists (- q 1 0 (- w)) => r [t [v [t0 vv ->]]].
  have := q_add v 0 w (- w) t0 ltr01; rewrite subrr addr0.
  have h := @q0_ge (t * 1 / (t + 1)) v _ vv.
  move/(le_trans (h _)); rewrite -ler_subl_addr sub0r; apply.
  by rewrite mulr1 divr_gt0 // addr_gt0.
pose P w := proj1_sig (glb_exists (ne w) (bd w)).
have hg w : is_glb (E w) (P w) by rewrite /P; case: (glb_exists _ _).
have sP : sublinear P.
  split.
    move=> w1 w2.
    suff h a b : E w1 a -> E w2 b -> P (w1 + w2) <= a + b.
      suff : P (w1 + w2) - P w2 <= P w1 by rewrite ler_subl_addr.
      apply: (hg w1).2 => a Ea.
      suff : P (w1 + w2) - a <= P w2 by move: (P _) (P _) => u v k; clear -k; mclra.
      by apply: (hg w2).2 => b Eb; have := h _ _ Ea Eb; move: (P _) => u k; clear -k; mclra.
    move=> [t1 [v1 [p1 h1 ->]]] [t2 [v2 [p2 h2 ->]]].
    apply: le_trans (q_add _ _ _ _ p1 p2); apply: (hg _).1.
    exists (t1 * t2 / (t1 + t2)), (v1 + v2); split=> //; last exact: V0D.
    by rewrite divr_gt0 ?mulr_gt0 ?addr_gt0.
  have le1 a w : 0 < a -> P (a *: w) <= a * P w.
    move=> a0; rewrite -ler_pdivr_mull //; apply: (hg w).2 => r [t [v [t0 vv ->]]].
    rewrite ler_pdivr_mull //; apply: (hg _).1; exists (t / a), (a *: v); split; first exact: divr_gt0.
      exact: V0Z.
    rewrite /q; have -> : B (a *: v) = a *: B v by have := BL a v 0; rewrite B0 !addr0.
    rewrite -scalerDr scalerA divfK ?lt0r_neq0 // ipZr mulrDr.
    by move: (g _) (g _) (dv _ _) => x1 x2 x3; have an := lt0r_neq0 a0; have tn := lt0r_neq0 t0;
      clear -an tn; mcfield.
  move=> a w a0; apply/eqP; rewrite eq_le le1 //=.
  have ai : 0 < a^-1 by rewrite invr_gt0.
  have := le1 a^-1 (a *: w) ai; rewrite scalerA mulVf ?lt0r_neq0 // scale1r.
  by rewrite -ler_pdivr_mull // invrK.
have [l hl] := hahn_banach onb sP.
pose y := \sum_i l i *: es i.
have hy w : dw y w = \sum_i dw (es i) w * l i.
  rewrite /y (big_morph (fun z => dw z w) (fun a b => ipDl dw a b w) (ip0l dw w)).
  by apply: eq_bigr => i _; rewrite ipZl mulrC.
have hP w : dw y w <= P w by rewrite hy.
exists y; split.
  move=> w; have h : P (w - B x) <= q 1 0 (w - B x) by apply: (hg _).1; exists 1, 0.
  move: (le_trans (hP _) h); rewrite /q B0 addr0 ip0r addr0 scale1r divr1.
  have -> : B x + (w - B x) = w by lin.
  by rewrite ler_subr_addl.
move=> v vv; rewrite -ipNr; apply: le_trans (hP _) _.
have -> : dv c v = q 1 v (- B v) by rewrite /q addNr scaler0 addr0 subrr mul0r add0r.
by apply: (hg _).1; exists 1, v.
Qed.

Lemma multiplier : (forall v, V0 v -> V0 (- v)) ->
  exists y, (forall w, g (B x) + dw y (w - B x) <= g w) /\
  forall v, V0 v -> dw y (B v) = - dv c v.
Proof.
move=> V0N; have [y [h1 h]] := multiplier_cone; exists y; split=> // v vv.
have := h v vv; have := h (- v) (V0N _ vv).
have -> : B (- v) = - B v by have := BL (-1) v 0; rewrite B0 !addr0 !scaleN1r.
rewrite !ipNr; move: (dw _ _) (dv _ _) => a b k1 k2; apply/eqP; rewrite eq_le; apply/andP.
by clear -k1 k2; split; mclra.
Qed.
End Mult.

(** an optimum of a smooth-plus-convex problem has a multiplier *)
Section OptKkt.
Variables (V W : lmodType R) (dv : innerp V) (dw : innerp W) (B : V -> W) (Bt : W -> V).
Hypothesis BL : forall a x y, B (a *: x + y) = a *: B x + B y.
Hypothesis Badj : forall x w, dw (B x) w = dv x (Bt w).
Variables (I : finType) (es : I -> W).
Hypothesis onb : forall w, w = \sum_i dw (es i) w *: es i.
Variables (D : V -> Prop) (f : V -> R) (g : W -> R).
Hypothesis gc : forall x y (t : R), 0 <= t -> t <= 1 ->
  g ((1 - t) *: x + t *: y) <= (1 - t) * g x + t * g y.
Variables (V0 : V -> Prop) (x c : V).
Hypothesis V00 : V0 0.
Hypothesis V0L : forall a u v, V0 u -> V0 v -> V0 (a *: u + v).
Hypothesis DV : forall y, D y -> V0 (y - x).
Hypothesis fc : forall y, D y -> f x + dv c (y - x) <= f y.
Hypothesis fs : forall v, V0 v -> exists C d, [/\ 0 < d, 0 <= C &
  forall t, 0 < t -> t <= d -> D (x + t *: v) /\ f (x + t *: v) <= f x + t * dv c v + C * t ^+ 2].

Lemma opt_kkt rho : 0 < rho -> minimiser D (fun x => f x + g (B x)) x ->
  exists u, kkt dv dw B Bt D f g rho x u.
Proof.
move=> r0 [Dx hm]; have rn := lt0r_neq0 r0.
have opt v : V0 v -> exists C d, [/\ 0 < d, 0 <= C &
  forall t, 0 < t -> t <= d -> g (B x) <= g (B (x + t *: v)) + t * dv c v + C * t ^+ 2].
  move=> vv; have [C [d [d0 C0 h]]] := fs vv; exists C, d; split=> // t t0 td.
  have [h1 h2] := h t t0 td; have := hm _ h1.
  by move: h2; move: (f _) (f _) (g _) (g _) (dv _ _) => f1 f2 g1 g2 y; clear; move=> h1 h2; mclra.
have V0D u v : V0 u -> V0 v -> V0 (u + v) by move=> h1 h2; have := V0L 1 h1 h2; rewrite scale1r.
have V0Z a u : 0 < a -> V0 u -> V0 (a *: u) by move=> _ h; have := V0L a h V00; rewrite addr0.
have V0N v : V0 v -> V0 (- v) by move=> h; have := V0L (-1) h V00; rewrite scaleN1r addr0.
have [y [h1 h2]] := multiplier BL onb gc V00 V0D V0Z opt V0N.
exists (rho^-1 *: y); split; last by move=> w; rewrite scalerA mulfV // scale1r.
split=> // z Dz; have := fc Dz; have := h2 _ (DV Dz).
rewrite ipZl mulNr (ipC dv (Bt _)) -Badj ipZr mulVKf // (ipC dw (B _)) => ->.
by rewrite opprK.
Qed.
End OptKkt.

(** orthonormal bases *)
Definition onb (W : lmodType R) (d : innerp W) : Prop :=
  exists (I : finType) (es : I -> W), forall w, w = \sum_i d (es i) w *: es i.
Lemma onb_mat m n : onb (mat_ip m n).
Proof.
exists [finType of 'I_m * 'I_n], (fun ij => delta_mx ij.1 ij.2) => w.
rewrite {1}(matrix_sum_delta w) pair_bigA; apply: eq_bigr => -[i j] _ /=; congr (_ *: _).
rewrite /fdot (bigD1 i) //= (bigD1 j) //= !mxE !eqxx mul1r big1 ?addr0 => [|k /negPf kj].
  rewrite big1 ?addr0 // => k /negPf ki; rewrite big1 // => l _.
  by rewrite mxE ki mul0r.
by rewrite mxE kj andbF mul0r.
Qed.
Lemma onb_pair (V W : lmodType R) (dv : innerp V) (dw : innerp W) :
  onb dv -> onb dw -> onb (pair_ip dv dw).
Proof.
move=> [I [es hv]] [J [fs hw]].
exists [finType of I + J], (fun k => match k with inl i => (es i, 0) | inr j => (0, fs j) end) => -[a b].
rewrite big_sumType /= {1}(hv a) {1}(hw b).
have -> : \sum_i (pair_ip dv dw) (es i, 0) (a, b) *: ((es i, 0) : V * W) = (\sum_i dv (es i) a *: es i, 0).
  elim/big_rec2: _ => //= i y1 y2 _ ->; rewrite /pair_ip_def /= ip0l addr0.
  by congr pair; rewrite /= scaler0 addr0.
have -> : \sum_j (pair_ip dv dw) (0, fs j) (a, b) *: ((0, fs j) : V * W) = (0, \sum_j dw (fs j) b *: fs j).
  elim/big_rec2: _ => //= i y1 y2 _ ->; rewrite /pair_ip_def /= ip0l add0r.
  by congr pair; rewrite /= scaler0 addr0.
by congr pair; rewrite /= ?addr0 ?add0r.
Qed.
Lemma onb_ffun (I : finType) (V : lmodType R) (dv : innerp V) : onb dv -> onb (ffun_ip I dv).
Proof.
move=> [J [es h]].
exists [finType of I * J], (fun ij => [ffun k => if k == ij.1 then es ij.2 else 0]) => w.
apply/ffunP => k; rewrite sum_ffunE -(pair_bigA _ (fun i j =>
  (((ffun_ip I dv) [ffun k0 => if k0 == i then es j else 0] w) *: [ffun k0 => if k0 == i then es j else 0] : {ffun I -> V}) k)) /=.
rewrite (bigD1 k) //= [X in _ + X]big1 ?addr0 => [|i /negPf ik].
  rewrite {1}(h (w k)); apply: eq_bigr => j _; rewrite !ffunE eqxx; congr (_ *: _).
  rewrite /ffun_ip_def (bigD1 k) //= ffunE eqxx big1 ?addr0 // => i /negPf ik.
  by rewrite ffunE ik ip0l.
by apply: big1 => j _; rewrite !ffunE eq_sym ik scaler0.
Qed.
