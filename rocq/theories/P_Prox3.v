(** Proofs: fused lasso, norm/prox pairs, step size rules. *)
From Coq Require Import Reals Lra Psatz String.
From mathcomp Require Import all_ssreflect all_algebra.
From Verif Require Import RStruct RTac LinTac Spectral S_Mat RMx ADMM NP Str M_Prox P_Prox P_Prox2.
Import Order.TTheory GRing.Theory Num.Theory.

Set Implicit Arguments.
Unset Strict Implicit.
Unset Printing Implicit Defensive.
Local Open Scope ring_scope.

(** * fused lasso *)
Lemma soft1_mono (a b lam : R) : 0 <= lam -> a <= b ->
  soft1 a lam <= soft1 b lam /\ a - soft1 a lam <= b - soft1 b lam.
Proof.
move=> l0 ab.
by case: (soft1_cases a l0) => [[h1 ->]|[h1 ->]|[/andP[h1 h1'] ->]];
   case: (soft1_cases b l0) => [[h2 ->]|[h2 ->]|[/andP[h2 h2'] ->]]; split; mclra.
Qed.
Lemma soft1_split (a b lam : R) : 0 <= lam ->
  `|a - b| = `|soft1 a lam - soft1 b lam| + `|(a - soft1 a lam) - (b - soft1 b lam)|.
Proof.
move=> l0.
wlog ab : a b / b <= a.
  move=> H; case/orP: (le_total b a) => ab; first exact: H.
  by rewrite distrC (H b a ab) distrC [X in _ + X]distrC.
have [h1 h2] := soft1_mono l0 ab.
rewrite !ger0_norm ?subr_ge0 //; mcring.
Qed.

Section FL.
Variable T : nat.
Implicit Types x y a p : 'rV[R]_T.
Let S lam x : 'rV[R]_T := soft_thresholding x lam.

Lemma tvar_split x lam : 0 <= lam -> tvar x = tvar (S lam x) + tvar (x - S lam x).
Proof.
move=> l0; rewrite /tvar -big_split; apply: eq_bigr => s _.
rewrite -big_split; apply: eq_bigr => t _ /=.
by rewrite !mxE (soft1_split _ _ l0).
Qed.
Lemma tvarZ c x : 0 <= c -> tvar (c *: x) = c * tvar x.
Proof.
move=> c0; rewrite /tvar mulr_sumr; apply: eq_bigr => s _.
rewrite mulr_sumr; apply: eq_bigr => t _.
by rewrite !mxE -mulrBr normrM ger0_norm.
Qed.
Lemma tvarD x y : tvar (x + y) <= tvar x + tvar y.
Proof.
rewrite /tvar -big_split; apply: ler_sum => s _.
rewrite -big_split; apply: ler_sum => t _ /=.
rewrite !mxE; apply: le_trans (ler_norm_add _ _).
by rewrite opprD addrACA.
Qed.
Lemma tvar0 : tvar (0 : 'rV[R]_T) = 0.
Proof. by rewrite -(scale0r 0) tvarZ // mul0r. Qed.

Lemma tvar_convex beta : 0 <= beta -> convex_on (@everywhere _) (fun x => beta * tvar x).
Proof.
move=> b0 x y t _ _ t0 t1; split=> //.
have -> : x + t *: (y - x) = (1 - t) *: x + t *: y by lin.
rewrite !(mulrCA _ beta) -mulrDr; apply: ler_wpmul2l => //.
apply: le_trans (tvarD _ _) _.
by rewrite !tvarZ // ?subr_ge0 // ltW.
Qed.

(** p is a subgradient of beta*TV at x *)
Lemma tvar_subgrad beta a x : 0 <= beta ->
  minimiser (@everywhere _) (fun y => beta * tvar y + fnorm2 (y - a) / 2%:R) x ->
  beta * tvar x = fdot (a - x) x /\ forall y, fdot (a - x) y <= beta * tvar y.
Proof.
move=> b0 hx.
have hv : forall y, beta * tvar x + fdot (a - x) (y - x) <= beta * tvar y.
  move=> y; apply: (@prox_variational _ (mat_ip 1 T) (@everywhere _)
    (fun y => beta * tvar y) a x) => //; exact: tvar_convex.
have e : beta * tvar x = fdot (a - x) x.
  have h0 := hv 0; have h2 := hv (2%:R *: x).
  rewrite sub0r fdotNr tvar0 mulr0 in h0.
  have e2 : 2%:R *: x - x = x by lin.
  rewrite e2 tvarZ in h2; last by mclra.
  apply/eqP; rewrite eq_le; move: (beta * tvar x) h0 h2 (mulrCA beta 2%:R (tvar x)).
  move=> u h0 h2 eu; apply/andP; split; last first.
    by rewrite eu in h2; clear -h0 h2; mclra.
  by clear -h0; mclra.
split=> // y; have := hv y; rewrite fdotBr e; clear; move=> h; mclra.
Qed.

Lemma fl_unique beta lam a x : 0 <= beta -> 0 <= lam ->
  minimiser (@everywhere _) (fun y => beta * tvar y + fnorm2 (y - a) / 2%:R) x ->
  unique_minimiser (@everywhere _)
    (fun y => lam * l1 y + beta * tvar y + fnorm2 (y - a) / 2%:R) (soft_thresholding x lam).
Proof.
move=> b0 l0 hx; have [e hp] := tvar_subgrad b0 hx.
apply: (@subgrad_unique _ _ (fun y => lam * l1 y + beta * tvar y)) => y.
have h1 := soft_subgrad x y l0.
have hS1 := hp (S lam x); have hS2 := hp (x - S lam x).
have hs := tvar_split x l0.
have eS : fdot (a - x) (S lam x) = beta * tvar (S lam x).
  rewrite hs mulrDr in e.
  have : fdot (a - x) x = fdot (a - x) (S lam x) + fdot (a - x) (x - S lam x).
    by rewrite -fdotDr; congr fdot; lin.
  move=> h; apply/eqP; rewrite eq_le hS1 /=; clear -e hS2 h; mclra.
have h2 := hp y.
have -> : a - soft_thresholding x lam = (a - x) + (x - soft_thresholding x lam) by lin.
rewrite fdotDl fdotBr.
rewrite /S in eS; clear -h1 h2 eS; mclra.
Qed.
End FL.

Lemma tv_unique_of_min T (a x : 'rV[R]_T) beta : 0 <= beta ->
  minimiser (@everywhere _) (fun y => beta * tvar y + fnorm2 (y - a) / 2%:R) x ->
  unique_minimiser (@everywhere _) (fun y => beta * tvar y + fnorm2 (y - a) / 2%:R) x.
Proof.
move=> b0 hx; apply: (@subgrad_unique _ _ (fun y => beta * tvar y)) => y.
have [e hp] := tvar_subgrad b0 hx.
by rewrite fdotBr; have := hp y; clear -e; move=> h; mclra.
Qed.

Section FLmodel.
Variables (T n : nat) (tv : 'rV[R]_T -> R -> 'rV[R]_T).
Hypothesis Htv : forall (s : 'rV[R]_T) beta, 0 <= beta ->
  minimiser (@everywhere _) (fun y => beta * tvar y + fnorm2 (y - s) / 2%:R) (tv s beta).
Variables (a : 'I_T -> 'M[R]_n) (beta lam : R) (symm opt : bool).
Hypothesis b0 : 0 <= beta.
Hypothesis l0 : 0 <= lam.
Hypothesis Hs : (symm && ~~ opt) -> forall t, sym (a t).

Lemma FL_Y i j :
  series (if opt then tv_entries tv a beta
          else if symm then tv_entries_sym tv a beta else tv_entries tv a beta) i j
  = tv (series a i j) beta.
Proof.
have e0 : series (tv_entries tv a beta) i j = tv (series a i j) beta.
  by apply/rowP => t; rewrite !mxE.
case: opt Hs => // Hs'; case: symm Hs' => // /(_ isT) Hs'.
apply/rowP => t; rewrite !mxE.
have e k l : series a l k = series a k l.
  by apply/rowP => u; rewrite !mxE -{1}(Hs' u) mxE.
case: (ltngtP i j) => ij.
- have /negPf -> : i != j by rewrite neq_ltn ij.
  by rewrite add0r addr0 divr1.
- have /negPf -> : i != j by rewrite neq_ltn ij orbT.
  by rewrite !add0r divr1 e.
- have -> : i = j by apply: val_inj.
  rewrite eqxx; move: (tv _ _ 0 t) => u; by mcfield.
Qed.

Lemma FL_off i j : i != j ->
  unique_minimiser (@everywhere _)
    (fun y => lam * l1 y + beta * tvar y + fnorm2 (y - series a i j) / 2%:R)
    (series (prox_FL tv a beta lam symm opt) i j).
Proof.
move=> ij; have := @fl_unique _ beta lam (series a i j) _ b0 l0 (Htv (series a i j) b0).
rewrite -FL_Y; congr unique_minimiser; apply/rowP => t.
by rewrite !mxE (negPf ij).
Qed.
Lemma FL_diag i :
  unique_minimiser (@everywhere _)
    (fun y => beta * tvar y + fnorm2 (y - series a i i) / 2%:R)
    (series (prox_FL tv a beta lam symm opt) i i).
Proof.
have := tv_unique_of_min b0 (Htv (series a i i) b0).
rewrite -{1}FL_Y; congr unique_minimiser; apply/rowP => t.
by rewrite !mxE eqxx.
Qed.
End FLmodel.

(** an exact TV solver for series of length 2: soft-threshold the increment *)
Lemma tvar2 (x : 'rV[R]_2) : tvar x = `|x 0 1 - x 0 0|.
Proof.
have -> : (1 : 'I_2) = lift ord0 ord0 by apply: val_inj.
rewrite /tvar !big_ord_recl !big_ord0 /= !big_mkcond /= !big_ord_recl !big_ord0 /=.
by rewrite !addr0 !add0r big_pred0 ?addr0 //; case=> -[|[|]].
Qed.
Lemma fnorm2r2 (x : 'rV[R]_2) : fnorm2 x = x 0 0 ^+ 2 + x 0 1 ^+ 2.
Proof.
have -> : (1 : 'I_2) = lift ord0 ord0 by apply: val_inj.
by rewrite /fnorm2 big_ord1 !big_ord_recl big_ord0 addr0.
Qed.
Lemma tv2_exists : exists tv, forall (s : 'rV[R]_2) beta, 0 <= beta ->
  minimiser (@everywhere _) (fun y => beta * tvar y + fnorm2 (y - s) / 2%:R) (tv s beta).
Proof.
exists (fun s beta => let d := soft1 (s 0 1 - s 0 0) (2%:R * beta) in
  \row_i (if i == 0 then (s 0 0 + s 0 1 - d) / 2%:R else (s 0 0 + s 0 1 + d) / 2%:R)).
move=> s beta b0; split=> // y _.
have b2 : 0 <= 2%:R * beta by apply: mulr_ge0 => //; mclra.
have h := soft1_strong (s 0 1 - s 0 0) (y 0 1 - y 0 0) b2.
rewrite !tvar2 !fnorm2r2 !mxE /=; move: h; move: (soft1 _ _) => d.
have -> : (s 0 0 + s 0 1 + d) / 2%:R - (s 0 0 + s 0 1 - d) / 2%:R = d.
  by move: (s 0 0) (s 0 1) => p q; mcfield.
move: (s 0 0) (s 0 1) (y 0 0) (y 0 1) (`|d|) => p q u v ad.
move: (`|v - u|) => w h; clear -h b0.
have h2 : 0 <= (u + v - p - q) ^+ 2 by apply: sqr_ge0.
have h3 : 0 <= (v - u - d) ^+ 2 by apply: sqr_ge0.
by toR; nra.
Qed.
