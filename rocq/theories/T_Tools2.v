(** Property theorems C151, C152, C153: log-entropy normalisation, the penalty heuristic, errors over time. *)
From Coq Require Import Reals.
From mathcomp Require Import all_ssreflect all_algebra.
From Verif Require Import RStruct RTac RMx NP S_Mat S_GL M_Utils M_Tools P_Scores P_Missing P_GL P_GL2 T_Utils.
Import Order.TTheory GRing.Theory Num.Theory.

Set Implicit Arguments.
Unset Strict Implicit.
Unset Printing Implicit Defensive.
Local Open Scope ring_scope.

Lemma lnM (x y : R) : 0 < x -> 0 < y -> ln (x * y) = ln x + ln y.
Proof. by move=> /RltP x0 /RltP y0; exact: ln_mult. Qed.
Lemma lnV (x : R) : 0 < x -> ln x^-1 = - ln x.
Proof. by move=> x0; apply/eqP; rewrite -addr_eq0 -lnM ?invr_gt0 // (mulVf (lt0r_neq0 x0)); apply/eqP; exact: ln_1. Qed.
Lemma ln_gt0' (x : R) : 1 < x -> 0 < ln x.
Proof. by move=> h; have := ln_increasing 1 x Rlt_0_1 (elimT (RltP _ _) h); rewrite ln_1 => /RltP. Qed.
Lemma lnS_gt0 (n : nat) : 0 < ln (1 + n.+1%:R).
Proof. by apply: ln_gt0'; rewrite ltr_addl ltr0n. Qed.
Lemma ln_lt1 (x : R) : 0 < x -> x < 1 -> ln x < 0.
Proof. by move=> x0 x1; have := ln_increasing x 1 (elimT (RltP _ _) x0) (elimT (RltP _ _) x1); rewrite ln_1 => /RltP. Qed.

Section Entropy.
Variables (n cols : nat) (X : 'M[R]_(n.+1, cols)).
Hypothesis X0 : forall i j, 0 <= X i j.
Let s j := \sum_i X i j.
Let f j i := if (s j == 0) || (X i j == 0) then 0 else X i j / s j * ln (X i j / s j).
Lemma s_ge0 j : 0 <= s j. Proof. by apply: sumr_ge0 => i _; exact: X0. Qed.
Lemma s_eq0 j : s j = 0 -> forall i, X i j = 0.
Proof. by move=> e i; apply: (psumr_eq0P _ e) => // k _; exact: X0. Qed.
Lemma f_le0 j i : f j i <= 0.
Proof.
rewrite /f; case: eqP => //= s0; case: eqP => //= x0.
have sp : 0 < s j by rewrite lt_def s_ge0 andbT; apply/eqP.
have xp : 0 < X i j by rewrite lt_def X0 andbT; apply/eqP.
have q0 : 0 < X i j / s j by rewrite divr_gt0.
have q1 : X i j / s j <= 1.
  by rewrite ler_pdivr_mulr // mul1r /s (bigD1 i) //= ler_addl; apply: sumr_ge0 => k _; exact: X0.
have num (a b : R) : a <= b - 1 -> b <= 1 -> a <= 0 by move=> h1 h2; mclra.
by rewrite pmulr_rle0 //; apply: num (ln_le_sub1 q0) q1.
Qed.
Lemma f_eq0 j i : (f j i = 0) <-> (X i j = 0 \/ X i j = s j).
Proof.
rewrite /f; case: (eqVneq (s j) 0) => [s0|s0] /=; first by rewrite (s_eq0 s0 i); split=> // _; left.
case: (eqVneq (X i j) 0) => [x0|x0] /=; first by split=> // _; left.
have sp : 0 < s j by rewrite lt_def s_ge0 andbT.
have xp : 0 < X i j by rewrite lt_def X0 andbT.
have q0 : 0 < X i j / s j by rewrite divr_gt0.
split=> [/eqP|[/eqP|->]]; last 2 first.
- by rewrite (negbTE x0).
- by rewrite divff // ln_1 mulr0.
rewrite mulf_eq0 (gt_eqF q0) /= => /eqP l0; right.
have : X i j / s j <= 1.
  by rewrite ler_pdivr_mulr // mul1r /s (bigD1 i) //= ler_addl; apply: sumr_ge0 => k _; exact: X0.
rewrite le_eqVlt => /orP[/eqP e|/(ln_lt1 q0)]; last by rewrite l0 ltxx.
by rewrite -(divfK s0 (X i j)) e mul1r.
Qed.
Lemma f_lower j : - ln n.+1%:R <= \sum_i f j i.
Proof.
have N0 : 0 < n.+1%:R :> R by rewrite ltr0n.
have lN : 0 <= ln (n.+1%:R : R) by apply: ln_ge0; rewrite ler1n.
case: (eqVneq (s j) 0) => [s0|s0].
  by rewrite big1 ?oppr_le0 // => i _; rewrite /f s0 eqxx.
have sp : 0 < s j by rewrite lt_def s_ge0 andbT.
have h i : X i j / s j * (1 - ln n.+1%:R) - n.+1%:R^-1 <= f j i.
  rewrite /f (negbTE s0) /=; case: (eqVneq (X i j) 0) => [->|x0] /=.
    by rewrite !mul0r sub0r oppr_le0 invr_ge0 ler0n.
  have xp : 0 < X i j by rewrite lt_def X0 andbT.
  have q0 : 0 < X i j / s j by rewrite divr_gt0.
  set q := X i j / s j in q0 *.
  have Nq : 0 < (n.+1%:R * q)^-1 by rewrite invr_gt0 mulr_gt0.
  have l := ln_le_sub1 Nq; rewrite (lnV (mulr_gt0 N0 q0)) (lnM N0 q0) -(ler_pmul2l q0) in l.
  have e : q * ((n.+1%:R * q)^-1 - 1) = n.+1%:R^-1 - q by rewrite mulrBr mulr1 invfM [q * (_ * _)]mulrCA (divff (lt0r_neq0 q0)) mulr1.
  rewrite e in l; have num (a b c d : R) : a * - (b + c) <= d - a -> a * (1 - b) - d <= a * c by move=> g; mcnra.
  exact: num l.
apply: le_trans (ler_sum _ (fun i (_ : true) => h i)); rewrite sumrB -mulr_suml -mulr_suml divff // mul1r.
rewrite sumr_const card_ord -[_^-1 *+ _]mulr_natl divff ?gt_eqF //.
by have num (a : R) : - a <= 1 - a - 1 by mclra.
Qed.
Lemma weightE j : entropy_weight X j = 1 + (\sum_i f j i) / ln (1 + n.+1%:R). Proof. by []. Qed.
End Entropy.

(** the weight of a column is between 1 - log n / log(n+1) > 0 and 1 *)
Theorem C151_weight : forall n cols (X : 'M[R]_(n.+1, cols)) j, (forall i j, 0 <= X i j) ->
  [/\ 0 < 1 - ln n.+1%:R / ln (1 + n.+1%:R), 1 - ln n.+1%:R / ln (1 + n.+1%:R) <= entropy_weight X j & entropy_weight X j <= 1].
Proof.
move=> n cols X j X0; have L := lnS_gt0 n; rewrite weightE; split.
- rewrite subr_gt0 ltr_pdivr_mulr // mul1r; apply/RltP; apply: ln_increasing; apply/RltP; first by rewrite ltr0n.
  by rewrite ltr_addr ltr01.
- by rewrite ler_add2l -mulNr ler_pmul2r ?invr_gt0 // f_lower.
- by rewrite -subr_ge0 opprD addrA subrr sub0r -mulNr divr_ge0 ?(ltW L) // -sumrN; apply: sumr_ge0 => i _; rewrite oppr_ge0; exact: f_le0.
Qed.
Print Assumptions C151_weight.
(** the normalised table: never negative, never larger than log(1 + X), zero exactly where the table is *)
Theorem C151_entries : forall n cols (X : 'M[R]_(n.+1, cols)) i j, (forall i j, 0 <= X i j) ->
  [/\ 0 <= logentropy_normalize X i j, logentropy_normalize X i j <= ln (1 + X i j) & (logentropy_normalize X i j == 0) = (X i j == 0)].
Proof.
move=> n cols X i j X0; have [w0 w1 w2] := C151_weight j X0; have wp := lt_le_trans w0 w1.
have l0 : 0 <= ln (1 + X i j) by apply: ln_ge0; rewrite ler_addl.
rewrite mxE; split; first by rewrite mulr_ge0 // ltW.
  by rewrite -[X in _ <= X]mul1r ler_wpmul2r.
rewrite mulf_eq0 (gt_eqF wp) /=; apply/eqP/eqP => [e|->]; last by rewrite addr0 ln_1.
apply: le_anti; rewrite X0 andbT leNgt; apply/negP => x0.
by have := @ln_gt0' (1 + X i j); rewrite ltr_addl => /(_ x0); rewrite e ltxx.
Qed.
Print Assumptions C151_entries.
(** weight 1: columns with at most one nonzero entry, and only these *)
Theorem C151_concentrated : forall n cols (X : 'M[R]_(n.+1, cols)) j, (forall i j, 0 <= X i j) ->
  (entropy_weight X j = 1 <-> forall i i', X i j != 0 -> X i' j != 0 -> i = i').
Proof.
move=> n cols X j X0; have L := lnS_gt0 n.
pose f i : R := if (\sum_i X i j == 0) || (X i j == 0) then 0 else X i j / (\sum_i X i j) * ln (X i j / \sum_i X i j).
have hf i : f i = 0 <-> (X i j = 0 \/ X i j = \sum_i X i j) := f_eq0 X0 j i.
have hw : entropy_weight X j = 1 <-> \sum_i f i = 0.
  have -> : entropy_weight X j = 1 + (\sum_i f i) / ln (1 + n.+1%:R) by [].
  move: (\sum_i f i) => F; split=> [/eqP|->]; last by rewrite mul0r addr0.
  by rewrite -subr_eq0 addrAC subrr add0r mulf_eq0 invr_eq0 (gt_eqF L) orbF => /eqP.
split=> [/hw e i i' xi xi'|h].
  have e' k : f k = 0.
    apply/eqP; rewrite -oppr_eq0; apply/eqP; apply: (psumr_eq0P (P := predT) (F := fun k => - f k)) => //.
      by move=> k' _; rewrite oppr_ge0; exact: f_le0.
    by rewrite sumrN e oppr0.
  apply/eqP; apply/negPn/negP => ii.
  have [/eqP|e1] := (hf i).1 (e' i); first by rewrite (negbTE xi).
  move: e1; rewrite (bigD1 i) //= -{1}[X i j]addr0 => /addrI/esym e1.
  by move: xi'; rewrite (psumr_eq0P (fun k _ => X0 k j) e1) ?eqxx // eq_sym.
apply/hw; rewrite big1 // => i _; apply/hf; case: (eqVneq (X i j) 0) => [|xi]; first by left.
right; rewrite (bigD1 i) //= big1 ?addr0 // => k ki; apply/eqP/negPn/negP => xk.
by move: ki; rewrite (h i k) // eqxx.
Qed.
Print Assumptions C151_concentrated.
(** the smallest weight: constant columns *)
Theorem C151_uniform : forall n cols (X : 'M[R]_(n.+1, cols)) j c, 0 < c -> (forall i, X i j = c) ->
  entropy_weight X j = 1 - ln n.+1%:R / ln (1 + n.+1%:R).
Proof.
move=> n cols X j c c0 hc; rewrite /entropy_weight; have N0 : 0 < n.+1%:R :> R by rewrite ltr0n.
have es : \sum_i X i j = c * n.+1%:R by under eq_bigr do rewrite hc; rewrite sumr_const card_ord mulr_natr.
rewrite es (eq_bigr (fun=> - (n.+1%:R^-1 * ln n.+1%:R))).
  by rewrite sumr_const card_ord -[_ *+ _]mulr_natl mulrN mulrA (divff (lt0r_neq0 N0)) mul1r mulNr.
move=> i _; rewrite hc mulf_eq0 !gt_eqF //= invfM mulrA divff ?gt_eqF // mul1r lnV // mulrN //.
Qed.
Print Assumptions C151_uniform.
(** changing the unit of a column does not change its weight *)
Theorem C151_scale : forall n cols (X : 'M[R]_(n, cols)) j c, 0 < c -> entropy_weight (c *: X) j = entropy_weight X j.
Proof.
move=> n cols X j c c0; rewrite /entropy_weight; congr (1 + _ / _).
have es : \sum_i (c *: X) i j = c * \sum_i X i j by rewrite mulr_sumr; apply: eq_bigr => i _; rewrite mxE.
apply: eq_bigr => i _; rewrite es mxE !mulf_eq0 (gt_eqF c0) /= invfM.
by rewrite (_ : c * X i j * (c^-1 * (\sum_i X i j)^-1) = X i j / \sum_i X i j) // mulrACA divff ?gt_eqF // mul1r.
Qed.
Print Assumptions C151_scale.

(** a column with one entry, and a constant one *)
Example C151_case : let X := \matrix_(i < 2, j < 2) (if (j == 0) && (i == 0) then 0 else 3%:R : R) in
  entropy_weight X 0 = 1 /\ entropy_weight X 1 = 1 - ln 2%:R / ln (1 + 2%:R).
Proof.
move=> X; have X0 i j : 0 <= X i j by rewrite mxE; case: ifP => // _; rewrite ler0n.
split; last by apply: (@C151_uniform _ _ _ _ 3%:R) => [|i]; rewrite ?ltr0n // mxE.
apply/C151_concentrated => // i i'; rewrite !mxE eqxx /=.
case: (eqVneq i 0) => [->|i0]; rewrite ?eqxx //; case: (eqVneq i' 0) => [->|i0']; rewrite ?eqxx // => _ _.
by apply/val_inj; case: i i0 => [[|[|]]] //; case: i' i0' => [[|[|]]].
Qed.

(** ** C152 *)
(** the value: the square of the largest variance *)
Theorem C152_value : forall pdf d (S : 'M[R]_d.+1) n gamma i, (forall j, 0 <= S j j <= S i i) ->
  let t := 2%:R * pdf gamma (n - 2)%N%:R in
  alpha_heuristic pdf S n gamma = t * (S i i) ^+ 2 / sqrt ((n - 2)%N%:R + t ^+ 2).
Proof.
move=> pdf d S n gamma i hi t; rewrite /alpha_heuristic /heuristic_value [pdf _ _ * _]mulrC -/t.
suff -> : \big[Num.max/S 0 0 * S 0 0]_(ij : 'I_d.+1 * 'I_d.+1) (S ij.1 ij.1 * S ij.2 ij.2) = S i i ^+ 2 by [].
apply: le_anti; apply/andP; split; last first.
  by apply: (@bigmax_ge _ _ (fun ij : 'I_d.+1 * 'I_d.+1 => S ij.1 ij.1 * S ij.2 ij.2) _ (i, i)); rewrite mem_index_enum.
have le2 j k : S j j * S k k <= S i i ^+ 2.
  by have /andP[j0 ji] := hi j; have /andP[k0 ki] := hi k; rewrite expr2 ler_pmul.
by case: (@bigmax_in _ (index_enum _) (fun ij : 'I_d.+1 * 'I_d.+1 => S ij.1 ij.1 * S ij.2 ij.2) (S 0 0 * S 0 0)) => [->|[j ->]].
Qed.
Print Assumptions C152_value.
(** a change of unit: the estimate for (c S, c alpha) is the estimate for (S, alpha) in the new unit *)
Lemma gl_units n (S K : 'M[R]_n) (alpha c : R) : 0 < c -> gl_optimum S alpha K -> gl_optimum (c *: S) (c * alpha) (c^-1 *: K).
Proof.
move=> c0 [pK hK]; have ci : 0 < c^-1 by rewrite invr_gt0.
have e (Y : 'M[R]_n) : pd Y -> gl_obj (c *: S) (c * alpha) (c^-1 *: Y) = gl_obj S alpha Y - ln (c^-1 ^+ n).
  move=> pY; rewrite /gl_obj /gl_obj2 -scalemxAl -scalemxAr scalerA divff ?lt0r_neq0 // scale1r detZ lnM ?exprn_gt0 ?pd_det_gt0 //.
  rewrite l1odZ ?(ltW ci) // (_ : c * alpha * (c^-1 * l1od Y) = alpha * l1od Y); last by rewrite mulrACA divff ?lt0r_neq0 // mul1r.
  by have num (a b x y : R) : a - (x + b) + y = a - b + y - x by mclra.
split=> [|Y pY]; first exact: pdZ.
have pY' : pd (c *: Y) by apply: pdZ.
have eY : Y = c^-1 *: (c *: Y) by rewrite scalerA mulVf ?scale1r ?lt0r_neq0.
by rewrite e // eY e // ler_add2r hK.
Qed.
(** expected of a penalty chosen from the data: it scales as the data's covariance does. It scales with its square, so that for every covariance
    every penalty, from none to removing all the edges, is the chosen one in some unit *)
Theorem C152_units_refuted : forall pdf d (S : 'M[R]_d.+1) n gamma i target, (2 < n)%N -> 0 < pdf gamma (n - 2)%N%:R ->
  (forall j, 0 <= S j j <= S i i) -> 0 < S i i -> 0 < target ->
  exists c, 0 < c /\ alpha_heuristic pdf (c *: S) n gamma = c * target /\
    forall K, gl_optimum S target K <-> gl_optimum (c *: S) (alpha_heuristic pdf (c *: S) n gamma) (c^-1 *: K).
Proof.
move=> pdf d S n gamma i target n2 p0 hi s0 t0.
pose t := 2%:R * pdf gamma (n - 2)%N%:R; pose D := sqrt ((n - 2)%N%:R + t ^+ 2).
have tp : 0 < t by rewrite mulr_gt0 ?ltr0n.
have D0 : 0 < D.
  apply/RltP; apply: sqrt_lt_R0; apply/RltP; rewrite ltr_paddl ?ler0n // exprn_gt0 //.
have a0 : 0 < t * S i i ^+ 2 / D by rewrite divr_gt0 // mulr_gt0 // exprn_gt0.
pose c := target / (t * S i i ^+ 2 / D); have c0 : 0 < c by rewrite divr_gt0.
have ea : alpha_heuristic pdf (c *: S) n gamma = c * target.
  rewrite (@C152_value _ _ _ _ _ i) => [|j]; last by rewrite !mxE pmulr_rge0 // ler_pmul2l.
  rewrite -/t -/D mxE exprMn (_ : t * (c ^+ 2 * S i i ^+ 2) / D = c ^+ 2 * (t * S i i ^+ 2 / D)); last by rewrite mulrCA -!mulrA.
  by rewrite expr2 -mulrA {2}/c divfK ?lt0r_neq0.
exists c; split=> //; split=> // K; rewrite ea; split=> [|h]; first exact: gl_units.
have ci : 0 < c^-1 by rewrite invr_gt0.
have := gl_units ci h; rewrite invrK !scalerA mulVf ?lt0r_neq0 // divff ?lt0r_neq0 // !scale1r mulrA mulVf ?lt0r_neq0 // mul1r //.
Qed.
Print Assumptions C152_units_refuted.
(** the level gamma: the cited rule uses the quantile of the t distribution, which is unbounded when the level tends to 0; with its density, at most 2/5,
    the value stays below 4/5 of the product of the variances over the square root of the degrees of freedom *)
Theorem C152_level_refuted : forall pdf d (S : 'M[R]_d.+1) n gamma i, (2 < n)%N -> 0 <= pdf gamma (n - 2)%N%:R -> pdf gamma (n - 2)%N%:R <= 2%:R / 5%:R ->
  (forall j, 0 <= S j j <= S i i) -> alpha_heuristic pdf S n gamma <= 4%:R / 5%:R * (S i i) ^+ 2 / sqrt (n - 2)%N%:R.
Proof.
move=> pdf d S n gamma i n2 p0 p1 hi; rewrite (C152_value _ _ _ hi).
set t := 2%:R * _; have t0 : 0 <= t by rewrite mulr_ge0 ?ler0n.
have t1 : t <= 4%:R / 5%:R.
  have num (x : R) : x <= 2%:R / 5%:R -> 2%:R * x <= 4%:R / 5%:R by move=> h; mclra.
  exact: num.
have q0 : 0 < (n - 2)%N%:R :> R by rewrite ltr0n subn_gt0.
have D0 : 0 < sqrt (n - 2)%N%:R by apply/RltP; apply: sqrt_lt_R0; apply/RltP.
have D1 : sqrt (n - 2)%N%:R <= sqrt ((n - 2)%N%:R + t ^+ 2).
  apply/RleP; apply: sqrt_le_1_alt; apply/RleP; by rewrite ler_addl exprn_ge0.
have s2 : 0 <= S i i ^+ 2 by rewrite exprn_ge0 //; have /andP[] := hi i.
have D2 := lt_le_trans D0 D1.
apply: ler_pmul; [exact: mulr_ge0|by rewrite invr_ge0 ltW|by rewrite ler_wpmul2r|by rewrite lef_pinv ?posrE].
Qed.
Print Assumptions C152_level_refuted.
(** the three-dimensional case: the largest value over the times *)
Theorem C152_times : forall pdf d T (S : 'I_T.+1 -> 'M[R]_d.+1) n gamma, (2 < n)%N -> 0 <= pdf gamma (n - 2)%N%:R ->
  (forall t, alpha_heuristic pdf (S t) n gamma <= alpha_heuristic_3d pdf S n gamma) /\
  exists t, alpha_heuristic_3d pdf S n gamma = alpha_heuristic pdf (S t) n gamma.
Proof.
move=> pdf d T S n gamma n2 p0; rewrite /alpha_heuristic /alpha_heuristic_3d.
set m3 := \big[_/_]_(tij : _ * _) _; pose m t := \big[Num.max/S t 0 0 * S t 0 0]_(ij : 'I_d.+1 * 'I_d.+1) (S t ij.1 ij.1 * S t ij.2 ij.2).
have mono (a b : R) : a <= b -> heuristic_value pdf a n gamma <= heuristic_value pdf b n gamma.
  move=> ab; rewrite /heuristic_value ler_wpmul2r ?ler_wpmul2l ?mulr_ge0 ?ler0n // invr_ge0; apply/RleP; exact: sqrt_pos.
have le1 t i j : S t i i * S t j j <= m3.
  by apply: (@bigmax_ge _ _ (fun tij : 'I_T.+1 * ('I_d.+1 * 'I_d.+1) => S tij.1 tij.2.1 tij.2.1 * S tij.1 tij.2.2 tij.2.2) _ (t, (i, j))); rewrite mem_index_enum.
have le2 t i j : S t i i * S t j j <= m t.
  by apply: (@bigmax_ge _ _ (fun ij : 'I_d.+1 * 'I_d.+1 => S t ij.1 ij.1 * S t ij.2 ij.2) _ (i, j)); rewrite mem_index_enum.
have le3 t : m t <= m3.
  by rewrite /m; case: (@bigmax_in _ (index_enum _) (fun ij : 'I_d.+1 * 'I_d.+1 => S t ij.1 ij.1 * S t ij.2 ij.2) (S t 0 0 * S t 0 0)) => [->|[j ->]].
split=> [t|]; first by apply: mono; exact: le3.
have [t et] : exists t, m3 <= m t.
  rewrite /m3; case: (@bigmax_in _ (index_enum _) (fun tij : 'I_T.+1 * ('I_d.+1 * 'I_d.+1) => S tij.1 tij.2.1 tij.2.1 * S tij.1 tij.2.2 tij.2.2) (S 0 0 0 * S 0 0 0)) => [->|[tij ->]].
    by exists 0.
  by exists tij.1.
by exists t; congr heuristic_value; apply: le_anti; rewrite et le3.
Qed.
Print Assumptions C152_times.
Example C152_case : exists c, 0 < c /\ alpha_heuristic (fun _ _ => 1 / 4%:R) (c *: (1%:M : 'M[R]_2)) 10 (1 / 10%:R) = c * 7%:R.
Proof.
have [||||c [c0 [h _]]] := @C152_units_refuted (fun _ _ => 1 / 4%:R) 1 1%:M 10 (1 / 10%:R) 0 7%:R isT.
- by rewrite divr_gt0 ?ltr01 ?ltr0n.
- by move=> j; rewrite !mxE !eqxx ler01 lexx.
- by rewrite mxE eqxx ltr01.
- by rewrite ltr0n.
by exists c.
Qed.

(** ** C153 *)
Lemma xmean_fin (I : Type) (l : seq I) (F : I -> R) : xmean [seq Fin (F i) | i <- l] = if l is [::] then NaN else Fin ((\sum_(i <- l) F i) / (size l)%:R).
Proof.
rewrite /xmean; have -> : foldr xadd (Fin 0) [seq Fin (F i) | i <- l] = Fin (\sum_(i <- l) F i).
  by elim: l => [|x l IH] /=; rewrite ?big_nil // IH big_cons.
rewrite size_map /xdiv; case: l => [|x l]; first by rewrite big_nil eqxx.
by rewrite pnatr_eq0.
Qed.
(** error_norm_time of two series of the same length: the mean of the squared distances; 0 exactly when the series are equal *)
Theorem C153_mean : forall n T (A B : T.+1.-tuple 'M[R]_n.+1) scaling,
  error_norm_time A B scaling true = Fin ((\sum_(t < T.+1) (\sum_i \sum_j (tnth A t i j - tnth B t i j) ^+ 2) / (if scaling then n.+1%:R else 1)) / T.+1%:R) /\
  (error_norm_time A B scaling true = Fin 0 <-> A = B).
Proof.
move=> n T A B sc; pose dist (X Y : 'M[R]_n.+1) := (\sum_i \sum_j (X i j - Y i j) ^+ 2) / (if sc then n.+1%:R else 1).
have e : error_norm_time A B sc true = Fin ((\sum_(t < T.+1) dist (tnth A t) (tnth B t)) / T.+1%:R).
  have -> : error_norm_time A B sc true = xmean [seq Fin (dist (tnth A t) (tnth B t)) | t <- enum 'I_T.+1].
    rewrite /error_norm_time; congr xmean; apply: (@eq_from_nth _ (Fin 0)).
      by rewrite size_map [RHS]size_map size_zip !size_tuple minnn ?size_enum_ord ?card_ord.
    rewrite size_map size_zip !size_tuple minnn => t tT; rewrite (nth_map (0, 0)) ?size_zip ?size_tuple ?minnn //.
    rewrite (nth_map ord0) ?size_enum_ord // nth_zip ?size_tuple //.
    have [eN _] := C55_value (nth 0 A t) (nth 0 B t) sc; rewrite [LHS]eN.
    by rewrite /dist !(tnth_nth 0) (nth_enum_ord ord0 tT).
  rewrite xmean_fin big_enum /= size_enum_ord; case ee: (enum 'I_T.+1) => //.
  by have := size_enum_ord T.+1; rewrite ee.
split=> //; rewrite e.
have d0 X Y : 0 <= dist X Y.
  rewrite /dist divr_ge0 //; last by case: (sc); rewrite ?ler0n ?ler01.
  by do 2 apply: sumr_ge0 => ? _; exact: sqr_ge0.
have dz X Y : dist X Y = 0 -> X = Y.
  move=> /eqP; rewrite /dist mulf_eq0 invr_eq0 => /orP[/eqP h|]; last by case: (sc); rewrite ?pnatr_eq0 ?oner_eq0.
  apply/matrixP => i j; apply/eqP; rewrite -subr_eq0 -sqrf_eq0; apply/eqP.
  have p1 k : true -> 0 <= \sum_l (X k l - Y k l) ^+ 2 by move=> _; apply: sumr_ge0 => l _; exact: sqr_ge0.
  have h1 : \sum_l (X i l - Y i l) ^+ 2 = 0 := psumr_eq0P p1 h (i := i) isT.
  by apply: (psumr_eq0P _ h1) => // l _; exact: sqr_ge0.
split=> [[/eqP]|->].
  rewrite mulf_eq0 invr_eq0 pnatr_eq0 orbF => /eqP h; apply: eq_from_tnth => t; apply: dz.
  by apply: (psumr_eq0P _ h) => // k _; exact: d0.
congr Fin; rewrite big1 ?mul0r // => t _; rewrite /dist big1 ?mul0r // => i _; rewrite big1 // => j _; by rewrite subrr expr0n.
Qed.
Print Assumptions C153_mean.
(** expected: series of different lengths cannot be compared. The longer one is cut, without notice: any continuation of a series is at error 0 from it *)
Theorem C153_lengths_refuted : forall n (A B C : seq 'M[R]_n) scaling squared, size A = size B ->
  error_norm_time A (B ++ C) scaling squared = error_norm_time A B scaling squared /\
  error_norm_time (A ++ C) B scaling squared = error_norm_time A B scaling squared.
Proof.
move=> n A B C sc sq sAB.
have z1 (l1 l2 l3 : seq 'M[R]_n) : size l1 = size l2 -> zip l1 (l2 ++ l3) = zip l1 l2 by elim: l1 l2 => [|x l1 IH] [|y l2] //=; [case: l3|move=> [/IH ->]].
have z2 (l1 l2 l3 : seq 'M[R]_n) : size l1 = size l2 -> zip (l1 ++ l3) l2 = zip l1 l2 by elim: l1 l2 => [|x l1 IH] [|y l2] //=; [case: l3|move=> [/IH ->]].
by rewrite /error_norm_time z1 // z2.
Qed.
Print Assumptions C153_lengths_refuted.
(** the same comparison of ranks raises, unless one series has length one *)
Theorem C153_rank : forall n (rank : 'M[R]_n -> nat) (A B : seq 'M[R]_n),
  (size A <> size B -> size A <> 1%N -> size B <> 1%N -> error_rank rank A B = Raise ValueError) /\
  (size A = size B -> A <> [::] -> exists r, error_rank rank A B = Val (Fin r) /\ 0 <= r /\ (r = 0 <-> [seq rank l | l <- A] = [seq rank l | l <- B])).
Proof.
move=> n rank A B; rewrite /error_rank /broadcast !size_map; split.
  move=> /eqP /negbTE -> a1 b1.
  by case: A a1 => [|x [|y A]] //=; case: B b1 => [|u [|v B]].
move=> sAB; rewrite sAB eqxx => ne; rewrite xmean_fin.
have : [seq rank l | l <- A] != [::] by case: (A) ne.
have : size [seq rank l | l <- A] = size [seq rank l | l <- B] by rewrite !size_map.
move: [seq rank l | l <- A] [seq rank l | l <- B] => a b sab a0; case ez: (zip a b) => [|z l]; first by case: a a0 sab ez => // x a _; case: b.
rewrite -ez; exists ((\sum_(i <- zip a b) `|i.1%:R - i.2%:R|) / (size (zip a b))%:R); split; first by rewrite ez.
have S0 : 0 < (size (zip a b))%:R :> R by rewrite ez ltr0n.
split; first by rewrite divr_ge0 ?(ltW S0) //; apply: sumr_ge0 => i _; exact: normr_ge0.
have -> : (\sum_(i <- zip a b) `|i.1%:R - i.2%:R|) / (size (zip a b))%:R = 0 :> R <-> \sum_(i <- zip a b) `|i.1%:R - i.2%:R| = 0 :> R.
  split=> [/eqP|->]; last by rewrite mul0r.
  by rewrite mulf_eq0 invr_eq0 (gt_eqF S0) orbF => /eqP.
clear ez S0 a0 z l; elim: a b sab => [|x a IH] [|y b] //=; first by rewrite big_nil.
move=> [/IH {}IH]; rewrite big_cons /=; split=> [/eqP|[-> /IH ->]]; last by rewrite subrr normr0 addr0.
rewrite paddr_eq0 ?normr_ge0 //; last by apply: sumr_ge0 => i _; exact: normr_ge0.
by rewrite normr_eq0 subr_eq0 eqr_nat => /andP[/eqP -> /eqP /IH ->].
Qed.
Print Assumptions C153_rank.
Example C153_case : error_norm_time [:: (0 : 'M[R]_2)] [:: 0; 1%:M] true true = Fin 0.
Proof.
have [-> _] := @C153_lengths_refuted _ [:: (0 : 'M[R]_2)] [:: 0] [:: 1%:M] true true erefl.
by have [_ [_ h]] := @C153_mean 1 0 [tuple 0] [tuple 0] true; exact: h.
Qed.
