(** Proofs about the sampler model. *)
From Coq Require Import Reals.
From mathcomp Require Import all_ssreflect all_algebra.
From Verif Require Import RStruct RTac LinTac S_Mat S_Fit NP M_Utils M_GLM M_Sampling.
From Verif Require Import RMx P_Prox P_LGL.
Import Order.TTheory GRing.Theory Num.Theory.

Set Implicit Arguments.
Unset Strict Implicit.
Unset Printing Implicit Defensive.
Local Open Scope ring_scope.

Section GWP.
Variables (v p N : nat).
Implicit Types (u x nu : umat v p N) (L : 'M[R]_p).

Lemma gwpE u L t : GWP_construct u L t = (L *m (u t)^T) *m (L *m (u t)^T)^T.
Proof.
rewrite ffunE; set A := L *m (u t)^T.
have -> : L *m ((u t)^T *m u t) *m L^T = A *m A^T by rewrite /A trmx_mul trmxK !mulmxA.
by rewrite trmx_mul trmxK.
Qed.
Lemma gwp_psd u L t : psd (GWP_construct u L t).
Proof. by rewrite gwpE; exact: psd_gram. Qed.
Lemma gwpZ c u L t : GWP_construct (c *: u) L t = c ^+ 2 *: GWP_construct u L t.
Proof.
rewrite !gwpE ffunE; set A := L *m (u t)^T.
have -> : L *m (c *: u t)^T = c *: A by rewrite /A scalemxAr [(c *: u t)^T]linearZ.
by rewrite [(c *: A)^T]linearZ /= -scalemxAr -scalemxAl scalerA expr2.
Qed.
Lemma gwp_sing u L t : (v < p)%N -> \det (GWP_construct u L t) = 0.
Proof.
move=> h; rewrite gwpE; set A := L *m _; apply/eqP; apply: contraLR (h) => d0; rewrite -leqNgt.
have hu : A *m A^T \in unitmx by rewrite unitmxE unitfE.
have := mxrankM_maxl A A^T; rewrite mxrank_unit // => /leq_trans; apply; exact: rank_leq_col.
Qed.

(** ** the slice sampler *)
Section Loop.
Variables (lik : covs p N -> xR) (L : 'M[R]_p) (x nu : umat v p N) (hh : xR) (unif : nat -> R).
Hypothesis hu : forall k, 0 <= unif k < 1.
Notation loop := (ess_loop lik L x nu hh unif).

Lemma next_in k (a b : R) : a <= b -> a <= unif k * (b - a) + a <= b.
Proof.
move=> ab; have /andP [u0 u1] := hu k; have d0 : 0 <= b - a by rewrite subr_ge0.
rewrite ler_addr mulr_ge0 //= -ler_subr_addr -{2}[b - a]mul1r; apply: ler_wpmul2r => //; exact: ltW.
Qed.

Definition br_in (lo hi : R) (b : R * R * R) : bool :=
  [&& lo <= b.1.1, b.1.1 <= 0, 0 <= b.2, b.2 <= hi & b.1.1 <= b.1.2 <= b.2].
Definition shrink (b b' : R * R * R) : bool :=
  [&& b.1.1 <= b'.1.1, b'.2 <= b.2 & (b.1.2 == b'.1.1) || (b.1.2 == b'.2)].

Lemma loop_trace iters : forall j lo hi phi, lo <= 0 -> 0 <= hi -> lo <= phi <= hi ->
  all (br_in lo hi) (loop iters j lo hi phi).1 /\
  (if (loop iters j lo hi phi).1 is b :: tl then b = (lo, phi, hi) /\ path shrink b tl else True).
Proof.
elim: iters => [|k IH] j lo hi phi lo0 hi0 hp //=.
have ok : br_in lo hi (lo, phi, hi) by rewrite /br_in /= !lexx lo0 hi0 hp.
case: ifP => [_|_]; first by split=> //=; rewrite ok.
have /andP [hl hr] := hp.
case: ifP => [p0|_].
  have [h1 h2] := IH j.+1 lo phi (unif j * (phi - lo) + lo) lo0 (ltW p0) (next_in j hl).
  split; first by rewrite /= ok; apply: sub_all h1 => b /and5P [a1 a2 a3 a4 a5]; apply/and5P; split=> //; exact: le_trans hr.
  split=> //; case E: (loop k _ _ _ _).1 h2 => [|b tl] //= [-> ->].
  by rewrite /shrink /= lexx hr eqxx orbT.
case: ifP => [p0|_]; last by split=> //=; rewrite ok.
have [h1 h2] := IH j.+1 phi hi (unif j * (hi - phi) + phi) (ltW p0) hi0 (next_in j hr).
split; first by rewrite /= ok; apply: sub_all h1 => b /and5P [a1 a2 a3 a4 a5]; apply/and5P; split=> //; exact: le_trans a1.
split=> //; case E: (loop k _ _ _ _).1 h2 => [|b tl] //= [-> ->].
by rewrite /shrink /= lexx hl eqxx.
Qed.

Lemma loop_res iters : forall j lo hi phi y V l, (loop iters j lo hi phi).2 = Val (Some (y, V, l)) ->
  exists b, [/\ b \in (loop iters j lo hi phi).1, y = cos b.1.2 *: x + sin b.1.2 *: nu, V = GWP_construct y L,
                l = lik V & xgt l hh].
Proof.
elim: iters => [|k IH] j lo hi phi y V l //=.
case: ifP => [h [<- <- <-]|_]; first by exists (lo, phi, hi); rewrite inE eqxx.
case: ifP => [p0 /IH [b [h1 h2 h3 h4 h5]]|_]; first by exists b; split=> //; rewrite inE h1 orbT.
case: ifP => [p0 /IH [b [h1 h2 h3 h4 h5]]|_] //; by exists b; split=> //; rewrite inE h1 orbT.
Qed.

Lemma loop_noraise iters : xgt (lik (GWP_construct x L)) hh ->
  forall j lo hi phi e, (loop iters j lo hi phi).2 <> Raise e.
Proof.
move=> h; elim: iters => [|k IH] j lo hi phi e //=.
case: ifP => // n1; case: ifP => [_|n2]; first exact: IH.
case: ifP => [_|n3]; first exact: IH.
have p0 : phi = 0 by apply/eqP; rewrite eq_le !leNgt n2 n3.
by move: n1; rewrite p0 cos_0 sin_0 scale1r scale0r addr0 h.
Qed.
Lemma loop_size iters j lo hi phi : (size (loop iters j lo hi phi).1 <= iters)%N.
Proof.
elim: iters j lo hi phi => [|k IH] j lo hi phi //=.
case: ifP => // _; case: ifP => [_|_]; first by rewrite /= ltnS.
by case: ifP => [_|_] //=; rewrite ltnS.
Qed.
End Loop.

(** a log-level below a finite value *)
Lemma slice_lt (w : R) (l : R) : 0 <= w < 1 -> xgt (Fin l) (xadd (xmul (Fin (1 / 1000%:R)) (np_log w)) (Fin l)).
Proof.
have h : (0 : R) < 1 / 1000%:R by apply: divr_gt0; [exact: ltr01 | exact: ltr0Sn].
move: (1 / 1000%:R : R) h => c h.
case/andP; rewrite le_eqVlt => /orP [/eqP <-|w0] w1.
  by rewrite /np_log ltxx eqxx /= /xinfmul (gt_eqF h) h.
rewrite /np_log w0 /= -subr_gt0 opprD addrCA subrr addr0 oppr_gt0 pmulr_rlt0 //.
by apply/RltP; rewrite -[X in Rlt _ X]ln_1; apply: ln_increasing; apply/RltP.
Qed.
End GWP.

(** ** Metropolis-Hastings *)
Lemma exp_gt0 (a : R) : (0 : R) < exp a. Proof. by apply/RltP; exact: exp_pos. Qed.
Lemma expD (a b : R) : exp (a + b) = exp a * exp b. Proof. exact: exp_plus. Qed.
Lemma exp_ltE (a b : R) : (exp a < exp b) = (a < b).
Proof. by apply/idP/idP => /RltP h; apply/RltP; [exact: exp_lt_inv | exact: exp_increasing]. Qed.
Lemma mh_acceptE (u d : R) : 0 <= u -> mh_accept u d = (u < exp (np_min 0 d)).
Proof.
rewrite le_eqVlt => /orP [/eqP <-|u0]; rewrite /mh_accept /np_log.
  by rewrite ltxx eqxx /= exp_gt0.
by rewrite u0 /= -exp_ltE [X in X < _]exp_ln //; apply/RltP.
Qed.
Lemma mh_min (d : R) : exp (np_min 0 d) = np_min 1 (exp d).
Proof. by rewrite /np_min -[X in (exp d < X)]exp_0 exp_ltE; case: ifP => // _; rewrite exp_0. Qed.
Lemma mh_balance (a b : R) : exp a * exp (np_min 0 (b - a)) = exp b * exp (np_min 0 (a - b)).
Proof.
rewrite -!expD /np_min !subr_lt0; congr exp.
by case: (ltgtP a b) => [h|h|->]; rewrite ?addr0 // addrC subrK.
Qed.

(** ** lognstat *)
Lemma lognstat_ok (m w : R) : 0 < m -> 0 < w ->
  let ms := lognstat m w in
  exp (ms.1 + ms.2 ^+ 2 / 2%:R) = m /\ (exp (ms.2 ^+ 2) - 1) * exp (2%:R * ms.1 + ms.2 ^+ 2) = w.
Proof.
move=> m0 w0 /=; have q0 : 0 < m * m by exact: mulr_gt0.
have r1 : 1 < w / (m * m) + 1 by rewrite ltr_addr divr_gt0.
have s2 : (sqrt (ln (w / (m * m) + 1)) : R) ^+ 2 = ln (w / (m * m) + 1).
  rewrite expr2; apply: sqrt_sqrt; apply: Rlt_le; rewrite -ln_1; apply: ln_increasing; first exact: Rlt_0_1.
  exact/RltP.
have t0 : 0 < w + m * m by rewrite addr_gt0.
have st0 : (0 : R) < sqrt (w + m * m) by apply/RltP; apply: sqrt_lt_R0; exact/RltP.
have sts : (sqrt (w + m * m) : R) * sqrt (w + m * m) = w + m * m by apply: sqrt_sqrt; apply/RleP/ltW.
have e1 : exp (ln (w / (m * m) + 1)) = w / (m * m) + 1 by apply: exp_ln; apply/RltP; rewrite (lt_trans _ r1) ?ltr01.
have e2 : exp (ln (m * m / sqrt (w + m * m))) = m * m / sqrt (w + m * m) by apply: exp_ln; apply/RltP; rewrite divr_gt0.
have e3 : (exp (ln (w / (m * m) + 1) / 2%:R) : R) ^+ 2 = w / (m * m) + 1.
  rewrite expr2 -expD -[RHS]e1; congr exp; move: (ln _ : R) => z; mcfield.
have eq : w / (m * m) + 1 = (w + m * m) / (m * m) by rewrite mulrDl divff ?gt_eqF.
have e4 : (exp (ln (w / (m * m) + 1) / 2%:R) : R) = sqrt (w + m * m) / m.
  apply/eqP; rewrite -(@eqr_expn2 _ 2) //; first last.
  - by rewrite ltW // divr_gt0.
  - exact/ltW/exp_gt0.
  by rewrite e3 eq expr_div_n !expr2 sts.
rewrite s2; split.
  rewrite expD e2 e4; move: (sqrt _ : R) st0 => x x0.
  by rewrite mulrA mulfVK ?gt_eqF // mulfK ?gt_eqF.
rewrite expD e1 addrK.
have -> : exp (2%:R * ln (m * m / sqrt (w + m * m))) = (m * m / sqrt (w + m * m)) ^+ 2.
  by rewrite mulr_natl mulr2n expD e2 expr2.
rewrite expr_div_n [sqrt _ ^+ 2]expr2 sts eq; move: (w + m * m) t0 => x x0; move: (m * m) q0 => y y0.
have -> : y ^+ 2 / x * (x / y) = y.
  by rewrite mulrA mulfVK ?gt_eqF // expr2 mulfK ?gt_eqF.
by rewrite mulfVK ?gt_eqF.
Qed.
