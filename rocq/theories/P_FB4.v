(** Proofs about the forward-backward model: line search, descent, resting states. *)
From Coq Require Import Reals Lra Psatz String.
From mathcomp Require Import all_ssreflect all_algebra.
From Verif Require Import RStruct RTac LinTac Spectral S_Mat RMx ADMM NP Str M_Prox S_Prox P_Eigh.
From Verif Require Import P_Prox P_Prox2 P_Prox3 M_Loop P_Loop M_GL S_GL P_GL M_LGL P_LGL S_Fit P_GL2 P_Exist.
From Verif Require Import M_TGL S_TGL P_TGL P_TGL2 P_KTGL5 M_FB S_FB P_FB P_FB2 P_FB3.
Import Order.TTheory GRing.Theory Num.Theory.

Set Implicit Arguments.
Unset Strict Implicit.
Unset Printing Implicit Defensive.
Local Open Scope ring_scope.

(** * the loops *)
Lemma cgl_spec n T (prox_at : R -> stack n T) accept eps k gamma last g y :
  choose_gamma_loop prox_at accept eps k gamma last = (g, y) ->
  (exists j, [/\ (j < k)%N, g = gamma * eps ^+ j, y = Some (prox_at g), accept g (prox_at g) &
     forall i, (i < j)%N -> ~~ accept (gamma * eps ^+ i) (prox_at (gamma * eps ^+ i))]) \/
  [/\ g = gamma * eps ^+ k, y = (if k is k'.+1 then Some (prox_at (gamma * eps ^+ k')) else last) &
     forall i, (i < k)%N -> ~~ accept (gamma * eps ^+ i) (prox_at (gamma * eps ^+ i))].
Proof.
elim: k gamma last => [|k IH] gamma last /=.
  by case=> <- <-; right; split=> //; rewrite expr0 mulr1.
case: ifP => ha.
  by case=> <- <-; left; exists 0%N; rewrite expr0 mulr1; split.
have first_no : ~~ accept (gamma * eps ^+ 0) (prox_at (gamma * eps ^+ 0)) by rewrite expr0 mulr1 ha.
have next i : gamma * eps * eps ^+ i = gamma * eps ^+ i.+1 by rewrite exprS mulrA.
case/IH => [[j [jk -> -> hj hno]]|[-> -> hno]].
  left; exists j.+1; rewrite -next; split=> // -[|i] //; rewrite ltnS => ij; rewrite -next; exact: hno.
right; split; first by rewrite next.
  by case: k {IH hno} => [|k]; rewrite ?expr0 ?mulr1 ?next.
by case=> [|i] //; rewrite ltnS => ij; rewrite -next; apply: hno.
Qed.
Lemma cll_spec accept eps k lamda i0 l i :
  choose_lamda_loop accept eps k lamda i0 = (l, i) ->
  (exists j, [/\ (j < k)%N, l = lamda * eps ^+ j, i = (i0 + j.+1)%N, accept l &
     forall i, (i < j)%N -> ~~ accept (lamda * eps ^+ i)]) \/
  [/\ l = lamda * eps ^+ k, i = (i0 + k)%N &
     forall i, (i < k)%N -> ~~ accept (lamda * eps ^+ i)].
Proof.
elim: k lamda i0 => [|k IH] lamda i0 /=.
  by case=> <- <-; right; split=> //; rewrite ?expr0 ?mulr1 ?addn0.
case: ifP => ha.
  by case=> <- <-; left; exists 0%N; rewrite expr0 mulr1 addn1; split.
have first_no : ~~ accept (lamda * eps ^+ 0) by rewrite expr0 mulr1 ha.
have next z : lamda * eps * eps ^+ z = lamda * eps ^+ z.+1 by rewrite exprS mulrA.
case/IH => [[j [jk -> -> hj hno]]|[-> -> hno]].
  left; exists j.+1; rewrite -next addSnnS; split=> // -[|i'] //; rewrite ltnS => ij; rewrite -next; exact: hno.
right; split; [by rewrite next|by rewrite addSnnS|].
by case=> [|i'] //; rewrite ltnS => ij; rewrite -next; apply: hno.
Qed.

(** powers of eps get small *)
Lemma geo_small (gamma eps e : R) : 0 < gamma -> 0 < eps -> eps < 1 -> 0 < e ->
  exists N, forall k, (N <= k)%N -> gamma * eps ^+ k <= e.
Proof.
move=> g0 e0 e1 h0.
(* (1/eps)^k >= 1 + k(1/eps - 1) *)
pose q := eps^-1 - 1.
have q0 : 0 < q by rewrite subr_gt0 invf_gt1.
have bern k : 1 + k%:R * q <= eps^-1 ^+ k.
  elim: k => [|k IH]; first by rewrite mul0r addr0 expr0.
  have eq1 : eps^-1 = 1 + q by rewrite /q addrC subrK.
  have p0 : 0 < eps^-1 by rewrite invr_gt0.
  rewrite exprS; apply: le_trans (ler_wpmul2l (ltW p0) IH).
  rewrite eq1 -addn1 natrD; have k0 : 0 <= k%:R :> R by rewrite ler0n.
  by move: (k%:R : R) q q0 k0 {p0 IH eq1} => x y *; mcnra.
have [N [N0 hN]] := @archi (gamma / e) q q0.
exists N => k Nk.
have ek : 0 < eps ^+ k by rewrite exprn_gt0.
have : gamma / e <= eps^-1 ^+ k.
  apply: le_trans hN _; apply: le_trans (bern k).
  rewrite mulrC; apply: (@le_trans _ _ (k%:R * q)); last by rewrite ler_addr ler01.
  by apply: ler_wpmul2r; [apply: ltW|rewrite ler_nat].
rewrite exprVn ler_pdivr_mulr // mulrC ler_pdivl_mulr //.
Qed.

(** * one step *)
Lemma greal_ge0 n m lap (alpha beta : R) (K : stack n m.+1) : 0 <= alpha -> 0 <= beta ->
  0 <= greal lap alpha beta K.
Proof.
move=> a0 b0; apply: addr_ge0.
  by apply: mulr_ge0 => //; apply: sumr_ge0 => t _; apply: l1od_ge0.
case: lap => //; apply: mulr_ge0 => //; apply: sumr_ge0 => i _; apply: sumr_ge0 => j _.
by apply: sumr_ge0 => k _; apply: sumr_ge0.
Qed.
Lemma sip_slice n T (X : stack n T) t : fnorm2 (X t) <= sip n T X X.
Proof.
rewrite sipE (bigD1 t) //= fnorm2E ler_addl; apply: sumr_ge0 => s _; exact: fdotAA_ge0.
Qed.
Lemma fnorm_le_sq m n (A : 'M[R]_(m, n)) (e : R) : 0 <= e -> fnorm2 A <= e ^+ 2 -> fnorm A <= e.
Proof. by move=> e0 h; have := h; rewrite -fnorm_sqr ler_sqr ?nnegrE ?fnorm_ge0. Qed.

Section Step.
Variables (n m : nat) (tv : 'rV[R]_m.+2 -> R -> 'rV[R]_m.+2) (pinvh : 'M[R]_n -> 'M[R]_n).
Variables (S : stack n m.+2) (ns : 'I_m.+2 -> R) (p : fb_params).
Hypothesis Htv : tv_ok tv.
Hypothesis Hp : pinvh_ok pinvh.
Hypothesis sS : slices (@sym n) S.
Hypothesis ns0 : forall t, 0 <= ns t.
Hypothesis a0 : 0 <= fb_alpha p.
Hypothesis b0 : 0 <= fb_beta p.
Hypothesis v0 : 0 <= fb_vareps p.
Local Notation lap := (fb_laplacian p).
Local Notation smooth := (fb_smooth lap ns S (fb_beta p) (fb_vareps p)).
Local Notation prob := (fb_problem lap ns S (fb_alpha p) (fb_beta p) (fb_vareps p)).
Local Notation G := (fb_grad pinvh S ns p).
Local Notation sipn := (sip n m.+2).
Local Notation gr := (greal lap (fb_alpha p) (fb_beta p)).
Implicit Types X Z K : stack n m.+2.
Definition fb_y (gamma : R) (x : stack n m.+2) : stack n m.+2 :=
  fb_prox tv lap (fb_beta p) (fb_alpha p) gamma (x - gamma *: G x).

Lemma y_sub gamma X Z : 0 < gamma ->
  gr (fb_y gamma X) + sipn (G X) (fb_y gamma X - Z) + gamma^-1 * sipn (fb_y gamma X - X) (fb_y gamma X - Z) <= gr Z.
Proof.
move=> g0; have := fb_prox_sub Htv Z a0 b0 g0 (erefl (fb_y gamma X)).
move: (fb_y gamma X) => y.
have -> : sipn (X - gamma *: G X - y) (Z - y) = gamma * sipn (G X) (y - Z) + sipn (y - X) (y - Z).
  have -> : Z - y = - (y - Z) by lin.
  have -> : X - gamma *: G X - y = - (gamma *: G X + (y - X)) by lin.
  by rewrite ipNl ipNr opprK ipDl ipZl.
move: (gr y) (gr Z) (sipn _ _) (sipn _ _) => u v s r h.
rewrite -(ler_pmul2l g0) !mulrDr (mulrA gamma gamma^-1) mulfV ?gt_eqF // mul1r.
by move: h; move: (gamma * u) (gamma * v) (gamma * s) => *; mclra.
Qed.
Lemma y_self gamma X : 0 < gamma ->
  gr (fb_y gamma X) + sipn (G X) (fb_y gamma X - X) +
  gamma^-1 * sipn (fb_y gamma X - X) (fb_y gamma X - X) <= gr X.
Proof. exact: y_sub. Qed.

Lemma y_dist gamma X : 0 < gamma -> gamma <= 1 ->
  sipn (fb_y gamma X - X) (fb_y gamma X - X) <= gamma * (2%:R * gr X + sipn (G X) (G X)).
Proof.
move=> g0 g1; have h := y_self X g0; have hy := greal_ge0 lap (fb_y gamma X) a0 b0.
set d := fb_y gamma X - X in h *.
have h' : sipn d d + gamma * sipn (G X) d <= gamma * gr X.
  move: h hy; move: (gr _) (gr X) (sipn (G X) d) (sipn d d) => u v s q h u0.
  have := ler_wpmul2l (ltW g0) h; rewrite !mulrDr (mulrA gamma gamma^-1) mulfV ?gt_eqF // mul1r.
  have : 0 <= gamma * u by rewrite mulr_ge0 // ltW.
  by move: (gamma * u) (gamma * v) (gamma * s) => *; mclra.
have sq : 0 <= sipn d d + 2%:R * gamma * sipn (G X) d + gamma ^+ 2 * sipn (G X) (G X).
  have := ip_ge0 sipn (d + gamma *: G X); rewrite nrm2D !ipZr ipZl (ipC sipn d (G X)).
  by rewrite expr2 !mulrA.
have gG : gamma ^+ 2 * sipn (G X) (G X) <= gamma * sipn (G X) (G X).
  apply: ler_wpmul2r; first exact: ip_ge0.
  by rewrite expr2 ler_pimulr // ltW.
rewrite mulrDr; move: h' sq gG; rewrite -mulrA.
move: (gamma * sipn (G X) d) (gamma ^+ 2 * _) (gamma * sipn _ _) (sipn d d) => a b c e.
rewrite mulrCA; move: (gamma * gr X) => f *; mclra.
Qed.

Lemma grad_sym X : slices (@pd n) X -> slices (@sym n) (G X).
Proof.
move=> pX t; rewrite gradE //; apply: symD; first apply: symD.
- by apply: symZ; apply: symB => //; apply: sym_inv; apply: pd_sym; apply: pX.
- by apply: symZ; apply: pd_sym.
case: lap; last exact: sym0.
apply: symZ; rewrite lap_aux; apply: symB; case: unlift => [s|] /=; rewrite ?difE; try exact: sym0.
all: by apply: symB; apply: pd_sym.
Qed.
Lemma fb_prox_sym gamma (a : stack n m.+2) : slices (@sym n) a ->
  slices (@sym n) (fb_prox tv lap (fb_beta p) (fb_alpha p) gamma a).
Proof.
move=> sa t; rewrite /fb_prox; case: lap; rewrite ffunE; first exact: sod_sym.
apply/matrixP => i j; rewrite !mxE eq_sym.
have e : series a j i = series a i j by apply/rowP => s; rewrite !mxE -{1}(sa s) mxE.
by case: eqP => [->|_]; rewrite ?e.
Qed.
Lemma y_sym gamma X : slices (@pd n) X -> slices (@sym n) (fb_y gamma X).
Proof.
move=> pX; apply: fb_prox_sym => t; rewrite stB stZ; apply: symB; first exact: pd_sym.
by apply: symZ; apply: grad_sym.
Qed.

(** all small step lengths pass the test *)
Definition acc lamda delta X gamma : bool :=
  gamma_test (fb_f S (Some ns) p) X (G X) lamda delta gamma (fb_y gamma X).
(** the smooth part near X: second order upper bound, with constants that depend on a floor only *)
Lemma near_upper (c : R) : 0 < c -> exists h L : R, [/\ 0 < h, 0 <= L &
  forall X H : stack n m.+2, slices (fun A => psd (A - c%:M)) X -> slices (@sym n) H -> sipn H H <= h ^+ 2 ->
    slices (@pd n) (X + H) /\ smooth (X + H) <= smooth X + sipn (G X) H + L * sipn H H].
Proof.
move=> c0.
pose N : R := \sum_t ns t.
have hN t : ns t <= N by rewrite /N (bigD1 t) //= ler_addl; apply: sumr_ge0 => s _.
have N0 : 0 <= N by apply: sumr_ge0 => s _.
pose h : R := c / 2%:R; have hp : 0 < h by rewrite divr_gt0 //; mclra.
pose L : R := N * h^-1 ^+ 2 + fb_vareps p / 2%:R + 4%:R * fb_beta p.
have L0 : 0 <= L.
  rewrite !addr_ge0 //; first by rewrite mulr_ge0 // sqr_ge0.
    by rewrite divr_ge0 //; mclra.
  by rewrite mulr_ge0 //; mclra.
exists h, L; split=> // X H fX sH near.
have ec : c = h + h by rewrite /h; exact: splitr.
have fXh : slices (fun A => psd (A - h%:M)) X.
  move=> t; have -> : X t - h%:M = (X t - c%:M) + h%:M.
    by rewrite ec [X in _ = _ - X + _]raddfD /= opprD addrA subrK.
  by apply: psdD => //; rewrite -scalemx1; apply: psdZ; [apply: ltW|apply: pd_psd; apply: pd1].
have fZ : slices (fun A => psd (A - h%:M)) (X + H).
  move=> t; rewrite stD.
  have eh : h = c - h by rewrite ec addrK.
  rewrite {1}eh; apply: floor_near => //.
  by apply: fnorm_le_sq; [apply: ltW|apply: le_trans near; apply: sip_slice].
split; first by move=> t; apply: floor_pd hp (fZ t).
have := smooth_upper Hp sS ns0 b0 hp hN fXh fZ; rewrite -/L.
by have -> : X + H - X = H by lin.
Qed.
Lemma floor_all X : slices (@pd n) X -> exists2 c : R, 0 < c & slices (fun A => psd (A - c%:M)) X.
Proof.
move=> pX.
have h t : exists c : R, 0 < c /\ psd (X t - c%:M).
  by have [c c0 hc] := pd_floor (pX t); exists c.
have [f hf] := fin_all_exists h.
have [c c0 hc] := pos_min (fun t => (hf t).1); exists c => // t.
have -> : X t - c%:M = (X t - (f t)%:M) + (f t - c)%:M by rewrite [X in _ = _ + X]raddfB /= addrA subrK.
apply: psdD; first exact: (hf t).2.
by rewrite -scalemx1; apply: psdZ; [rewrite subr_ge0|apply: pd_psd; apply: pd1].
Qed.
Lemma floor_slices X (c : R) : 0 < c -> slices (fun A => psd (A - c%:M)) X -> slices (@pd n) X.
Proof. by move=> c0 fX t; apply: floor_pd c0 (fX t). Qed.

Definition bnd X : R := 2%:R * gr X + sipn (G X) (G X).
Lemma bnd_ge0 X : 0 <= bnd X.
Proof. by apply: addr_ge0; [rewrite mulr_ge0 ?greal_ge0 //; mclra|exact: ip_ge0]. Qed.

Lemma accept_unif (lamda delta c A : R) : 0 <= lamda -> 0 < delta -> 0 < c -> 0 <= A ->
  exists2 g0 : R, 0 < g0 & forall X (gamma : R), slices (fun A => psd (A - c%:M)) X -> bnd X <= A ->
    0 < gamma -> gamma <= g0 ->
    slices (@pd n) (X + lamda *: (fb_y gamma X - X)) /\ acc lamda delta X gamma.
Proof.
move=> l0 d0 c0 A0; have [h [L [hp L0 up]]] := near_upper c0.
pose B : R := lamda ^+ 2 * A + 1.
have B0 : 0 < B by apply: ltr_paddl; [rewrite mulr_ge0 // sqr_ge0|exact: ltr01].
pose D : R := L * lamda + 1; have D0 : 0 < D by apply: ltr_paddl; [rewrite mulr_ge0|exact: ltr01].
exists (np_min 1 (np_min (h ^+ 2 / B) (delta / D))).
  rewrite /np_min; case: ifP => _; last by exact: ltr01.
  by case: ifP => _; apply: divr_gt0 => //; rewrite exprn_gt0.
move=> X gamma fX hA g0 gle; have pX := floor_slices c0 fX.
have [g1 [g2 g3]] : gamma <= 1 /\ gamma <= h ^+ 2 / B /\ gamma <= delta / D.
  move: gle; rewrite /np_min; move: (h ^+ 2 / B) (delta / D) => u v.
  case: (ltrP v u) => uv; [case: (ltrP v 1)|case: (ltrP u 1)] => w gl; split=> //; try split=> //; mclra.
set d := fb_y gamma X - X.
have dd : sipn d d <= gamma * A.
  by apply: le_trans (y_dist X g0 g1) _; apply: ler_wpmul2l => //; apply: ltW.
have near : sipn (lamda *: d) (lamda *: d) <= h ^+ 2.
  rewrite ipZl ipZr mulrA -expr2.
  apply: le_trans (ler_wpmul2l (sqr_ge0 lamda) dd) _.
  apply: (@le_trans _ _ (gamma * B)); last by rewrite -ler_pdivl_mulr.
  rewrite mulrCA; apply: ler_wpmul2l; first exact: ltW.
  by rewrite /B ler_addl ler01.
have sH : slices (@sym n) (lamda *: d).
  by move=> t; rewrite stZ; apply: symZ; rewrite stB; apply: symB; [apply: y_sym|apply: pd_sym].
have [pZ hup] := up X _ fX sH near.
split=> //; rewrite /acc /gamma_test !fb_fE // -/d.
move: hup; rewrite !ipZr ipZl => hup.
have key : L * (lamda * (lamda * sipn d d)) <= lamda * (delta / gamma * sipn d d).
  rewrite mulrCA; apply: ler_wpmul2l => //; rewrite mulrA; apply: ler_wpmul2r; first exact: ip_ge0.
  rewrite ler_pdivl_mulr //; apply: (@le_trans _ _ (D * gamma)); last by rewrite mulrC -ler_pdivl_mulr.
  by apply: ler_wpmul2r; [apply: ltW|rewrite /D ler_addl ler01].
rewrite /= !scalarE (ipC _ d (G X)) mulrDr.
move: hup key; move: (lamda * (delta / _ * _)) (lamda * sipn (G X) d) (L * _) (smooth _) (smooth _) => *; mclra.
Qed.
Lemma accept_small X (lamda delta : R) : slices (@pd n) X -> 0 <= lamda -> 0 < delta ->
  exists2 g0 : R, 0 < g0 & forall gamma : R, 0 < gamma -> gamma <= g0 ->
    slices (@pd n) (X + lamda *: (fb_y gamma X - X)) /\ acc lamda delta X gamma.
Proof.
move=> pX l0 d0; have [c c0 fX] := floor_all pX.
have [g0 g0p h] := accept_unif l0 d0 c0 (bnd_ge0 X); exists g0 => // gamma gp gl.
exact: h.
Qed.

(** * descent *)
Lemma gr_convex (X Y : stack n m.+2) (t : R) : 0 <= t -> t <= 1 -> gr (X + t *: (Y - X)) <= (1 - t) * gr X + t * gr Y.
Proof.
move=> t0 t1; have s0 : 0 <= 1 - t by rewrite subr_ge0.
have tri (a b : R) : `|(1 - t) * a + t * b| <= (1 - t) * `|a| + t * `|b|.
  by apply: le_trans (ler_norm_add _ _) _; rewrite !normrM (ger0_norm t0) (ger0_norm s0).
have e s i j : (X + t *: (Y - X)) s i j = (1 - t) * X s i j + t * Y s i j.
  by rewrite stD stZ stB !mxE; move: (X s i j) (Y s i j) => a b; mcring.
have h1 : \sum_s l1od ((X + t *: (Y - X)) s) <= (1 - t) * (\sum_s l1od (X s)) + t * (\sum_s l1od (Y s)).
  rewrite !mulr_sumr -big_split /=; apply: ler_sum => s _; rewrite /l1od !mulr_sumr -big_split /=.
  apply: ler_sum => i _; rewrite !mulr_sumr -big_split /=; apply: ler_sum => j _.
  by rewrite e.
have h2 : vector_p_norm (@l1 1 m.+1) (dif (X + t *: (Y - X))) <=
   (1 - t) * vector_p_norm (@l1 1 m.+1) (dif X) + t * vector_p_norm (@l1 1 m.+1) (dif Y).
  rewrite /vector_p_norm !mulr_sumr -big_split /=; apply: ler_sum => i _.
  rewrite !mulr_sumr -big_split /=; apply: ler_sum => j _.
  rewrite /l1 !big_ord1 !mulr_sumr -big_split /=; apply: ler_sum => s _; rewrite ![series _ _ _ _ _]mxE.
  rewrite !difE.
  have ee k l : (k - l : 'M[R]_n) i j = k i j - l i j by rewrite !mxE.
  rewrite !ee !e; apply: le_trans (tri _ _).
  have gen (x1 x2 y1 y2 : R) :
    `|(1 - t) * x1 + t * y1 - ((1 - t) * x2 + t * y2)| <= `|(1 - t) * (x1 - x2) + t * (y1 - y2)|.
    suff -> : (1 - t) * x1 + t * y1 - ((1 - t) * x2 + t * y2) = (1 - t) * (x1 - x2) + t * (y1 - y2) by [].
    by mcring.
  exact: gen.
rewrite /greal -!/(dif _).
have H1 := ler_wpmul2l a0 h1; have H2 := ler_wpmul2l b0 h2; move: H1 H2.
move: (\sum_s l1od _) (\sum_s l1od _) (\sum_s l1od _) => x y z.
move: (vector_p_norm _ _) (vector_p_norm _ _) (vector_p_norm _ _) => u v w.
move: (fb_alpha p) (fb_beta p) => a b H1 H2; case: (fb_laplacian p); mclra.
Qed.
(** the loss is never minus infinity *)
Lemma xsum_not_ninf (f : 'I_m.+2 -> xR) : (forall t, f t <> NInf) -> \big[xadd/Fin 0]_t f t <> NInf.
Proof. by move=> h; apply: (big_rec (fun x => x <> NInf)) => // t x _; have := h t; case: (f t); case: x. Qed.
Lemma fb_f_not_ninf X : fb_f S (Some ns) p X <> NInf.
Proof.
have h : tgl_loss S X (Some ns) <> NInf.
  apply: xsum_not_ninf => t; rewrite /log_likelihood /fast_logdet /=.
  case: ltrP => _ //=.
  have x0 : - ns t <= 0 by rewrite oppr_le0.
  by rewrite /xinfmul; case: (- ns t == 0) => //; rewrite ltNge x0.
rewrite /fb_f /loss_laplacian /fb_loss; move: h; case: (tgl_loss _ _ _) => //.
all: by case: (fb_laplacian p).
Qed.

Lemma descent (lamda delta gamma a : R) X : 0 <= lamda -> lamda <= 1 -> 0 < gamma ->
  fb_f S (Some ns) p X = Fin a -> acc lamda delta X gamma ->
  exists2 b : R, fb_f S (Some ns) p (X + lamda *: (fb_y gamma X - X)) = Fin b &
   b + gr (X + lamda *: (fb_y gamma X - X)) <=
   a + gr X - lamda * ((1 - delta) / gamma * sipn (fb_y gamma X - X) (fb_y gamma X - X)).
Proof.
move=> l0 l1 g0 ea; rewrite /acc /gamma_test ea.
have := @fb_f_not_ninf (X + lamda *: (fb_y gamma X - X)).
case: (fb_f S (Some ns) p (X + _)) => // b _ h; exists b => //; rewrite /= in h.
have := gr_convex X (fb_y gamma X) l0 l1; have := y_self X g0.
move: h; rewrite !scalarE (ipC _ _ (G X)); set d := fb_y gamma X - X.
move: (sipn d d) (sipn (G X) d) (gr _) (gr _) (gr _) => dd gd g1 g2 g3 h1 h2 h3.
have := ler_wpmul2l l0 h2; move: h1 h3; clear=> h1 h3 h2.
have num (u : R) : b - a <= lamda * (gd + delta * u * dd) -> g1 <= (1 - lamda) * g2 + lamda * g3 ->
  lamda * (g3 + gd + u * dd) <= lamda * g2 -> b + g1 <= a + g2 - lamda * ((1 - delta) * u * dd).
  by move=> *; mclra.
exact: num.
Qed.

(** * resting points *)
Lemma rest_opt (gamma : R) X : 0 < gamma -> slices (@pd n) X -> fb_y gamma X = X ->
  minimiser (fun K : stack n m.+2 => slices (@pd n) K) (fun K => prob K) X.
Proof.
move=> g0 pX e; split=> // Z pZ; rewrite !probE.
have := y_sub X Z g0; rewrite e; have -> : X - X = 0 by lin.
rewrite ip0l mulr0 addr0; have := smooth_lower Hp sS ns0 v0 b0 pX pZ.
have -> : sipn (G X) (X - Z) = - sipn (G X) (Z - X) by rewrite -ipNr; congr (sipn _ _); lin.
by move: (smooth _) (smooth _) (gr _) (gr _) (sipn _ _) => *; mclra.
Qed.
Lemma opt_rest (gamma : R) X : 0 < gamma -> minimiser (fun K : stack n m.+2 => slices (@pd n) K) (fun K => prob K) X -> fb_y gamma X = X.
Proof.
move=> g0 [pX hX]; have [c c0 fX] := floor_all pX.
have [h [L [hp L0 up]]] := near_upper c0.
set y := fb_y gamma X; set d := y - X.
have sd : slices (@sym n) d by move=> t; rewrite stB; apply: symB; [apply: y_sym|apply: pd_sym].
have dd0 : 0 <= sipn d d by apply: ip_ge0.
have D0 : 0 < 1 + sipn d d by apply: ltr_paddr => //; exact: ltr01.
have first (t : R) : 0 < t -> t <= 1 -> t ^+ 2 * (1 + sipn d d) <= h ^+ 2 ->
    0 <= sipn (G X) d + gr y - gr X + t * (L * sipn d d).
  move=> t0 t1 th.
  have near : sipn (t *: d) (t *: d) <= h ^+ 2.
    rewrite ipZl ipZr mulrA -expr2; apply: le_trans th; apply: ler_wpmul2l; first exact: sqr_ge0.
    by rewrite ler_addr ler01.
  have sH : slices (@sym n) (t *: d) by move=> s; rewrite stZ; apply: symZ.
  have [pZ hup] := up X _ fX sH near.
  have := hX _ pZ; rewrite !probE.
  have := gr_convex X y (ltW t0) t1; rewrite -/d.
  move: hup; rewrite !ipZr !ipZl.
  have num (g1 g2 g3 s1 s2 u v : R) : s2 <= s1 + t * u + L * (t * (t * v)) ->
     g1 <= (1 - t) * g3 + t * g2 -> s1 + g3 <= s2 + g1 -> 0 <= t * (u + g2 - g3 + t * (L * v)).
    by move=> *; mclra.
  by move=> h1 h2 h3; rewrite -(pmulr_rge0 _ t0); apply: num h1 h2 h3.
pose t : R := np_min 1 (np_min (h / (1 + sipn d d)) (gamma^-1 / (2%:R * (L + 1)))).
have L1 : 0 < L + 1 by apply: ltr_paddl => //; exact: ltr01.
have q0 : 0 < 2%:R * (L + 1) by rewrite mulr_gt0 //; mclra.
have t0 : 0 < t.
  rewrite /t /np_min; case: ifP => _; last by exact: ltr01.
  by case: ifP => _; apply: divr_gt0 => //; rewrite invr_gt0.
have [t1 [t2 t3]] : t <= 1 /\ t <= h / (1 + sipn d d) /\ t <= gamma^-1 / (2%:R * (L + 1)).
  rewrite /t /np_min; move: (h / _) (gamma^-1 / _) => u v.
  case: (ltrP v u) => uv; [case: (ltrP v 1)|case: (ltrP u 1)] => w; split=> //; try split=> //; mclra.
have th : t ^+ 2 * (1 + sipn d d) <= h ^+ 2.
  rewrite ler_pdivl_mulr // in t2; rewrite !expr2 -mulrA.
  apply: (@le_trans _ _ (t * h)); first by apply: ler_wpmul2l => //; apply: ltW.
  apply: ler_wpmul2r; first exact: ltW.
  apply: le_trans t2; rewrite -{1}(mulr1 t); apply: ler_wpmul2l; first exact: ltW.
  by rewrite ler_addl.
have := first t t0 t1 th; have := y_self X g0; rewrite -/y -/d => h1 h2.
rewrite ler_pdivl_mulr // in t3.
have g1 : 0 < gamma^-1 by rewrite invr_gt0.
have num (g a b k u v l : R) : 0 < g -> 0 <= v -> 0 < u -> u * (2%:R * (l + 1)) <= g -> 
  a + b + g * v <= k -> 0 <= b + a - k + u * (l * v) -> v <= 0.
  move=> gp vp uup ug k1 k2; rewrite leNgt; apply/negP => v1.
  have : u * (2%:R * (l + 1)) * v <= g * v by apply: ler_wpmul2r.
  have : 0 < u * v by rewrite mulr_gt0.
  have : 0 < g * v by rewrite mulr_gt0.
  by move=> *; mclra.
have dz : sipn d d = 0.
  by apply/le_anti; rewrite dd0 andbT; apply: num g1 dd0 t0 t3 h1 h2.
have e : d = 0 by exact: ip_eq0 dz.
have -> : y = X + d by rewrite /d; lin.
by rewrite e addr0.
Qed.
End Step.
