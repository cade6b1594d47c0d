(** Proofs about the forward-backward model: convergence and termination. *)
From Coq Require Import Reals Lra Psatz String.
From mathcomp Require Import all_ssreflect all_algebra.
From Verif Require Import RStruct RTac LinTac Spectral S_Mat RMx ADMM NP Str M_Prox S_Prox P_Eigh.
From Verif Require Import P_Prox P_Prox2 P_Prox3 M_Loop P_Loop M_GL S_GL P_GL P_GL2 M_LGL P_LGL S_Fit.
From Verif Require Import M_TGL S_TGL P_TGL P_TGL2 P_KTGL5 P_Exist P_Fit P_GLM5 M_FB S_FB P_FB P_FB2 P_FB3 P_FB4 P_FB5 P_FB6.
Import Order.TTheory GRing.Theory Num.Theory.

Set Implicit Arguments.
Unset Strict Implicit.
Unset Printing Implicit Defensive.
Local Open Scope ring_scope.

Lemma ip_add2 (V : lmodType R) (d : innerp V) x y : d (x + y) (x + y) <= 2%:R * d x x + 2%:R * d y y.
Proof.
have := ip_ge0 d (x - y); rewrite nrm2B nrm2D.
by move: (d x x) (d x y) (d y y) => *; mclra.
Qed.
Lemma ip_sub2 (V : lmodType R) (d : innerp V) x y : d (x - y) (x - y) <= 2%:R * d x x + 2%:R * d y y.
Proof. by have := ip_add2 d x (- y); rewrite !ipNl !ipNr opprK. Qed.
Lemma ip_young (V : lmodType R) (d : innerp V) x y (t : R) : 0 < t ->
  d x y <= t / 2%:R * d x x + (2%:R * t)^-1 * d y y.
Proof.
move=> t0; have := ip_ge0 d (t *: x - y); rewrite nrm2B !ipZl !ipZr.
move: (d x x) (d x y) (d y y) => a b c h.
have t2 : 0 < 2%:R * t by rewrite mulr_gt0 //; mclra.
rewrite -(ler_pmul2l t2) mulrDr !mulrA divff ?gt_eqF // mul1r.
by move: h; clear t2; move=> h; mclra.
Qed.

Section Conv.
Variables (n m : nat) (tv : 'rV[R]_m.+2 -> R -> 'rV[R]_m.+2) (is_pos_def : 'M[R]_n -> bool).
Variables (pinvh : 'M[R]_n -> 'M[R]_n).
Variables (S : stack n m.+2) (ns : 'I_m.+2 -> R) (p : fb_params).
Hypothesis Htv : tv_ok tv.
Hypothesis Hp : pinvh_ok pinvh.
Hypothesis sS : slices (@sym n) S.
Hypothesis ns0 : forall t, 0 < ns t.
Hypothesis a0 : 0 <= fb_alpha p.
Hypothesis b0 : 0 <= fb_beta p.
Hypothesis v0 : 0 < fb_vareps p.
Hypothesis l0 : 0 < fb_lamda p.
Hypothesis ll1 : fb_lamda p <= 1.
Hypothesis d0 : 0 < fb_delta p.
Hypothesis d1 : fb_delta p < 1.
Local Notation lap := (fb_laplacian p).
Local Notation prob := (fb_problem lap ns S (fb_alpha p) (fb_beta p) (fb_vareps p)).
Local Notation G := (fb_grad pinvh S ns p).
Local Notation sipn := (sip n m.+2).
Local Notation gr := (greal lap (fb_alpha p) (fb_beta p)).
Local Notation y := (fb_y tv pinvh S ns p).
Local Notation ok := (acc tv pinvh S ns p (fb_lamda p) (fb_delta p)).
Local Notation body := (fb_body tv (@l1 1 m.+1) is_pos_def pinvh S ns p).
Local Notation next j s := (out_state (body j s).1).
Variable (s0 : fb_state n m.+1).
Local Notation st := (iter_state body 0 s0).
Local Notation goods := (goods tv is_pos_def pinvh S ns p s0).
Local Notation searches := (searches tv is_pos_def pinvh S ns p s0).
Local Notation all_pd := (all_pd tv is_pos_def pinvh S ns p s0).
Local Notation used := (used tv is_pos_def pinvh S ns p).
Local Notation Dk := (Dk tv is_pos_def pinvh S ns p s0).
Let ns0' t : 0 <= ns t := ltW (ns0 t).
Let v0' : 0 <= fb_vareps p := ltW v0.

(** the iterates approach every other point's value *)
Lemma converges (Z : stack n m.+2) (e gmin : R) : slices (@pd n) Z -> 0 < e -> 0 < gmin ->
  exists N, forall k, (N <= k)%N -> goods k -> all_pd k -> (forall j, (j < k)%N -> gmin <= used j (st j)) -> prob (fb_K (st k)) <= prob Z + e.
Proof.
move=> pZ ep gp.
pose M := prob (fb_K s0); pose B : R := `|(M + lQ S ns p) * (4%:R / fb_vareps p)|.
have B0 : 0 <= B by rewrite normr_ge0.
pose W : R := 2%:R * (2%:R * B + 2%:R * sipn Z Z) + 2%:R * (4%:R * B / fb_lamda p ^+ 2).
have lp2 : 0 < fb_lamda p ^+ 2 by rewrite exprn_gt0.
have W0 : 0 <= W.
  apply: addr_ge0; apply: mulr_ge0; rewrite ?ler0n //.
    by apply: addr_ge0; apply: mulr_ge0; rewrite ?ler0n ?ip_ge0.
  by apply: divr_ge0; [apply: mulr_ge0; rewrite ?ler0n|apply: ltW].
pose tau : R := (W + 1) / (gmin * e).
have tau0 : 0 < tau.
  by apply: divr_gt0; [apply: ltr_paddl => //; exact: ltr01|rewrite mulr_gt0].
pose q : R := e / (2%:R + tau).
have q0 : 0 < q by apply: divr_gt0 => //; apply: addr_gt0 => //; mclra.
pose c : R := fb_lamda p * (1 - fb_delta p).
have c0 : 0 < c by rewrite mulr_gt0 // subr_gt0.
have cq : 0 < c * q by rewrite mulr_gt0.
have [N [Np hN]] := archi (M - - lQ S ns p) cq.
exists N => k Nk hs hp hg.
have hsN := goods_le Nk hs.
have hpN : all_pd N by move=> j jN; apply: hp; apply: leq_trans Nk.
have stp j : (0 <= j < 0 + N)%N -> prob (fb_K (st j.+1)) <= prob (fb_K (st j)) - c * Dk j.
  by move=> /andP [_ jN]; apply: (prob_step Htv sS ns0' a0 b0 l0 ll1 d0 jN hsN hpN).
have lowN : - lQ S ns p <= prob (fb_K (st (0 + N))).
  by apply: prob_bounded_below => //; apply: hpN.
have [j /andP [_ jN] hD] := pigeon (F := fun j => prob (fb_K (st j))) c0 stp (lexx _) lowN Np.
rewrite add0n in jN.
have Dq : Dk j <= q.
  have cN : 0 < c * N%:R by apply: mulr_gt0 => //; rewrite ltr0n.
  by apply: le_trans hD _; rewrite ler_pdivr_mulr // mulrCA mulrA.
have hm : prob (fb_K (st k)) <= prob (fb_K (st j)).
  by apply: (prob_mono Htv sS ns0' a0 b0 l0 ll1 d0 d1 _ hs hp); rewrite leqnn andbT ltnW // (leq_trans jN).
apply: le_trans hm _.
have [u0 hd] := Dk_ge0 Htv a0 b0 jN hsN.
have := gap_bound Htv Hp sS ns0' a0 b0 v0' u0 (hpN j (ltnW jN)) pZ.
rewrite -/(Dk j).
have inB i : (i <= N)%N -> sipn (fb_K (st i)) (fb_K (st i)) <= B.
  move=> iN; apply: le_trans (ler_norm _); apply: level_bound => //; first exact: hpN.
  by apply: (prob_mono Htv sS ns0' a0 b0 l0 ll1 d0 d1 (i := 0%N) (j := i) _ hsN hpN); rewrite leq0n iN.
have [_ _ eK] := hsN j jN.
have hX := inB j (ltnW jN); have hX' := inB j.+1 jN.
rewrite -[next j (st j)]/(st j.+1) in eK.
have hgj := hg j (leq_trans jN Nk).
move: u0 hd hgj eK hX hX' Dq; move: (fb_K (st j)) (fb_K (st j.+1)) (used j (st j)) (Dk j) => X X' u D.
move: (y u X) => Y u0 hd hgj eK hX hX' Dq.
set d := Y - X in hd eK.
have hdd : sipn d d <= 4%:R * B / fb_lamda p ^+ 2.
  rewrite ler_pdivl_mulr // mulrC.
  have -> : fb_lamda p ^+ 2 * sipn d d = sipn (X' - X) (X' - X).
    by rewrite eK addrAC subrr add0r ipZl ipZr expr2 mulrA.
  apply: le_trans (ip_sub2 _ _ _) _; move: hX hX'; move: (sipn X X) (sipn X' X') (B) => *; mclra.
have hW : sipn (Y - Z) (Y - Z) <= W.
  have -> : Y - Z = (X - Z) + d by rewrite /d; lin.
  apply: le_trans (ip_add2 _ _ _) _; apply: ler_add; apply: ler_wpmul2l; rewrite ?ler0n //.
  apply: le_trans (ip_sub2 _ _ _) _; rewrite ler_add2r; apply: ler_wpmul2l => //; exact: ler0n.
have yg := ip_young sipn (X - Y) (Y - Z) tau0.
have ed : sipn (X - Y) (X - Y) = sipn d d.
  by have -> : X - Y = - d; [rewrite /d opprB|rewrite ipNl ipNr opprK].
rewrite ed in yg.
move=> hgap; rewrite -ler_subl_addl; apply: le_trans hgap _.
have ui : u^-1 <= gmin^-1 by rewrite lef_pinv.
have u1 : 0 <= u^-1 by rewrite invr_ge0 ltW.
have t2 : 0 <= (2%:R * tau)^-1 by rewrite invr_ge0 mulr_ge0 ?ler0n // ltW.
have s1 : u^-1 * sipn (X - Y) (Y - Z) <= tau / 2%:R * D + gmin^-1 * ((2%:R * tau)^-1 * W).
  apply: le_trans (ler_wpmul2l u1 yg) _; rewrite mulrDr; apply: ler_add.
    by rewrite mulrCA; apply: ler_wpmul2l => //; apply: divr_ge0; rewrite ?ler0n // ltW.
  apply: ler_pmul => //; first by rewrite mulr_ge0 // ip_ge0.
  by apply: ler_wpmul2l.
have s2 : gmin^-1 * ((2%:R * tau)^-1 * W) <= e / 2%:R.
  have W1 : 0 < W + 1 by apply: ltr_paddl => //; exact: ltr01.
  have -> : gmin^-1 * ((2%:R * tau)^-1 * W) = e / 2%:R * (W / (W + 1)).
    rewrite /tau; have := gt_eqF gp; have := gt_eqF W1; have := gt_eqF ep.
    by move: (W) => w /eqP h1 /eqP h2 /eqP h3; mcfield.
  rewrite ger_pmulr ?divr_gt0 ?ltr0n // ler_pdivr_mulr // mul1r ler_addl; exact: ler01.
have s3 : D + tau / 2%:R * D <= e / 2%:R.
  have -> : D + tau / 2%:R * D = (2%:R + tau) / 2%:R * D by move: (tau) => x; mcfield.
  rewrite mulrAC; apply: ler_wpmul2r; first by rewrite invr_ge0 ler0n.
  by rewrite mulrC -ler_pdivl_mulr //; apply: addr_gt0 => //; rewrite ltr0n.
move: s1 s2 s3; move: (tau / _ * _) (u^-1 * _) (gmin^-1 * _) => a b f s1 s2 s3; clear -s1 s2 s3.
by mclra.
Qed.

Lemma snorm_ge0 T (X : stack n T) : 0 <= stack_norm X.
Proof. by apply/RleP; apply: sqrt_pos. Qed.
Lemma body_break j s : 0 <= fb_tol p -> fb_stop_at p = None -> fb_debug p = false -> (0 < j)%N -> 0 < used j s ->
  stack_norm (fb_K (next j s) - fb_K s) / used j s <= fb_tol p * (10%:R ^+ 6)^-1 -> is_break (body j s).1.
Proof.
move=> t0 hst hdb j0; have := body_next tv is_pos_def pinvh S ns p j s; rewrite /P_FB6.used.
case E : (fb_step _ _ _ _ _ _ _ _) => [g z] [-> ->] u0 h.
rewrite /fb_body E hst hdb j0; case: ifP => //; rewrite andbT => /negbT; rewrite negb_or => /andP [_ /negP []].
rewrite -/(fb_lam p).
have q0 : 0 < (10%:R ^+ 6)^-1 :> R by rewrite invr_gt0 exprn_gt0 // ltr0n.
have nrm0 X Y : 0 <= np_max (@stack_norm n m.+2 X) (@stack_norm n m.+2 Y).
  by rewrite /np_max; case: ifP => _; apply: snorm_ge0.
move: h q0; move: (10%:R ^+ 6)^-1 => q h q0.
rewrite ler_pdivr_mulr; last by apply: ltr_paddl.
apply: le_trans h _; apply: ler_wpmul2l => //; by rewrite ler_addr.
Qed.
Lemma stops (gmin : R) : 0 < gmin -> 0 < fb_tol p -> fb_stop_at p = None -> fb_debug p = false ->
  exists N, forall k, (N <= k)%N -> goods k -> all_pd k -> (forall j, (j < k)%N -> gmin <= used j (st j)) -> exists2 j, (j < N)%N & is_break (body j (st j)).1.
Proof.
move=> gp t0 hst hdb.
pose M := prob (fb_K s0).
pose w : R := fb_tol p * (10%:R ^+ 6)^-1.
have w0 : 0 < w by apply: mulr_gt0 => //; rewrite invr_gt0 exprn_gt0 // ltr0n.
pose q : R := gmin * w ^+ 2.
have q0 : 0 < q by rewrite mulr_gt0 // exprn_gt0.
pose c : R := fb_lamda p * (1 - fb_delta p).
have c0 : 0 < c by rewrite mulr_gt0 // subr_gt0.
have cq : 0 < c * q by rewrite mulr_gt0.
have [N [Np hN]] := archi (M - - lQ S ns p) cq.
exists N.+1 => k Nk hs hp hg.
have hsN := goods_le Nk hs.
have hpN : all_pd N.+1 by move=> j jN; apply: hp; apply: leq_trans Nk.
have stp j : (1 <= j < 1 + N)%N -> prob (fb_K (st j.+1)) <= prob (fb_K (st j)) - c * Dk j.
  by move=> /andP [_ jN]; apply: (prob_step Htv sS ns0' a0 b0 l0 ll1 d0 jN hsN hpN).
have lowN : - lQ S ns p <= prob (fb_K (st (1 + N))).
  by apply: prob_bounded_below => //; apply: hpN.
have up1 : prob (fb_K (st 1)) <= M.
  by apply: (prob_mono Htv sS ns0' a0 b0 l0 ll1 d0 d1 (i := 0%N) (j := 1%N) _ hsN hpN).
have [j /andP [j0 jN] hD] := pigeon (F := fun j => prob (fb_K (st j))) c0 stp up1 lowN Np.
have Dq : Dk j <= q.
  have cN : 0 < c * N%:R by apply: mulr_gt0 => //; rewrite ltr0n.
  by apply: le_trans hD _; rewrite ler_pdivr_mulr // mulrCA mulrA.
exists j => //.
have [u0 hd] := Dk_ge0 Htv a0 b0 jN hsN.
have [_ _ eK] := hsN j jN.
apply: body_break => //; first exact: ltW.
have hgj := hg j (leq_trans jN Nk).
rewrite eK -/w addrAC subrr add0r.
move: hd Dq hgj u0; move: (fb_K (st j)) (used j (st j)) (Dk j) => X u D.
move: (y u X - X) => d hd Dq hgj u0.
have u1 : 0 < u^-1 by rewrite invr_gt0.
have n0 : 0 <= stack_norm (fb_lamda p *: d) / u by rewrite mulr_ge0 ?snorm_ge0 ?ltW.
rewrite -ler_sqr ?nnegrE ?(ltW w0) //.
rewrite exprMn stack_normE nrm_sqr ipZl ipZr.
apply: (@le_trans _ _ (u^-1 * (u^-1 * sipn d d))).
  rewrite mulrC expr2 -!mulrA; apply: ler_wpmul2l; first exact: ltW.
  apply: ler_wpmul2l; first exact: ltW.
  rewrite mulrA -[X in _ <= X]mul1r; apply: ler_wpmul2r; first exact: ip_ge0.
  by apply: mulr_ile1 => //; apply: ltW.
apply: (@le_trans _ _ (gmin^-1 * q)).
  apply: ler_pmul; [exact: ltW| |by rewrite lef_pinv|exact: le_trans hd Dq].
  by rewrite mulr_ge0 ?(ltW u1) // ip_ge0.
by rewrite /q mulrA mulVf ?mul1r // gt_eqF.
Qed.
(** * choose = "gamma" *)
Hypothesis hch : fb_choose p = "gamma"%string.
Hypothesis e0 : 0 < fb_eps p.
Hypothesis e1 : fb_eps p < 1.
Hypothesis g0 : 0 < fb_gam s0.
Lemma gam_min : exists2 gmin : R, 0 < gmin & forall k, searches k -> all_pd k ->
  forall j, (j < k)%N -> gmin <= used j (st j).
Proof.
pose M := prob (fb_K s0).
have [c c0 hc] := level_floor sS ns0 a0 b0 v0 M.
have [A A0 hA] := level_grad Hp sS ns0 a0 b0 v0 M.
pose B : R := `|2%:R * (M + lQ S ns p) + A|.
have B0 : 0 <= B by rewrite normr_ge0.
have [g1 g1p acc1] := accept_unif Htv Hp sS ns0' a0 b0 v0' (ltW l0) d0 c0 B0.
pose gmin := np_min (fb_gam s0) (fb_eps p * g1).
have hmin : gmin <= fb_gam s0 /\ gmin <= fb_eps p * g1.
  rewrite /gmin /np_min; case: ltrP => h; split=> //; exact: ltW.
have gminp : 0 < gmin by rewrite /gmin /np_min; case: ifP => // _; rewrite mulr_gt0.
exists gmin => // k hs hp.
have from_start j : (j < k)%N -> gmin <= fb_start p j (st j) -> gmin <= used j (st j).
  move=> jk hstart; have gj := gam_pos l0 ll1 hch e0 g0 (searches_le (ltnW jk) hs).
  have [[|i] [_ -> _ hno]] := next_ok is_pos_def l0 ll1 hch e0 gj (hs j jk).
    by rewrite expr0 mulr1.
  have pj := hp j (ltnW jk).
  have hj : prob (fb_K (st j)) <= M.
    by apply: (prob_mono Htv sS ns0' a0 b0 l0 ll1 d0 d1 (i := 0%N) (j := j) _ (searches_goods l0 ll1 hch e0 g0 hs) hp); rewrite leq0n ltnW.
  have lt1 : g1 < fb_start p j (st j) * fb_eps p ^+ i.
    rewrite ltNge; apply/negP => hle; have /negP := hno i (ltnSn i); apply.
    have st0 : 0 < fb_start p j (st j).
      by rewrite /fb_start; case: ifP => // _; rewrite divr_gt0.
    apply: (acc1 _ _ (hc _ pj hj) _ _ hle).2; last by rewrite mulr_gt0 ?exprn_gt0.
    rewrite /bnd /B; apply: le_trans (ler_norm _); apply: ler_add; last exact: hA.
    by apply: ler_wpmul2l; [rewrite ler0n|apply: level_gr].
  apply: le_trans hmin.2 _; rewrite exprSr mulrA (mulrC (fb_eps p)); apply: ler_wpmul2r; exact: ltW.
elim=> [|j IH] jk; apply: from_start => //; first exact: hmin.1.
have gp := gam_pos l0 ll1 hch e0 g0 (searches_le (ltnW jk) hs).
rewrite [fb_start _ _ _]/(fb_gam (st j.+1) / fb_eps p) ler_pdivl_mulr //.
apply: (@le_trans _ _ gmin); last exact: (IH (ltnW jk)).
by rewrite ger_pmulr // ltW.
Qed.


Lemma gamma_converges (Z : stack n m.+2) (e : R) : slices (@pd n) Z -> 0 < e ->
  exists N, forall k, (N <= k)%N -> searches k -> all_pd k -> prob (fb_K (st k)) <= prob Z + e.
Proof.
move=> pZ ep; have [gmin gp hg] := gam_min; have [N hN] := converges pZ ep gp; exists N => k Nk hs hp.
by apply: hN => //; [apply: searches_goods|apply: hg].
Qed.
Lemma gamma_stops : 0 < fb_tol p -> fb_stop_at p = None -> fb_debug p = false ->
  exists N, forall k, (N <= k)%N -> searches k -> all_pd k -> exists2 j, (j < N)%N & is_break (body j (st j)).1.
Proof.
move=> t0 h1 h2; have [gmin gp hg] := gam_min; have [N hN] := stops gp t0 h1 h2; exists N => k Nk hs hp.
by apply: (hN k) => //; [apply: searches_goods|apply: hg].
Qed.
End Conv.

Section Fixed.
Variables (n m : nat) (tv : 'rV[R]_m.+2 -> R -> 'rV[R]_m.+2) (is_pos_def : 'M[R]_n -> bool).
Variables (pinvh : 'M[R]_n -> 'M[R]_n).
Variables (S : stack n m.+2) (ns : 'I_m.+2 -> R) (p : fb_params).
Hypothesis Htv : tv_ok tv.
Hypothesis Hp : pinvh_ok pinvh.
Hypothesis sS : slices (@sym n) S.
Hypothesis ns0 : forall t, 0 < ns t.
Hypothesis a0 : 0 <= fb_alpha p.
Hypothesis b0 : 0 <= fb_beta p.
Hypothesis v0 : 0 < fb_vareps p.
Hypothesis l0 : 0 < fb_lamda p.
Hypothesis ll1 : fb_lamda p <= 1.
Hypothesis d0 : 0 < fb_delta p.
Hypothesis d1 : fb_delta p < 1.
Local Notation lap := (fb_laplacian p).
Local Notation prob := (fb_problem lap ns S (fb_alpha p) (fb_beta p) (fb_vareps p)).
Local Notation G := (fb_grad pinvh S ns p).
Local Notation sipn := (sip n m.+2).
Local Notation gr := (greal lap (fb_alpha p) (fb_beta p)).
Local Notation y := (fb_y tv pinvh S ns p).
Local Notation ok := (acc tv pinvh S ns p (fb_lamda p) (fb_delta p)).
Local Notation body := (fb_body tv (@l1 1 m.+1) is_pos_def pinvh S ns p).
Local Notation next j s := (out_state (body j s).1).
Local Notation used := (used tv is_pos_def pinvh S ns p).
Let ns0' t : 0 <= ns t := ltW (ns0 t).
Let v0' : 0 <= fb_vareps p := ltW v0.
(** * choose = "fixed", with a small step length *)
Lemma fixed_step j s : fb_choose p = "fixed"%string -> used j s = fb_gam s /\
  fb_K (next j s) = fb_K s + fb_lamda p *: (y (fb_gam s) (fb_K s) - fb_K s).
Proof.
move=> hc; have := body_next tv is_pos_def pinvh S ns p j s; rewrite /fb_step hc /= => -[-> ?].
by rewrite /P_FB6.used fb_lamE // ltW.
Qed.
Lemma fixed_gam s0 k : fb_choose p = "fixed"%string -> fb_gam (iter_state body 0 s0 k) = fb_gam s0.
Proof. by move=> hc; elim: k => //= k <-; rewrite add0n; apply: (fixed_step k _ hc).1. Qed.
Lemma fixed_good (M : R) : fb_choose p = "fixed"%string ->
  exists2 g1 : R, 0 < g1 & forall s0, slices (@pd n) (fb_K s0) -> prob (fb_K s0) <= M ->
    0 < fb_gam s0 -> fb_gam s0 <= g1 -> forall k, goods tv is_pos_def pinvh S ns p s0 k /\ all_pd tv is_pos_def pinvh S ns p s0 k.
Proof.
move=> hc.
have [c c0 hf] := level_floor sS ns0 a0 b0 v0 M.
have [A A0 hA] := level_grad Hp sS ns0 a0 b0 v0 M.
pose B : R := `|2%:R * (M + lQ S ns p) + A|.
have B0 : 0 <= B by rewrite normr_ge0.
have [g1 g1p acc1] := accept_unif Htv Hp sS ns0' a0 b0 v0' (ltW l0) d0 c0 B0.
exists g1 => // s0 pK hM gp gle; elim=> [|k [hg hp]].
  by split=> // j; rewrite leqn0 => /eqP ->.
have pk := hp k (leqnn k).
have hk : prob (fb_K (iter_state body 0 s0 k)) <= M.
  apply: le_trans hM; apply: (prob_mono Htv sS ns0' a0 b0 l0 ll1 d0 d1 (i := 0%N) (j := k) _ hg hp).
  by rewrite leq0n leqnn.
have [eu eK] := fixed_step k (iter_state body 0 s0 k) hc; rewrite (fixed_gam s0 k hc) in eu eK.
have [pk1 hacc] : slices (@pd n) (fb_K (iter_state body 0 s0 k.+1)) /\ ok (fb_K (iter_state body 0 s0 k)) (fb_gam s0).
  rewrite [iter_state body 0 s0 k.+1]/(next k (iter_state body 0 s0 k)) eK; apply: acc1 => //; first exact: hf.
  rewrite /bnd /B; apply: le_trans (ler_norm _); apply: ler_add; last exact: hA.
  by apply: ler_wpmul2l; [rewrite ler0n|apply: level_gr].
split=> j; [rewrite ltnS|]; rewrite leq_eqVlt => /orP [/eqP ->|].
- by split; rewrite eu.
- exact: hg.
- exact: pk1.
- by rewrite ltnS; apply: hp.
Qed.

End Fixed.
