(** Proofs about the forward-backward model: runs of the solver. *)
From Coq Require Import Reals Lra Psatz String.
From mathcomp Require Import all_ssreflect all_algebra.
From Verif Require Import RStruct RTac LinTac Spectral S_Mat RMx ADMM NP Str M_Prox S_Prox P_Eigh.
From Verif Require Import P_Prox P_Prox2 P_Prox3 M_Loop P_Loop M_GL S_GL P_GL P_GL2 M_LGL P_LGL S_Fit.
From Verif Require Import M_TGL S_TGL P_TGL P_TGL2 P_KTGL5 P_Exist P_Fit P_GLM5 M_FB S_FB P_FB P_FB2 P_FB3 P_FB4 P_FB5.
Import Order.TTheory GRing.Theory Num.Theory.

Set Implicit Arguments.
Unset Strict Implicit.
Unset Printing Implicit Defensive.
Local Open Scope ring_scope.

(** a decreasing, bounded sequence makes small steps *)
Lemma pigeon (F D : nat -> R) (c M L : R) k N : 0 < c ->
  (forall j, (k <= j < k + N)%N -> F j.+1 <= F j - c * D j) -> F k <= M -> L <= F (k + N)%N -> (0 < N)%N ->
  exists2 j, (k <= j < k + N)%N & D j <= (M - L) / (c * N%:R).
Proof.
move=> c0 step hM hL N0; set q := (M - L) / _.
have cN : 0 < c * N%:R by rewrite mulr_gt0 // ltr0n.
have key i : (i <= N)%N -> (exists2 j, (k <= j < k + N)%N & D j <= q) \/ (F (k + i)%N <= M - i%:R * (c * q) /\
     ((0 < i)%N -> F (k + i)%N < M - i%:R * (c * q))).
  elim: i => [|i IH] iN; first by right; rewrite addn0 mul0r subr0; split.
  case: (IH (ltnW iN)) => [|[h _]]; first by left.
  have rng : (k <= k + i < k + N)%N by rewrite leq_addr ltn_add2l.
  case: (lerP (D (k + i)%N) q) => hd; first by left; exists (k + i)%N.
  right; have := step _ rng; rewrite addnS.
  have -> : i.+1%:R = i%:R + 1 :> R by rewrite -addn1 natrD.
  have := hd; rewrite -(ltr_pmul2l c0); move: h; move: (F _) (F _) (c * D _) (c * q) (i%:R : R) => *; split=> *; mclra.
case: (key N (leqnn N)) => // -[_ /(_ N0)].
have -> : N%:R * (c * q) = M - L.
  by rewrite mulrA (mulrC N%:R) /q; rewrite [LHS]mulrC; apply: divfK; rewrite gt_eqF.
by move=> /(le_lt_trans hL); rewrite opprB addrCA subrr addr0 ltxx.
Qed.

Section Run.
Variables (n m : nat) (tv : 'rV[R]_m.+2 -> R -> 'rV[R]_m.+2) (is_pos_def : 'M[R]_n -> bool).
Variables (pinvh : 'M[R]_n -> 'M[R]_n).
Variables (S : stack n m.+2) (ns : 'I_m.+2 -> R) (p : fb_params).
Hypothesis Htv : tv_ok tv.
Hypothesis Hp : pinvh_ok pinvh.
Hypothesis sS : slices (@sym n) S.
Hypothesis ns0 : forall t, 0 <= ns t.
Hypothesis a0 : 0 <= fb_alpha p.
Hypothesis b0 : 0 <= fb_beta p.
Hypothesis v0 : 0 <= fb_vareps p.
Local Notation lap := (fb_laplacian p).
Local Notation smooth := (fb_smooth lap ns S (fb_beta p) (fb_vareps p)).
Local Notation prob := (fb_problem lap ns S (fb_alpha p) (fb_beta p) (fb_vareps p)).
Local Notation G := (fb_grad pinvh S ns p).
Local Notation sipn := (sip n m.+2).
Local Notation gr := (greal lap (fb_alpha p) (fb_beta p)).
Local Notation y := (fb_y tv pinvh S ns p).
Local Notation ok := (acc tv pinvh S ns p (fb_lamda p) (fb_delta p)).
Local Notation step := (fb_step tv is_pos_def pinvh S ns p).
Local Notation body := (fb_body tv (@l1 1 m.+1) is_pos_def pinvh S ns p).
Local Notation next j s := (out_state (body j s).1).
Implicit Types X Z K : stack n m.+2.

Definition fb_start (j : nat) (s : fb_state n m.+1) : R :=
  if (0 < j)%N then fb_gam s / fb_eps p else fb_gam s.
Definition fb_lam : R := np_min (np_max (fb_lamda p) 0) 1.
Lemma fb_lamE : 0 <= fb_lamda p -> fb_lamda p <= 1 -> fb_lam = fb_lamda p.
Proof.
rewrite /fb_lam /np_min /np_max; move: (fb_lamda p) => l h1 h2.
have -> : (l < 0) = false by apply: le_gtF.
by have -> : (1 < l) = false by apply: le_gtF.
Qed.

Lemma body_next j s : let: (g, z) := step j s in
  fb_K (next j s) = fb_K s + fb_lam *: (z - fb_K s) /\ fb_gam (next j s) = g.
Proof.
rewrite /fb_body; case: (fb_step _ _ _ _ _ _ _ _) => g z; rewrite -/fb_lam.
by case: (fb_stop_at p) => [x|]; case: ifP.
Qed.

Definition Delta (g : R) X : R := gr X - gr (y g X) - sipn (G X) (y g X - X).
Lemma Delta_ge (g : R) X : 0 < g -> g^-1 * sipn (y g X - X) (y g X - X) <= Delta g X.
Proof.
move=> g0; have := @y_self n m tv pinvh S ns p Htv a0 b0 g X g0; rewrite /Delta.
by move: (gr _) (gr _) (sipn _ _) (_ * sipn _ _) => *; mclra.
Qed.
Lemma descent_Delta (g a : R) X : 0 <= fb_lamda p -> fb_lamda p <= 1 -> 0 <= fb_delta p -> 0 < g ->
  fb_f S (Some ns) p X = Fin a -> ok X g ->
  exists2 b : R, fb_f S (Some ns) p (X + fb_lamda p *: (y g X - X)) = Fin b &
   b + gr (X + fb_lamda p *: (y g X - X)) <= a + gr X - fb_lamda p * (1 - fb_delta p) * Delta g X.
Proof.
move=> l0 l1 d0 g0 ea; rewrite /acc /gamma_test ea.
have := @fb_f_not_ninf n m S ns p ns0 (X + fb_lamda p *: (y g X - X)).
case: (fb_f S (Some ns) p (X + _)) => // b _ h; exists b => //; rewrite /= in h.
have := gr_convex a0 b0 X (y g X) l0 l1; have := Delta_ge X g0; rewrite /Delta.
move: h; rewrite !scalarE (ipC _ _ (G X)); set d := y g X - X.
move: (sipn d d) (sipn (G X) d) (gr _) (gr _) (gr _) => dd gd g1 g2 g3.
move: (fb_lamda p) (fb_delta p) l0 d0 => l de l0 d0 h1 h2 h3.
have h4 : de * g^-1 * dd <= de * (g3 - g2 - gd) by rewrite -mulrA; apply: ler_wpmul2l.
have h5 := ler_wpmul2l l0 h4; clear h2 h4.
move: h1 h5; move: (de * g^-1 * dd) => x h1 h5.
by mclra.
Qed.
(** how far from any other point *)
Lemma gap_bound (g : R) X Z : 0 < g -> slices (@pd n) X -> slices (@pd n) Z ->
  prob X - prob Z <= Delta g X + g^-1 * sipn (X - y g X) (y g X - Z).
Proof.
move=> g0 pX pZ; have := @y_sub n m tv pinvh S ns p Htv a0 b0 g X Z g0; have := smooth_lower Hp sS ns0 v0 b0 pX pZ; rewrite /Delta !probE.
have -> : sipn (X - y g X) (y g X - Z) = - sipn (y g X - X) (y g X - Z) by rewrite -ipNl opprB.
have num (sX sZ gX gZ gy GX GZ Gy x : R) : sX + (GZ - GX) <= sZ -> gy + (Gy - GZ) + x <= gZ ->
  sX + gX - (sZ + gZ) <= gX - gy - (Gy - GX) - x by move=> *; mclra.
by rewrite mulrN !(ipBr _ (G X)); apply: num.
Qed.

(** * a whole run *)
Hypothesis l0 : 0 < fb_lamda p.
Hypothesis ll1 : fb_lamda p <= 1.
Hypothesis d0 : 0 < fb_delta p.
Hypothesis d1 : fb_delta p < 1.
Definition used (j : nat) (s : fb_state n m.+1) : R := fb_gam (next j s).
(** the iteration makes a proximal step of an admissible length *)
Definition good j s : Prop := [/\ 0 < used j s, ok (fb_K s) (used j s) &
  fb_K (next j s) = fb_K s + fb_lamda p *: (y (used j s) (fb_K s) - fb_K s)].
Lemma next_obj j s (a : R) : good j s -> fb_obj (@l1 1 m.+1) S (Some ns) p (fb_K s) = Fin a ->
  exists2 b : R, fb_obj (@l1 1 m.+1) S (Some ns) p (fb_K (next j s)) = Fin b &
   b <= a - fb_lamda p * (1 - fb_delta p) * Delta (used j s) (fb_K s).
Proof.
move=> [u0 hacc eK].
rewrite !fb_objE eK; case ea : (fb_f _ _ _ (fb_K s)) => [a'| | |] //= -[<-].
have [b eb hb] := descent_Delta (ltW l0) ll1 (ltW d0) u0 ea hacc.
by rewrite eb /=; eexists; first reflexivity.
Qed.

Variable (s0 : fb_state n m.+1).
Local Notation st := (iter_state body 0 s0).
(** the first k iterations do *)
Definition goods k : Prop := forall j, (j < k)%N -> good j (st j).
Definition all_pd k : Prop := forall j, (j <= k)%N -> slices (@pd n) (fb_K (st j)).
Lemma goods_le k j : (j <= k)%N -> goods k -> goods j.
Proof. by move=> jk h i ij; apply: h; apply: leq_trans jk. Qed.
Lemma obj_mono k (a : R) : goods k -> fb_obj (@l1 1 m.+1) S (Some ns) p (fb_K s0) = Fin a ->
  exists2 b : R, fb_obj (@l1 1 m.+1) S (Some ns) p (fb_K (st k)) = Fin b & b <= a.
Proof.
elim: k => [|k IH] hs ea; first by exists a.
have hk : goods k by apply: goods_le hs.
have [b eb hb] := IH hk ea.
have [c ec hc] := next_obj (hs k (ltnSn k)) eb; exists c => //.
apply: le_trans hb; apply: le_trans hc _; rewrite ler_subl_addr ler_addl.
apply: mulr_ge0; first by rewrite mulr_ge0 ?(ltW l0) // subr_ge0 ltW.
have [u0 _ _] := hs k (ltnSn k).
apply: le_trans (Delta_ge _ u0); rewrite mulr_ge0 ?ip_ge0 // invr_ge0 ltW //.
Qed.
Lemma obj_prob X : slices (@pd n) X -> fb_obj (@l1 1 m.+1) S (Some ns) p X = Fin (prob X).
Proof. by move=> pX; rewrite fb_objE fb_fE //= probE. Qed.
Definition Dk j : R := Delta (used j (st j)) (fb_K (st j)).
Lemma Dk_ge0 k j : (j < k)%N -> goods k -> 0 < used j (st j) /\
  (used j (st j))^-1 * sipn (y (used j (st j)) (fb_K (st j)) - fb_K (st j)) (y (used j (st j)) (fb_K (st j)) - fb_K (st j)) <= Dk j.
Proof. by move=> jk hs; have [u0 _ _] := hs j jk; split=> //; apply: Delta_ge. Qed.
Lemma prob_step k j : (j < k)%N -> goods k -> all_pd k ->
  prob (fb_K (st j.+1)) <= prob (fb_K (st j)) - fb_lamda p * (1 - fb_delta p) * Dk j.
Proof.
move=> jk hs hp; have := next_obj (hs j jk) (obj_prob (hp j (ltnW jk))).
by rewrite -[next j _]/(st j.+1) (obj_prob (hp j.+1 jk)) => -[b [<-]].
Qed.
Lemma prob_mono k j i : (i <= j <= k)%N -> goods k -> all_pd k -> prob (fb_K (st j)) <= prob (fb_K (st i)).
Proof.
move=> /andP [ij jk] hs hp; elim: j ij jk => [|j IH]; first by rewrite leqn0 => /eqP ->.
rewrite leq_eqVlt => /orP [/eqP -> //|ij] jk.
apply: le_trans (IH ij (ltnW jk)); apply: le_trans (prob_step jk hs hp) _.
rewrite ler_subl_addr ler_addl; apply: mulr_ge0; first by rewrite mulr_ge0 ?(ltW l0) // subr_ge0 ltW.
have [u0 h] := Dk_ge0 jk hs.
apply: le_trans h; rewrite mulr_ge0 ?ip_ge0 // invr_ge0 ltW //.
Qed.

(** * choose = "gamma" *)
Hypothesis hch : fb_choose p = "gamma"%string.
Definition search_ok j s : Prop := exists2 i, (i < 200)%N & ok (fb_K s) (fb_start j s * fb_eps p ^+ i).
Lemma step_ok j s : search_ok j s -> exists i, [/\ (i < 200)%N,
  step j s = (fb_start j s * fb_eps p ^+ i, y (fb_start j s * fb_eps p ^+ i) (fb_K s)),
  ok (fb_K s) (fb_start j s * fb_eps p ^+ i) &
  forall i', (i' < i)%N -> ~~ ok (fb_K s) (fb_start j s * fb_eps p ^+ i')].
Proof.
move=> [i0 i0k hi0]; rewrite /fb_step hch eqxx /choose_gamma eqxx.
case E : (choose_gamma_loop _ _ _ _ _ _) => [g z].
case: (cgl_spec E) => [[i [ik eg ez hacc hno]]|[_ _ hno]]; last first.
  by have := hno i0 i0k; rewrite -/(fb_start j s) => /negP []; exact: hi0.
by exists i; rewrite -/(fb_start j s) in eg hno *; subst g; rewrite ez; split.
Qed.
Hypothesis e0 : 0 < fb_eps p.
Hypothesis e1 : fb_eps p < 1.
Lemma next_ok j s : 0 < fb_gam s -> search_ok j s -> exists i, [/\ (i < 200)%N,
  used j s = fb_start j s * fb_eps p ^+ i, good j s &
  (forall i', (i' < i)%N -> ~~ ok (fb_K s) (fb_start j s * fb_eps p ^+ i'))].
Proof.
move=> g0 /step_ok [i [ik es hacc hno]]; exists i.
have := body_next j s; rewrite es -/(used j s) => -[eK eu].
rewrite -/(used j s) in eu; split=> //; split; rewrite eu //; last by rewrite eK fb_lamE // ltW.
rewrite mulr_gt0 ?exprn_gt0 //; rewrite /fb_start; case: ifP => // _; by rewrite divr_gt0.
Qed.
Hypothesis g0 : 0 < fb_gam s0.
(** the first k line searches succeed *)
Definition searches k : Prop := forall j, (j < k)%N -> search_ok j (st j).
Lemma searches_le k j : (j <= k)%N -> searches k -> searches j.
Proof. by move=> jk h i ij; apply: h; apply: leq_trans jk. Qed.
Lemma gam_pos k : searches k -> 0 < fb_gam (st k).
Proof.
elim: k => [|k IH] hs //; have hk : searches k by apply: searches_le hs.
by have [i [_ _ [u0 _ _] _]] := next_ok (IH hk) (hs k (ltnSn k)); exact: u0.
Qed.
Lemma searches_goods k : searches k -> goods k.
Proof.
move=> hs j jk; by have [i [_ _ h _]] := next_ok (gam_pos (searches_le (ltnW jk) hs)) (hs j jk).
Qed.
End Run.
