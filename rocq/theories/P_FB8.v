(** Proofs about the forward-backward model: optima are resting points of the solver; the returned
    precision need not be positive definite. *)
From Coq Require Import Reals Lra Psatz String.
From mathcomp Require Import all_ssreflect all_algebra.
From Verif Require Import RStruct RTac LinTac Spectral S_Mat RMx ADMM NP Str M_Prox S_Prox P_Eigh.
From Verif Require Import P_Prox P_Prox2 P_Prox3 M_Loop P_Loop M_GL S_GL P_GL P_GL2 M_LGL P_LGL S_Fit.
From Verif Require Import M_TGL S_TGL P_TGL P_TGL2 P_KTGL5 P_Exist P_Fit P_GLM5 M_FB S_FB P_FB P_FB2 P_FB3 P_FB4 P_FB5 P_FB6.
Import Order.TTheory GRing.Theory Num.Theory.

Set Implicit Arguments.
Unset Strict Implicit.
Unset Printing Implicit Defensive.
Local Open Scope ring_scope.

(** * started at an optimum, the solver stays there *)
Section Rest.
Variables (n m : nat) (tv : 'rV[R]_m.+2 -> R -> 'rV[R]_m.+2) (is_pos_def : 'M[R]_n -> bool).
Variables (pn : 'rV[R]_m.+1 -> R) (pinvh : 'M[R]_n -> 'M[R]_n).
Variables (S : stack n m.+2) (ns : 'I_m.+2 -> R) (p : fb_params).
Hypothesis Htv : tv_ok tv.
Hypothesis Hp : pinvh_ok pinvh.
Hypothesis sS : slices (@sym n) S.
Hypothesis ns0 : forall t, 0 <= ns t.
Hypothesis a0 : 0 <= fb_alpha p.
Hypothesis b0 : 0 <= fb_beta p.
Hypothesis v0 : 0 <= fb_vareps p.
Local Notation prob := (fb_problem (fb_laplacian p) ns S (fb_alpha p) (fb_beta p) (fb_vareps p)).
Local Notation step := (fb_step tv is_pos_def pinvh S ns p).
Local Notation body := (fb_body tv pn is_pos_def pinvh S ns p).
Local Notation next j s := (out_state (body j s).1).
Local Notation y := (fb_y tv pinvh S ns p).

(** the step of any iteration is the proximal step of some positive step length *)
Lemma step_prox j s : 0 < fb_gam s -> 0 < fb_eps p ->
  exists2 g : R, 0 < g & (step j s).2 = y g (fb_K s) /\ 0 < (step j s).1.
Proof.
move=> g0 e0.
have st0 : 0 < fb_start p j s by rewrite /fb_start; case: ifP => // _; rewrite divr_gt0.
rewrite /fb_step; case: ifP => hch; last by exists (fb_gam s).
rewrite -/(fb_start p j s); case E : (choose_gamma _ _ _ _ _ _ _ _ _ _ _ _ _ _) => [g z].
case: (cgl_spec E) => [[i [ik -> -> _ _]]|[-> -> _]].
  by exists (fb_start p j s * fb_eps p ^+ i); rewrite ?mulr_gt0 ?exprn_gt0.
by exists (fb_start p j s * fb_eps p ^+ 199); rewrite ?mulr_gt0 ?exprn_gt0.
Qed.
Lemma body_next' j s : fb_K (next j s) = fb_K s + fb_lam p *: ((step j s).2 - fb_K s) /\
  fb_gam (next j s) = (step j s).1.
Proof.
rewrite /fb_body; case: (fb_step _ _ _ _ _ _ _ _) => g z; rewrite -/(fb_lam p).
by case: (fb_stop_at p) => [x|]; case: ifP.
Qed.
Lemma opt_stays s k : 0 < fb_gam s -> 0 < fb_eps p ->
  minimiser (fun K : stack n m.+2 => slices (@pd n) K) (fun K => prob K) (fb_K s) ->
  fb_K (iter_state body 0 s k) = fb_K s /\ 0 < fb_gam (iter_state body 0 s k).
Proof.
move=> g0 e0 hm; elim: k => // k [eK gk] /=.
have [-> ->] := body_next' (0 + k) (iter_state body 0 s k).
have [g gp [-> sp]] := step_prox (0 + k) gk e0; split=> //.
by rewrite eK (opt_rest Htv Hp) // subrr scaler0 addr0.
Qed.
Lemma rest_is_opt j s : 0 < fb_gam s -> 0 < fb_eps p -> 0 < fb_lamda p -> slices (@pd n) (fb_K s) ->
  fb_K (next j s) = fb_K s ->
  minimiser (fun K : stack n m.+2 => slices (@pd n) K) (fun K => prob K) (fb_K s).
Proof.
move=> g0 e0 l0 pK; have [-> _] := body_next' j s; have [g gp [-> _]] := step_prox j g0 e0.
move/eqP; rewrite -subr_eq0 addrAC subrr add0r scaler_eq0 => /orP [|].
  have lp : 0 < fb_lam p.
    rewrite /fb_lam /np_min /np_max; case: ifP => _; first exact: ltr01.
    by case: ifP => // h; move: l0; rewrite ltNge ltW.
  by rewrite gt_eqF.
rewrite subr_eq0 => /eqP e; exact: rest_opt e.
Qed.
End Rest.

(** * the iterates of the solver need not be positive definite *)
Lemma tv_const T (tv : 'rV[R]_T -> R -> 'rV[R]_T) (a beta : R) : tv_ok tv -> 0 <= beta ->
  tv (const_mx a) beta = const_mx a.
Proof.
move=> Htv b0; have [_ h] := Htv (const_mx a) beta b0.
have := h (const_mx a) I; rewrite subrr.
have -> : tvar (const_mx a : 'rV[R]_T) = 0.
  by rewrite /tvar big1 // => s _; rewrite big1 // => t _; rewrite !mxE subrr normr0.
rewrite mulr0 add0r [fnorm2 0]fnorm2E fdot0l mul0r => h1.
have t0 : 0 <= beta * tvar (tv (const_mx a) beta).
  by apply: mulr_ge0 => //; apply: sumr_ge0 => s _; apply: sumr_ge0.
have f0 : fnorm2 (tv (const_mx a) beta - const_mx a) = 0.
  apply/le_anti; rewrite fnorm2_ge0 andbT; move: h1 t0; move: (fnorm2 _) (_ * tvar _) => *; mclra.
by apply/eqP; rewrite -subr_eq0; apply/eqP; apply: fdotAA_eq0; rewrite -fnorm2E.
Qed.
Lemma soft1_0 (l : R) : soft1 0 l = 0.
Proof. by rewrite /soft1 /np_sign eqxx mul0r. Qed.
Lemma prox_const n T (tv : 'rV[R]_T -> R -> 'rV[R]_T) lap (beta alpha gamma a : R) : tv_ok tv ->
  0 <= beta -> 0 <= gamma ->
  fb_prox tv lap beta alpha gamma [ffun=> a%:M] = [ffun=> a%:M] :> stack n T.
Proof.
move=> Htv b0 g0; apply: stackE => t; rewrite /fb_prox; case: lap; rewrite !ffunE.
  apply/matrixP => i j; rewrite !mxE; by case: eqP => // _; rewrite mulr0n soft1_0.
apply/matrixP => i j; rewrite !mxE.
have e i' j' : series [ffun=> a%:M : 'M[R]_n] i' j' = const_mx (a *+ (i' == j')) :> 'rV[R]_T.
  by apply/rowP => s; rewrite !mxE ffunE mxE.
rewrite e tv_const ?mulr_ge0 // !mxE; case: eqP => // _; by rewrite mulr0n soft1_0.
Qed.

Section Bad.
Variables (m : nat) (tv : 'rV[R]_m.+2 -> R -> 'rV[R]_m.+2) (is_pos_def : 'M[R]_2 -> bool).
Variables (pn : 'rV[R]_m.+1 -> R) (pinvh : 'M[R]_2 -> 'M[R]_2) (p : fb_params).
Hypothesis Htv : tv_ok tv.
Hypothesis Hp : pinvh_ok pinvh.
Hypothesis b0 : 0 <= fb_beta p.
Hypothesis v0 : fb_vareps p = 0.
Hypothesis d0 : 0 <= fb_delta p.
Hypothesis e0 : 0 < fb_eps p.
Hypothesis g1 : fb_gamma p = 1.
Hypothesis ll : fb_lamda p = 1.
Definition cst (a : R) : stack 2 m.+2 := [ffun=> a%:M].
Local Notation S := (cst 10%:R).
Local Notation ns := (fun=> 1 : R).
Local Notation G := (fb_grad pinvh S ns p).
Local Notation step := (fb_step tv is_pos_def pinvh S ns p).
Local Notation body := (fb_body tv pn is_pos_def pinvh S ns p).
Local Notation next j s := (out_state (body j s).1).
Local Notation y := (fb_y tv pinvh S ns p).

Lemma cstB a b : cst a - cst b = cst (a - b).
Proof. by apply: stackE => t; rewrite stB !ffunE raddfB. Qed.
Lemma cstZ c a : c *: cst a = cst (c * a).
Proof. by apply: stackE => t; rewrite stZ !ffunE scale_scalar_mx. Qed.
Lemma cstD a b : cst a + cst b = cst (a + b).
Proof. by apply: stackE => t; rewrite stD !ffunE raddfD. Qed.
Lemma dif_cst a : dif (cst a) = 0.
Proof. by apply: stackE => t; rewrite difE !ffunE subrr. Qed.
Lemma np_cst a b : np_sum_mul (a%:M : 'M[R]_2) b%:M = 2%:R * (a * b).
Proof.
have -> : np_sum_mul (a%:M : 'M[R]_2) b%:M = fdot (a%:M : 'M[R]_2) b%:M by [].
rewrite fdotE tr_scalar_mx mul_scalar_mx scale_scalar_mx mxtrace_scalar mulr_natl //.
Qed.
Lemma sp_cst a b : scalar_product (cst a) (cst b) = m.+2%:R * (2%:R * (a * b)).
Proof.
rewrite /scalar_product (eq_bigr (fun=> 2%:R * (a * b))); last by move=> t _; rewrite !ffunE np_cst.
by rewrite sumr_const card_ord [RHS]mulr_natl.
Qed.
Lemma grad_cst a : a != 0 -> G (cst a) = cst (10%:R - a^-1).
Proof.
move=> a0; have e1 : pinvh (a%:M) = a^-1%:M.
  rewrite Hp ?invmx_scalar //; first exact: sym_scalar.
  by rewrite unitmxE det_scalar unitfE expf_neq0.
apply: stackE => t; rewrite /fb_grad /grad_loss_laplacian; case: fb_laplacian; rewrite !ffunE e1 v0 scale0r addr0 scale1r.
  have h o : oapp (0 : stack 2 m.+1) 0 o = 0 by case: o => //= s; rewrite ffunE.
  by rewrite lap_aux dif_cst !h subr0 scaler0 addr0 raddfB.
by rewrite raddfB.
Qed.
Lemma y_cst g a : 0 <= g -> a != 0 -> y g (cst a) = cst (a - g * (10%:R - a^-1)).
Proof. by move=> g0 a0; rewrite /fb_y grad_cst // cstZ cstB prox_const. Qed.
Lemma f_cst a : a != 0 -> fb_f S (Some ns) p (cst a) = Fin (m.+2%:R * (20%:R * a - ln (a ^+ 2))).
Proof.
move=> a0; have hl : tgl_loss S (cst a) (Some ns) = Fin (m.+2%:R * (20%:R * a - ln (a ^+ 2))).
  have -> : m.+2%:R * (20%:R * a - ln (a ^+ 2)) = \sum_(t < m.+2) (20%:R * a - ln (a ^+ 2)).
    by rewrite sumr_const card_ord mulr_natl.
  rewrite /tgl_loss; elim/big_rec2: _ => // t y1 y2 _ ->.
  rewrite !ffunE /log_likelihood /fast_logdet det_scalar exprn_even_gt0 //= np_cst a0 /=.
  by congr (Fin (_ + _)); rewrite mulN1r opprB mulrA -natrM.
rewrite /fb_f /loss_laplacian /fb_loss hl v0 mul0r mul0r /= addr0; case: fb_laplacian => //=.
rewrite -/(dif _) dif_cst sqnormE' ip0l mulr0 addr0 //.
Qed.
Definition neg (s : fb_state 2 m.+1) : Prop := 0 < fb_gam s /\ exists2 c : R, 0 < c & fb_K s = cst (- c).
Lemma lam1 : fb_lam p = 1.
Proof. by rewrite fb_lamE ll ?ler01. Qed.
Lemma neg_next j s : neg s -> neg (next j s).
Proof.
move=> [g0 [c c0 eK]]; have [e1 e2] := body_next' tv is_pos_def pn pinvh S ns p j s.
have [g gp [es sp]] := step_prox tv is_pos_def pinvh S ns j g0 e0.
split; first by rewrite e2.
rewrite e1 lam1 scale1r es eK y_cst ?ltW //; last by rewrite oppr_eq0 gt_eqF.
exists (c + g * (10%:R + c^-1)).
  by apply: addr_gt0 => //; apply: mulr_gt0 => //; apply: addr_gt0; rewrite ?invr_gt0 // ltr0n.
have -> (A B : stack 2 m.+2) : A + (B - A) = B by lin.
by congr cst; rewrite invrN; move: (c^-1) => x; mcring.
Qed.
Lemma first_ok : gamma_test (fb_f S (Some ns) p) (cst 1) (G (cst 1)) (fb_lamda p) (fb_delta p) 1 (y 1 (cst 1)).
Proof.
rewrite /gamma_test y_cst ?ler01 ?oner_neq0 // grad_cst ?oner_neq0 // ll scale1r cstB cstD invr1.
rewrite f_cst; last by rewrite mul1r; apply/eqP; mclra.
rewrite f_cst ?oner_neq0 //= !sp_cst.
have -> : 1 + (1 - 1 * (10%:R - 1) - 1) = - 8%:R :> R by mcring.
have -> : 1 - 1 * (10%:R - 1) - 1 = - 9%:R :> R by mcring.
have l8 : 0 <= ln ((- 8%:R) ^+ 2).
  have h : (Rlt (ln 1) (ln ((- 8%:R) ^+ 2))).
    by apply: ln_increasing; toR; lra.
  by rewrite ln_1 in h; apply/RleP; left.
rewrite expr1n ln_1; move: (ln _) l8 => l l8; have := ler0n [numDomainType of R] m.+2.
move: (m.+2%:R : R) (fb_delta p) d0 => M d dp Mp.
have num : 0 <= M * (20%:R - 162%:R + 160%:R + l + 162%:R * d).
  apply: mulr_ge0 => //; move: l8 dp; clear; move=> *; mclra.
move: num; clear; move=> *; mclra.
Qed.
Lemma first_neg : fb_choose p \in [:: "gamma"%string; "fixed"%string] ->
  neg (next 0 (FBState (cst 1) (fb_gamma p) None)).
Proof.
move=> hch; set s := FBState _ _ _.
have es : step 0 s = (1, y 1 (cst 1)).
  move: hch; rewrite !inE /fb_step; case: eqP => [->|_] /= hch.
    by rewrite /choose_gamma /= g1 first_ok.
  by rewrite /s g1.
have [e1 e2] := body_next' tv is_pos_def pn pinvh S ns p 0 s.
split; first by rewrite e2 es ltr01.
exists 8%:R; first by rewrite ltr0n.
rewrite e1 lam1 scale1r es /= y_cst ?ler01 ?oner_neq0 //.
have -> (A B : stack 2 m.+2) : A + (B - A) = B by lin.
by congr cst; rewrite invr1; mcring.
Qed.
End Bad.
