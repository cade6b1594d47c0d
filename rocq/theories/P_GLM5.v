(** Histories of the node-wise solvers; which samples the Ising estimate depends on; divergence of the
    Gaussian solver's defaults. *)
From Coq Require Import Reals Lra Psatz.
From mathcomp Require Import all_ssreflect all_algebra.
From Verif Require Import Calc RStruct RTac LinTac Spectral S_Mat RMx ADMM NP M_Prox M_Loop M_LGL M_Stab P_Prox P_Rules M_GLM S_GLM P_GLM P_GLM2 P_GLM3 P_GLM4.
Import Order.TTheory GRing.Theory Num.Theory.

Set Implicit Arguments.
Unset Strict Implicit.
Unset Printing Implicit Defensive.
Local Open Scope ring_scope.

Lemma fdot_cauchy m n (a b : 'M[R]_(m, n)) : fdot a b <= fnorm a * fnorm b.
Proof.
apply: le_trans (ler_norm _) _.
rewrite -ler_sqr ?nnegrE ?mulr_ge0 ?fnorm_ge0 // exprMn !fnorm_sqr !fnorm2E real_normK ?num_real //.
exact: (cauchy2 (mat_ip m n)).
Qed.
(** [k]: number of iterates without a recorded check *)
Definition histk m n k (F : 'M[R]_(m, n) -> R) (s : glm_state m n) : Prop :=
  [/\ map gc_obj (gs_checks s) = [seq Fin (F t) | t <- drop k (gs_thetas s)],
      nonincreasing (map F (gs_thetas s)) &
      forall t, t \in gs_thetas s -> F (gs_theta s) <= F t].
Lemma histk_push m n k (F : 'M[R]_(m, n) -> R) s t gam c : (k <= size (gs_thetas s))%N ->
  histk k F s -> F t <= F (gs_theta s) -> gc_obj c = Fin (F t) ->
  histk k F (GLMState t gam (rcons (gs_thetas s) t) (rcons (gs_checks s) c)).
Proof.
move=> hk [h1 h2 h3] ht hc; split=> /=.
- by rewrite map_rcons h1 hc drop_rcons // map_rcons.
- rewrite map_rcons; apply: nonincr_rcons => // o /mapP[x xin ->].
  by apply: le_trans ht _; apply: h3.
- move=> x; rewrite mem_rcons inE => /orP[/eqP->//|xin]; apply: le_trans ht _; exact: h3.
Qed.
Lemma nonincreasing1 (x : R) : nonincreasing [:: x].
Proof. by move=> [|i] [|j] //=; rewrite andbF. Qed.
Lemma histk_start m n k (F : 'M[R]_(m, n) -> R) t gam : (0 < k)%N -> histk k F (GLMState t gam [:: t] [::]).
Proof.
case: k => // k _; split=> //=; first exact: nonincreasing1.
by move=> x; rewrite inE => /eqP->.
Qed.

(** ** Gaussian *)
Section Gaussian.
Variables (n d : nat) (X : 'M[R]_(n, d.+1)) (r : 'I_d.+1) (p : gaussian_params).
Hypothesis (a0 : 0 <= ga_alpha p) (g0 : 0 < ga_gamma p) (hL : ga_gamma p * gL X r <= 2%:R).
Local Notation F := (fun t => gaussian_objective X t r (ga_alpha p)).
Lemma gaussian_run_hist todo it s l s' l' :
  gs_gamma s = ga_gamma p -> (0 < size (gs_thetas s))%N -> histk 1 F s ->
  glm_for (gaussian_body X r p) todo it s l = Some (s', l') -> histk 1 F s'.
Proof.
move=> h1 h2 h3 e.
have [] : [/\ gs_gamma s' = ga_gamma p, (0 < size (gs_thetas s'))%N & histk 1 F s']; last by [].
apply: (@glm_for_inv _ (gaussian_body X r p)
  (fun s => [/\ gs_gamma s = ga_gamma p, (0 < size (gs_thetas s))%N & histk 1 F s])) e => //.
move=> {h1 h2 h3 s s' it l l'} it s b s' [hg hs hh]; rewrite /gaussian_body => -[_ <-] /=; split=> //.
  by rewrite size_rcons.
apply: histk_push => //.
by rewrite !gaussian_objectiveE ler_add2r hg; apply: gstep_mono.
Qed.
Lemma gaussian_fit_hist res ths cks : gaussian_fit_each X r p = Some (Ok res) ->
  gr_history res = Some (ths, cks) ->
  map gc_obj cks = [seq Fin (F t) | t <- behead ths] /\ nonincreasing (map F ths).
Proof.
rewrite /gaussian_fit_each; case e : (glm_for _ _ _ _ _) => [[s l]|] //= h hh.
have [h1 h2 _] : histk 1 F s by apply: gaussian_run_hist e => //=; exact: histk_start.
move: h; rewrite /glm_return.
by case: ifP => _; [case: l e => [i|] e //|] => -[er]; move: hh; rewrite -er /=; case: ifP => // _ [<- <-]; rewrite -drop1.
Qed.
End Gaussian.

(** ** Poisson *)
Section Poisson.
Variables (n d : nat) (X : 'M[R]_(n, d.+1)) (r : 'I_d.+1) (p : poisson_params d).
Hypothesis (a0 : 0 <= po_alpha p) (u0 : 0 < po_update_gamma p < 1) (g0 : 0 < po_gamma p).
Hypothesis hA : po_A p = None.
Local Notation F := (fun t => poisson_objective1 X t r (po_alpha p)).
Lemma poisson_run_hist fuel todo s' l' :
  glm_for (poisson_body X r p fuel) todo 0 (GLMState 0 (po_gamma p) [:: 0] [::]) None = Some (s', l') ->
  histk 2 F s'.
Proof.
move=> e.
have [k [_ _ //]] : exists k, [/\ 0 < gs_gamma s', size (gs_thetas s') = k.+1 & histk 2 F s'].
apply: (@glm_for_inv_it _ (poisson_body X r p fuel)
  (fun k s => [/\ 0 < gs_gamma s, size (gs_thetas s) = k.+1 & histk 2 F s])) e; last first.
  by split=> //; exact: histk_start.
move=> it s b {}s' [hg hs hh] e.
have [/andP[k0 k1] k2 k3] := poisson_body_spec a0 u0 hA hg e; have hd := accept_descent a0 k0 k2 k3.
move: e; rewrite /poisson_body; case: (poisson_line_search _ _ _ _ _ _ _ _) => [[t gam]|] //.
case: ifP => it0 [_ es]; rewrite -es /= in hd k0 *; rewrite -!poisson_objective1E in hd.
  split=> //; first by rewrite size_rcons hs.
  by apply: histk_push => //; rewrite hs.
split=> //; first by rewrite size_rcons hs.
case: it it0 hs => // _ hs; case: hh => h1 h2 h3; split=> /=.
- by move: h1; case: (gs_thetas s) hs => [|x [|]] //=; case: (gs_checks s).
- rewrite map_rcons; apply: nonincr_rcons => // o /mapP[x xin ->].
  by apply: le_trans hd _; apply: h3.
- move=> x; rewrite mem_rcons inE => /orP[/eqP->//|xin]; apply: le_trans hd _; exact: h3.
Qed.
Lemma poisson_fit_hist fuel res ths cks : poisson_fit_each X r p fuel = Some (Ok res) ->
  gr_history res = Some (ths, cks) ->
  map gc_obj cks = [seq Fin (F t) | t <- drop 2 ths] /\ nonincreasing (map F ths).
Proof.
rewrite /poisson_fit_each; case e : (glm_for _ _ _ _ _) => [[s l]|] //= h hh.
have [h1 h2 _] := poisson_run_hist e; move: h; rewrite /glm_return.
by case: ifP => _; [case: l e => [i|] e //|] => -[er]; move: hh; rewrite -er /=; case: ifP => // _ [<- <-].
Qed.
End Poisson.

(** ** Ising, one sample *)
Section IsingOne.
Variables (d : nat) (X : 'M[R]_(1, d)) (p : ising_params d).
Hypothesis (a0 : 0 <= ig_alpha p) (g0 : 0 < ig_gamma p) (hL : ig_gamma p * (\sum_j X 0 j ^+ 2) <= 1).
Hypothesis (hA : ig_A p = None) (hls : ig_line_search p = false).
Definition iF (theta : 'M[R]_d) : R := ising_nll X theta + ig_alpha p * l1od theta.
Lemma nll_f0 theta : ising_nll X theta = f0 X theta.
Proof.
rewrite /ising_nll /sample_mean big_ord1 mulrC /f0; congr (_ * _); apply: eq_bigr => r _.
by rewrite field_row lchE.
Qed.
Lemma iF_Phi0 theta : iF theta = Phi0 X p theta.
Proof. by rewrite /iF nll_f0 /Phi0 /ridge hA addr0. Qed.
Lemma ising_objE theta : sym theta -> ising_objective X theta (ig_alpha p) = Fin (iF theta).
Proof.
move=> hs; rewrite /ising_objective /ising_loss.
have -> : theta != theta^T = false by rewrite hs eqxx.
rewrite /= /iF /ising_nll /sample_mean div1r mulrC; congr (Fin (_ / _ + _)).
rewrite exchange_big; apply: eq_bigr => i _; apply: eq_bigr => r _; by rewrite field_row.
all: by rewrite ?l1_od_normE.
Qed.
Lemma ising_run_hist fuel todo w s' l' : sym w ->
  glm_for (ising_body X p fuel) todo 0 (GLMState w (ig_gamma p) [:: w] [::]) None = Some (s', l') ->
  histk 1 iF s'.
Proof.
move=> hw e.
have [] : [/\ sym (gs_theta s'), gs_gamma s' = ig_gamma p, (0 < size (gs_thetas s'))%N & histk 1 iF s']; last by [].
apply: (@glm_for_inv _ (ising_body X p fuel)
  (fun s => [/\ sym (gs_theta s), gs_gamma s = ig_gamma p, (0 < size (gs_thetas s))%N & histk 1 iF s])) e;
  last by split=> //; exact: histk_start.
move=> it s b {}s' [hs hg hz hh]; rewrite /ising_body hls /= => -[_ <-] /=.
have ts := step_sym X p (gs_gamma s) (gs_theta s); split=> //; first by rewrite size_rcons.
apply: histk_push => //; last by rewrite /= ising_objE.
rewrite !iF_Phi0 hg.
have hL' : ig_gamma p * curvature X p <= 1 by rewrite /curvature /coupling hA addr0 /Lip divr1.
apply: le_trans (step_descent a0 g0 hL' hs); rewrite ler_addl.
by apply: divr_ge0; [exact: fnorm2_ge0 | apply: mulr_ge0; [exact: ler0n | exact: ltW]].
Qed.
Lemma ising_fit_hist fuel w res ths cks : sym (odflt 0 w) -> ising_fit X p fuel w = Some (Ok res) ->
  gr_history res = Some (ths, cks) ->
  map gc_obj cks = [seq Fin (iF t) | t <- behead ths] /\ nonincreasing (map iF ths).
Proof.
move=> hw; rewrite /ising_fit; case e : (glm_for _ _ _ _ _) => [[s l]|] //= h hh.
have [h1 h2 _] := ising_run_hist hw e; move: h; rewrite /glm_return.
by case: ifP => _; [case: l e => [i|] e //|] => -[er]; move: hh; rewrite -er /=; case: ifP => // _ [<- <-]; rewrite -drop1.
Qed.
End IsingOne.

(** ** only the first sample *)
Lemma glm_for_rel (S1 S2 : Type) (b1 : nat -> S1 -> option (bool * S1)) (b2 : nat -> S2 -> option (bool * S2))
    (Q : S1 -> S2 -> Prop) :
  (forall it s1 s2, Q s1 s2 -> exists b s1' s2', [/\ b1 it s1 = Some (b, s1'), b2 it s2 = Some (b, s2') & Q s1' s2']) ->
  forall todo it s1 s2 l, Q s1 s2 -> exists s1' s2' l', [/\ glm_for b1 todo it s1 l = Some (s1', l'),
     glm_for b2 todo it s2 l = Some (s2', l') & Q s1' s2'].
Proof.
move=> hb; elim=> [|k IH] it s1 s2 l q /=; first by exists s1, s2, l.
have [b [t1 [t2 [-> -> q']]]] := hb it s1 s2 q.
by case: b; [exists t1, t2, (Some it) | apply: IH].
Qed.
Lemma ising_first_sample n d (X X' : 'M[R]_(n.+1, d)) p fuel w : row 0 X = row 0 X' ->
  ig_line_search p = false -> theta_of (ising_fit X p fuel w) = theta_of (ising_fit X' p fuel w).
Proof.
move=> hr hls.
have hx j : X 0 j = X' 0 j by have /rowP/(_ j) := hr; rewrite !mxE.
have hstep gam theta : ising_step X p gam theta = ising_step X' p gam theta.
  have e : P_GLM.g0 X theta = P_GLM.g0 X' theta.
    apply/matrixP => r j; rewrite !mxE !hx; case: ifP => // _.
    have -> : ising_XT X theta 0 r = ising_XT X' theta 0 r by apply: eq_bigr => k _; rewrite hx.
    by [].
  by rewrite /ising_step !gradE e.
pose Q (s s' : glm_state d d) := gs_theta s = gs_theta s' /\ gs_gamma s = gs_gamma s'.
have [it s1 s2 [q1 q2]|] := @glm_for_rel _ _ (ising_body X p fuel) (ising_body X' p fuel) Q _ (ig_max_iter p) 0
  (GLMState (odflt 0 w) (ig_gamma p) [:: odflt 0 w] [::]) (GLMState (odflt 0 w) (ig_gamma p) [:: odflt 0 w] [::]) None
  (conj erefl erefl).
  rewrite /ising_body hls /= q1 q2 hstep; eexists; eexists; eexists; split; [reflexivity | reflexivity | by []].
move=> s1 [s2 [l [e1 e2 [q _]]]]; rewrite /ising_fit e1 e2 /= /glm_return.
by case: ifP => _; [case: l e1 e2 => [i|] _ _|]; rewrite /= ?q.
Qed.

(** ** a large penalty returns the empty network *)
Lemma ising_large_alpha n d (X : 'M[R]_(n.+1, d)) p fuel : ig_line_search p = false -> ig_A p = None ->
  0 < ig_gamma p -> 0 < ig_tol p -> (0 < ig_max_iter p)%N ->
  (forall i j, i != j -> `|X 0 i * X 0 j| <= n.+1%:R * ig_alpha p) ->
  theta_of (ising_fit X p fuel None) = Some 0.
Proof.
move=> hls hA g0 t0 hm hx; rewrite /ising_fit.
have e : ising_step X p (ig_gamma p) 0 = 0.
  apply/matrixP => i j; rewrite /ising_step hA grad_noneE sodE [RHS]mxE.
  have gz r k : P_GLM.g0 X 0 r k = if k != r then - (n.+1%:R^-1 * (X 0 k * X 0 r)) else 0.
    rewrite mxE; case: ifP => // _.
    have -> : ising_XT X 0 0 r = 0 by apply: big1 => k' _; rewrite mxE mulr0.
    by rewrite th0 sub0r mulrN mulrA.
  case: eqP => [->|/eqP ne].
    by rewrite symmetrise_diag !mxE eqxx /= mulr0 subr0.
  have hc : `|symmetrise (0 - ig_gamma p *: P_GLM.g0 X 0) i j| <= ig_alpha p * ig_gamma p.
    rewrite mxE mxE [(_ : 'M__)^T _ _]mxE !subZE [(0 : 'M[R]_d) _ _]mxE [(0 : 'M[R]_d) _ _]mxE !sub0r !gz (eq_sym j) ne /=.
    rewrite !mulrN !opprK [X 0 j * _]mulrC.
    have half (z : R) : 2%:R^-1 * (z + z) = z by mcfield.
    rewrite half.
    rewrite normrM (ger0_norm (ltW g0)) [ig_alpha p * _]mulrC; apply: ler_wpmul2l; first exact: ltW.
    by rewrite normrM ger0_norm ?invr_ge0 ?ler0n // ler_pdivr_mull ?ltr0Sn //; apply: hx.
  move: hc; rewrite ler_norml => hc; have al0 : 0 <= ig_alpha p * ig_gamma p.
    by case/andP: hc => c1 c2; move: (le_trans c1 c2); move: (_ * _) => z; rewrite -subr_ge0 opprK -mulr2n pmulrn_lge0.
  have [[h _]|[h _]|[_ ->]//] := soft1_cases (symmetrise (0 - ig_gamma p *: P_GLM.g0 X 0) i j) al0.
    by case/andP: hc => _; rewrite leNgt h.
  by case/andP: hc; rewrite leNgt h.
have z : np_norm (0 - 0 : 'M[R]_d) = 0.
  by apply/eqP; rewrite -sqrf_eq0 np_norm2 subrr fnorm2E fdot0l.
case: (ig_max_iter p) hm => // k _ /=; rewrite /ising_body hls /= e z normr0 t0 /= /glm_return.
by case: ifP.
Qed.

(** ** the default Gaussian step size diverges on unscaled data *)
Definition wild_X : 'M[R]_(1, 2) := \matrix_(i, j) (if (j : nat) == 1%N then 10%:R ^+ 2 else 1).
Lemma wild_Z (t : 'cV[R]_1) : col' 0 wild_X *m t = 10%:R ^+ 2 *: t.
Proof.
apply/matrixP => i j; rewrite !ord1 mxE big_ord1 !mxE /=.
by congr (_ * t _ _); apply: val_inj; rewrite !ord1.
Qed.
Lemma wild_gradient (t : 'cV[R]_1) :
  (gaussian_gradient wild_X t 0) 0 0 = 10%:R ^+ 2 * (10%:R ^+ 2 * t 0 0) - 10%:R ^+ 2.
Proof.
rewrite /gaussian_gradient -mulmxA wild_Z !mxE !big_ord1 !mxE /= divr1.
move: (t 0 0) (10%:R ^+ 2 : R) => z c; mcring.
Qed.
Lemma thousand : (1 / 1000%:R : R) = (10%:R ^+ 3)^-1.
Proof.
rewrite div1r -natrX; congr (_%:R^-1); by vm_compute.
Qed.
Definition te : R := 10%:R^-1.
Lemma te_facts : [/\ 10%:R * te = 1, 10%:R * (te * te) = te & 10%:R * (te * (te * te)) = te * te].
Proof.
have e : 10%:R * te = 1 by rewrite mulfV // pnatr_eq0.
by split=> //; rewrite mulrA e mul1r. Qed.
Lemma thousandE : (1 / 1000%:R : R) = te * (te * te).
Proof. by rewrite thousand !exprS expr0 mulr1 !invfM. Qed.
Lemma hundredE : (9%:R / 100%:R : R) = 9%:R * (te * te).
Proof. by congr (_ * _); rewrite -invfM -natrM; congr (_%:R^-1); vm_compute. Qed.
Definition wild_next (z : R) : R := soft1 (10%:R^-1 - 9%:R * z) (1 / 1000%:R).
Lemma wild_step (t : 'cV[R]_1) :
  soft_thresholding (t - (1 / 1000%:R) *: gaussian_gradient wild_X t 0) (1 * (1 / 1000%:R)) =
  const_mx (wild_next (t 0 0)).
Proof.
apply/matrixP => i j; rewrite !ord1 mxE [RHS]mxE /wild_next [1 * (1 / _)]mul1r; congr (soft1 _ _).
have sub0 (A B : 'cV[R]_1) c : (A - c *: B) 0 0 = A 0 0 - c * B 0 0 by rewrite !mxE.
rewrite sub0 wild_gradient thousand !exprS expr0 !mulr1.
by move: (t 0 0) => z; mcfield.
Qed.
Lemma soft1_ge (a l : R) : 0 <= l -> `|a| - l <= `|soft1 a l|.
Proof.
move=> l0; have [[h ->]|[h ->]|[h ->]] := soft1_cases a l0.
- by rewrite !ger0_norm // ?subr_ge0; apply: le_trans (ltW h).
- have a0 : a < 0 by apply: lt_le_trans h _; rewrite oppr_le0.
  have al : a + l <= 0 by rewrite -ler_subr_addr sub0r ltW.
  by rewrite (ltr0_norm a0) (ler0_norm al) opprD.
- by rewrite normr0 subr_le0 ler_norml.
Qed.
Lemma wild_grow (z : R) : 9%:R / 100%:R <= `|z| -> 7%:R * `|z| <= `|wild_next z|.
Proof.
have l0 : (0 : R) <= 1 / 1000%:R by rewrite div1r invr_ge0 ler0n.
move=> hz; apply: le_trans (soft1_ge _ l0).
have h : 9%:R * `|z| - 10%:R^-1 <= `|10%:R^-1 - 9%:R * z|.
  have -> : 9%:R * `|z| = `|9%:R * z| by rewrite normrM (ger0_norm (ler0n _ 9)).
  have {1}-> : (10%:R^-1 : R) = `|10%:R^-1| by rewrite ger0_norm // invr_ge0 ler0n.
  by rewrite distrC; apply: ler_sub_dist.
rewrite ler_subr_addr; apply: le_trans h; rewrite thousandE -/te; rewrite hundredE in hz.
have [] := te_facts; have {}hz : 9%:R * (te * te) <= (`|z| : R) by exact: hz.
move: hz; move: (`|z| : R) (te * (te * te)) (te * te) te => w c b a *; mclra.
Qed.
Lemma wild_first : 9%:R / 100%:R <= `|wild_next (1 / 10%:R ^+ 15)| /\
  1 / 1000%:R <= `|wild_next (1 / 10%:R ^+ 15)| - `|1 / 10%:R ^+ 15|.
Proof.
have l0 : (0 : R) <= 1 / 1000%:R by rewrite div1r invr_ge0 ler0n.
have h : (1 / 10%:R ^+ 15 : R) <= te * (te * te).
  rewrite div1r -!invfM -expr2 -exprS lef_pinv ?posrE ?exprn_gt0 ?ltr0Sn //.
  by apply: ler_weexpn2l => //; rewrite ler1n.
have h2 : (0 : R) <= 1 / 10%:R ^+ 15 by rewrite div1r invr_ge0 exprn_ge0 // ler0n.
rewrite (ger0_norm h2).
move: h h2; move: (1 / 10%:R ^+ 15 : R) => w h h2.
have := soft1_ge (te - 9%:R * w) l0; rewrite -/te -/(wild_next w).
rewrite thousandE hundredE ger0_norm; last first.
  have [] := te_facts; move: h h2.
  by move: (te * (te * te)) (te * te) te => c b a *; mclra.
have {l0} [] := te_facts; move: h h2; move: (`|wild_next w| : R).
by move: (te * (te * te)) (te * te) te => c b a v h1 h2 e1 e2 e3 h3; split; mclra.
Qed.
Lemma glm_forS (S : Type) (body : nat -> S -> option (bool * S)) k it s l s' :
  body it s = Some (false, s') -> glm_for body k.+1 it s l = glm_for body k it.+1 s' (Some it).
Proof. by move=> /= ->. Qed.
Section Wild.
Local Notation body := (gaussian_body wild_X 0 (gaussian_defaults 1)).
Lemma wild_body it s : gs_gamma s = 1 / 1000%:R ->
  1 / 1000%:R <= `|wild_next (gs_theta s 0 0)| - `|gs_theta s 0 0| ->
  exists s', [/\ body it s = Some (false, s'), gs_gamma s' = 1 / 1000%:R &
               gs_theta s' 0 0 = wild_next (gs_theta s 0 0)].
Proof.
move=> hg; rewrite /gaussian_body hg [ga_alpha _]/= wild_step.
set w := wild_next _ => hz.
have -> : (np_norm (gs_theta s - const_mx w) < ga_tol (gaussian_defaults 1)) = false.
  apply/negbTE; rewrite -leNgt.
  have e : np_norm (gs_theta s - const_mx w) = `|gs_theta s 0 0 - w|.
    apply/eqP; rewrite -(eqr_expn2 (n := 2)) ?np_norm_ge0 //; apply/eqP; rewrite np_norm2 real_normK ?num_real //.
    by rewrite /fnorm2 !big_ord1 !mxE.
  rewrite e distrC; exact: le_trans hz (ler_sub_dist _ _).
by eexists; split; [reflexivity | by [] | rewrite /= mxE].
Qed.
Lemma wild_for todo it s l k : gs_gamma s = 1 / 1000%:R -> 9%:R / 100%:R * 7%:R ^+ k <= `|gs_theta s 0 0| ->
  exists s' l', glm_for body todo it s l = Some (s', l') /\
                9%:R / 100%:R * 7%:R ^+ (k + todo) <= `|gs_theta s' 0 0|.
Proof.
have c0 : (0 : R) <= 9%:R / 100%:R by rewrite divr_ge0 // ler0n.
elim: todo it s l k => [|m IH] it s l k hg hz; first by exists s, l; rewrite addn0.
have hz' : 9%:R / 100%:R <= `|gs_theta s 0 0|.
  by apply: le_trans hz; rewrite ler_pemulr // exprn_ege1 // ler1n.
have hw := wild_grow hz'.
have [|s1 [e hg1 h1]] := @wild_body it s hg.
  rewrite thousandE ler_subr_addr; apply: le_trans hw; move: hz'; rewrite hundredE.
  have [] := te_facts; move: (`|gs_theta s 0 0| : R) (te * (te * te)) (te * te) te => w' c b a *; mclra.
rewrite (glm_forS _ _ e) addnS -addSn; apply: IH => //; rewrite h1; apply: le_trans hw; rewrite exprS mulrCA.
by apply: ler_wpmul2l; rewrite ?ler0n.
Qed.
Lemma wild_fit k p : p = gaussian_defaults 1 -> ga_max_iter p = k.+1 ->
  exists res, gaussian_fit_each wild_X 0 p = Some (Ok res) /\
  9%:R / 100%:R * 7%:R ^+ k <= `|gr_theta res 0 0|.
Proof.
move=> ep ek; have [w1 w2] := wild_first; rewrite /gaussian_fit_each ek.
set s0 := GLMState _ _ _ _.
have th00 : gs_theta s0 0 0 = 1 / 10%:R ^+ 15 by rewrite /s0 /= mxE.
have [||s1 [e hg1 h1]] := @wild_body 0 s0; rewrite ?th00 //; first by rewrite /s0 ep.
rewrite ep (glm_forS _ _ e).
have [|s2 [l2 [e2 h2]]] := @wild_for k 1 s1 (Some 0%N) 0 hg1; first by rewrite expr0 mulr1 h1 th00.
by rewrite e2 /=; eexists; split; [reflexivity |].
Qed.
End Wild.
