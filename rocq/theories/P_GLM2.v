(** Proofs about the Ising solver: descent, termination, gradients. *)
From Coq Require Import Reals Lra Psatz.
From mathcomp Require Import all_ssreflect all_algebra.
From Verif Require Import Calc RStruct RTac LinTac Spectral S_Mat RMx ADMM NP M_Prox M_Loop M_LGL M_Stab P_Prox P_Rules M_GLM S_GLM P_GLM.
Import Order.TTheory GRing.Theory Num.Theory.

Set Implicit Arguments.
Unset Strict Implicit.
Unset Printing Implicit Defensive.
Local Open Scope ring_scope.

(** * derivatives *)
Lemma d_ext (f g : R -> R) x l : (forall t, f t = g t) -> derivable_pt_lim f x l -> derivable_pt_lim g x l.
Proof. by move=> e h eps h0; have [del hd] := h eps h0; exists del => u u0 ud; rewrite -!e; apply: hd. Qed.
Lemma d_val (f : R -> R) x l l' : l = l' -> derivable_pt_lim f x l -> derivable_pt_lim f x l'.
Proof. by move=> ->. Qed.
Lemma d_sum (I : Type) (r : seq I) (P : pred I) (F : I -> R -> R) (l : I -> R) x :
  (forall i, P i -> derivable_pt_lim (F i) x (l i)) ->
  derivable_pt_lim (fun t => \sum_(i <- r | P i) F i t) x (\sum_(i <- r | P i) l i).
Proof.
move=> h; elim: r => [|i r IH].
  rewrite big_nil; apply: (@d_ext (fct_cte 0)); last exact: derivable_pt_lim_const.
  by move=> t; rewrite big_nil.
rewrite big_cons; case: ifP => Pi.
  apply: (@d_ext (fun t => F i t + \sum_(j <- r | P j) F j t)) => [t|]; first by rewrite big_cons Pi.
  exact: (derivable_pt_lim_plus _ _ _ _ _ (h i Pi) IH).
by apply: (d_ext _ IH) => t; rewrite big_cons Pi.
Qed.
Lemma d_scal (c : R) (f : R -> R) x l : derivable_pt_lim f x l ->
  derivable_pt_lim (fun t => c * f t) x (c * l).
Proof. exact: derivable_pt_lim_scal. Qed.
Lemma d_sub (f g : R -> R) x l l' : derivable_pt_lim f x l -> derivable_pt_lim g x l' ->
  derivable_pt_lim (fun t => f t - g t) x (l - l').
Proof. exact: derivable_pt_lim_minus. Qed.
Lemma d_add (f g : R -> R) x l l' : derivable_pt_lim f x l -> derivable_pt_lim g x l' ->
  derivable_pt_lim (fun t => f t + g t) x (l + l').
Proof. exact: derivable_pt_lim_plus. Qed.
Lemma d_affine (u w x : R) : derivable_pt_lim (fun t => u + t * w) x w.
Proof.
apply: (@d_val _ _ (0 + w * 1)); first by rewrite add0r mulr1.
apply: (@d_ext (fun t => u + w * t)) => [t|]; first by rewrite mulrC.
apply: d_add; first exact: derivable_pt_lim_const.
exact/d_scal/derivable_pt_lim_id.
Qed.
Lemma d_comp_affine (f : R -> R) (l u w : R) : derivable_pt_lim f u l ->
  derivable_pt_lim (fun t => f (u + t * w)) 0 (l * w).
Proof.
move=> h; apply: (derivable_pt_lim_comp (fun t => u + t * w) f 0 w l); first exact: d_affine.
by rewrite mul0r addr0.
Qed.

Section Ising.
Variables (n d : nat) (X : 'M[R]_(n.+1, d)).
Implicit Types (theta : 'M[R]_d).

(** ** the potential and its decrease *)
Definition coupling (A : option 'M[R]_d) (c : R) : R := if A is Some _ then c else 0.
Definition ridge (A : option 'M[R]_d) (c : R) theta : R :=
  if A is Some a then c / 2%:R * fnorm2 (theta - a) else 0.
Definition Phi0 (p : ising_params d) theta : R :=
  f0 X theta + ridge (ig_A p) (ig_rho p * ig_T p) theta + ig_alpha p * l1od theta.
Definition symA (A : option 'M[R]_d) := if A is Some a then sym a else True.

Lemma ridge_quad A c theta theta' :
  ridge A c theta' = ridge A c theta + fdot (addA A c theta) (theta' - theta)
                     + coupling A c / 2%:R * fnorm2 (theta' - theta).
Proof.
case: A => [a|] /=; last by rewrite fdot0l mul0r mul0r !addr0.
have -> : theta' - a = (theta - a) + (theta' - theta) by lin.
rewrite fnorm2D fdotZl; set p := fnorm2 (theta - a); set q := fdot _ _; set r := fnorm2 _.
by move: p q r => p q r; mcfield.
Qed.
Lemma addA_sym A c theta : symA A -> sym theta -> sym (addA A c theta).
Proof. by case: A => [a|] /= h hs; [apply/symZ/symB | exact: sym0]. Qed.
Lemma fdot_symmetrise (G D : 'M[R]_d) : sym D -> fdot (symmetrise G) D = fdot G D.
Proof.
move=> hD; rewrite /symmetrise fdotZl fdotDl.
have -> : fdot G^T D = fdot G D by rewrite -{1}hD fdot_tr.
by set q := fdot _ _; move: q => q; mcfield.
Qed.
Lemma symmetrise_lin (A B : 'M[R]_d) c : symmetrise (A - c *: B) = symmetrise A - c *: symmetrise B.
Proof. by apply/matrixP => i j; rewrite !mxE mulrCA -mulrBr; congr (_ * _); rewrite mulrDr opprD addrACA. Qed.
Lemma symmetrise_id (A : 'M[R]_d) : sym A -> symmetrise A = A.
Proof.
by move=> h; rewrite /symmetrise h -mulr2n -scaler_nat scalerA mulVf ?pnatr_eq0 // scale1r.
Qed.

Definition curvature (p : ising_params d) : R := Lip X + coupling (ig_A p) (ig_rho p * ig_T p).

Lemma step_descent p gam theta : 0 <= ig_alpha p -> 0 < gam -> gam * curvature p <= 1 ->
  sym theta ->
  Phi0 p (ising_step X p gam theta) + fnorm2 (theta - ising_step X p gam theta) / (2%:R * gam)
  <= Phi0 p theta.
Proof.
move=> a0 g0' hL hs; set t := ising_step X p gam theta.
have ts : sym t by apply: step_sym.
set G := gradient_ising X theta (ig_A p) (ig_rho p) (ig_T p).
have et : t = soft_thresholding_off_diagonal (theta - gam *: symmetrise G) (ig_alpha p * gam).
  by rewrite /t /ising_step symmetrise_lin (symmetrise_id hs).
have h1 := sod_step_self a0 g0' et.
have h2 := f0_quad X hs ts.
have h3 := ridge_quad (ig_A p) (ig_rho p * ig_T p) theta t.
rewrite (fdot_symmetrise _ (symB ts hs)) /G gradE fdotDl in h1.
have e : fnorm2 (theta - t) = fnorm2 (t - theta) by rewrite -fnorm2N opprB.
rewrite /Phi0 h3 e; move: h1 h2 hL; rewrite /curvature.
set c := coupling _ _; set q := fnorm2 (t - theta).
set u := fdot (g0 X theta) _; set v := fdot (addA _ _ _) _.
set a := l1od t; set b := l1od theta; set x := f0 X t; set y := f0 X theta; set w := ridge _ _ _.
have q0 : 0 <= q by apply: fnorm2_ge0.
have -> : q / (2%:R * gam) = q / gam / 2%:R by rewrite invfM mulrA mulrAC.
have eq : q = gam * (q / gam) by rewrite mulrC divfK // gt_eqF.
have qg : 0 <= q / gam by apply: divr_ge0 => //; apply: ltW.
set z := q / gam in eq qg *.
move: (Lip X) (ig_alpha p) => L al h1 h2 hL.
have hq : (L + c) * q <= z.
  rewrite eq mulrA [_ * gam]mulrC -{2}[z]mul1r; exact: ler_wpmul2r.
rewrite mulrDl in hq.
have -> : c / 2%:R * q = (c * q) / 2%:R by rewrite mulrAC.
have e2 : L / 2%:R * q = (L * q) / 2%:R by rewrite mulrAC.
rewrite e2 in h2; move: (L * q) (c * q) hq h2 => Lq cq hq h2.
move: h1 h2 hq; clear; move: x y u v w z a b => x y u v w z a b h1 h2 hq.
set k := al * a in h1 *; set k' := al * b in h1 *; move: k k' h1 => k k' h1; mclra.
Qed.

Lemma f0_ge0 theta : (forall j, `|X 0 j| <= 1) -> 0 <= f0 X theta.
Proof.
move=> h; apply: mulr_ge0; first by rewrite invr_ge0 ltW // n1_gt0.
by apply: sumr_ge0 => r _; apply: lch_node_ge0.
Qed.
Lemma ridge_ge0 A c theta : 0 <= c -> 0 <= ridge A c theta.
Proof. by move=> c0; case: A => [a|]; rewrite /ridge ?lexx // mulr_ge0 ?fnorm2_ge0 // divr_ge0 // ler0n. Qed.
Lemma l1od_ge0 theta : 0 <= l1od theta.
Proof. by apply: sumr_ge0 => i _; apply: sumr_ge0. Qed.
Lemma Phi0_ge0 p theta : 0 <= ig_alpha p -> 0 <= ig_rho p * ig_T p -> (forall j, `|X 0 j| <= 1) ->
  0 <= Phi0 p theta.
Proof.
move=> a0 c0 hx; apply: addr_ge0; last by apply: mulr_ge0 => //; apply: l1od_ge0.
by apply: addr_ge0; [apply: f0_ge0 | apply: ridge_ge0].
Qed.

Lemma np_norm2 m k (A : 'M[R]_(m, k)) : np_norm A ^+ 2 = fnorm2 A.
Proof. by rewrite /np_norm squared_normE fnorm_sqr. Qed.
Lemma np_norm_ge0 m k (A : 'M[R]_(m, k)) : 0 <= np_norm A.
Proof. by rewrite /np_norm squared_normE fnorm_ge0. Qed.

(** ** termination *)
Lemma ising_stops p fuel w (N : nat) :
  ~~ ig_line_search p -> 0 <= ig_alpha p -> 0 < ig_gamma p -> ig_gamma p * curvature p <= 1 ->
  0 <= ig_rho p * ig_T p -> (forall j, `|X 0 j| <= 1) -> 0 < ig_tol p ->
  sym (odflt 0 w) ->
  2%:R * ig_gamma p * Phi0 p (odflt 0 w) < ig_tol p ^+ 2 * N%:R -> (N <= ig_max_iter p)%N ->
  exists i s hs t0, [/\ (i < N)%N,
    glm_for (ising_body X p fuel) (ig_max_iter p) 0
      (GLMState (odflt 0 w) (ig_gamma p) [:: odflt 0 w] [::]) None = Some (s, Some i),
    gs_thetas s = rcons (rcons hs t0) (gs_theta s), gs_theta s = ising_step X p (ig_gamma p) t0 &
    np_norm (t0 - gs_theta s) < ig_tol p].
Proof.
move=> hls a0 g0' hL c0 hx t0 hw hN hm.
pose P (s : glm_state d d) := [/\ sym (gs_theta s), gs_gamma s = ig_gamma p &
  exists hs, gs_thetas s = rcons hs (gs_theta s)].
pose Ph (s : glm_state d d) : R := 2%:R * ig_gamma p * Phi0 p (gs_theta s).
have g2 : 0 < 2%:R * ig_gamma p by apply: mulr_gt0 => //; apply: ltr0Sn.
have [] := @glm_for_stops _ (ising_body X p fuel) P Ph (ig_tol p ^+ 2) (exprn_gt0 2 t0) _ _ N
  (ig_max_iter p) 0 (GLMState (odflt 0 w) (ig_gamma p) [:: odflt 0 w] [::]) None hm _ hN.
- by move=> s _; apply: mulr_ge0; [exact: ltW | exact: Phi0_ge0].
- move=> it s [hs hg _]; rewrite /ising_body hls.
  set t := ising_step X p (gs_gamma s) (gs_theta s).
  eexists; eexists; split; [reflexivity | by split; [exact: step_sym | | eexists; reflexivity] |].
  rewrite -leNgt /Ph /= => hnb.
  have := step_descent a0 g0' hL hs; rewrite -{1 2}hg -/t => hd.
  have ht2 : ig_tol p ^+ 2 <= fnorm2 (gs_theta s - t).
    rewrite -np_norm2 -(ger0_norm (np_norm_ge0 _)).
    by rewrite ler_sqr // ?nnegrE ?normr_ge0 // ltW.
  apply: (@le_trans _ _ (2%:R * ig_gamma p * Phi0 p t + fnorm2 (gs_theta s - t))).
    by rewrite ler_add2l.
  rewrite -(ler_pmul2l g2) mulrDr in hd; apply: le_trans hd.
  by rewrite ler_add2l [_ * (_ / _)]mulrC divfK ?gt_eqF.
- by split=> //; exists [::].
move=> s0 [s' [i [[hs0 hg0 [hh eh]] hb hi e]]]; exists i, s', hh, (gs_theta s0).
move: hb; rewrite {1}/ising_body hls => -[hb es]; rewrite hg0 in hb es; split; [exact: hi | exact: e | by rewrite -es /= eh | by rewrite -es |].
by rewrite -es; move: hb; rewrite ger0_norm ?np_norm_ge0.
Qed.

(** ** gradient of the likelihood *)
Lemma field_affine k (x : 'rV[R]_k) (t v : 'M[R]_k) r (z : R) :
  field x (t + z *: v) r = field x t r + z * field x v r.
Proof.
rewrite /field mulr_sumr -big_split /=; apply: eq_bigr => j _; by rewrite !mxE mulrDr; congr (_ + _); rewrite mulrCA.
Qed.
End Ising.

Section Grad.
Variables (n d : nat) (X : 'M[R]_(n, d)).

Definition ising_full_gradient (theta : 'M[R]_d) : 'M[R]_d := \matrix_(r, j)
  if j != r then (\sum_i X i j * (th (field (row i X) theta r) - X i r)) / n%:R else 0.
Lemma ising_full_gradientP theta : gradient_along (@sym d) (ising_nll X) theta (ising_full_gradient theta).
Proof.
move=> v hv.
apply: (@d_val _ _ (n%:R^-1 * \sum_i \sum_r (th (field (row i X) theta r) - X i r) * field (row i X) v r)).
  rewrite /fdot exchange_big mulr_sumr; apply: eq_bigr => r _ /=.
  rewrite mulr_sumr.
  under eq_bigr => i _ do rewrite /field mulr_sumr mulr_sumr.
  rewrite exchange_big /= [LHS]big_mkcond; apply: eq_bigr => j _.
  rewrite mxE; case: eqP => _ /=; last first.
    have -> : v r j = v j r by rewrite -{1}hv mxE.
    rewrite mulrAC mulr_suml mulrC mulr_sumr; apply: eq_bigr => i _; congr (_ * _).
    by rewrite -/(field (row i X) theta r) [row i X 0 j]mxE mulrA [_ * X i j]mulrC.
  by rewrite mul0r.
rewrite /ising_nll /sample_mean.
apply: (@d_ext (fun t => n%:R^-1 * \sum_i \sum_r
  (lch (field (row i X) theta r + t * field (row i X) v r)
   - X i r * (field (row i X) theta r + t * field (row i X) v r)))).
  by move=> t; rewrite mulrC; congr (_ / _); apply: eq_bigr => i _; apply: eq_bigr => r _; rewrite !field_affine.
apply: d_scal; apply: d_sum => i _; apply: d_sum => r _.
apply: (@d_val _ _ (th (field (row i X) theta r) * field (row i X) v r - X i r * field (row i X) v r)).
  by rewrite mulrBl.
apply: d_sub; first by apply: d_comp_affine; exact: d_lch.
by apply: d_scal; exact: d_affine.
Qed.
Lemma field_row theta i r : field (row i X) theta r = ising_XT X theta i r.
Proof. by apply: eq_bigr => j _; rewrite mxE. Qed.
End Grad.
