(** C200: the fit of a graph by the graphical lasso with penalties 0 and infinity. *)
From Coq Require Import Reals Lra.
From mathcomp Require Import all_ssreflect all_algebra.
From Verif Require Import RStruct RTac LinTac S_Mat NP M_Utils M_Prox M_Loop M_GL M_GWishart M_GWPrior M_GWGL.
From Verif Require Import RMx P_Prox P_Loop P_GL P_Eigh P_GWishart T_GWishart.
Import Order.TTheory GRing.Theory Num.Theory.

Set Implicit Arguments.
Unset Strict Implicit.
Unset Printing Implicit Defensive.
Local Open Scope ring_scope.

(** specification: a matrix restricted to the pairs of the graph (and the diagonal), or to the other pairs *)
Definition edge p (N : 'M[bool]_p) (i j : 'I_p) : bool := N i j || N j i.
Definition on_graph p (N : 'M[bool]_p) (A : 'M[R]_p) : 'M[R]_p := \matrix_(i, j) if edge N i j then A i j else 0.
Definition off_graph p (N : 'M[bool]_p) (A : 'M[R]_p) : 'M[R]_p := \matrix_(i, j) if edge N i j then 0 else A i j.

Lemma edgeC p (N : 'M[bool]_p) i j : edge N i j = edge N j i.
Proof. by rewrite /edge orbC. Qed.
Lemma norm_le p (A B : 'M[R]_p) : (forall i j, `|A i j| <= `|B i j|) -> np_norm A <= np_norm B.
Proof.
move=> h; apply/RleP; apply: sqrt_le_1_alt; apply/RleP; rewrite /squared_norm; apply: ler_sum => i _; apply: ler_sum => j _.
by rewrite -!expr2 -[A i j ^+ 2]real_normK ?num_real // -[B i j ^+ 2]real_normK ?num_real // ler_expn2r ?nnegrE ?normr_ge0.
Qed.
Lemma normZ p (c : R) (A : 'M[R]_p) : 0 <= c -> np_norm (c *: A) = c * np_norm A.
Proof.
move=> c0; rewrite /np_norm; have -> : squared_norm (c *: A) = c ^+ 2 * squared_norm A.
  rewrite /squared_norm mulr_sumr; apply: eq_bigr => i _; rewrite mulr_sumr; apply: eq_bigr => j _; rewrite !mxE expr2.
  by move: (A i j : R) => x; clear; mcring.
have e2 : sqrt (c ^+ 2) = c by rewrite expr2; apply: sqrt_square; apply/RleP.
by rewrite -[in RHS]e2; apply: sqrt_mult_alt; apply/RleP; rewrite expr2 mulr_ge0.
Qed.
Lemma soft1x_edge a : soft1x a (Some 0) = a.
Proof.
rewrite /soft1x subr0 /np_max; have := soft1_0 a; by rewrite /soft1 subr0.
Qed.

Section Body.
Variables (n : nat) (eigh : eigh_t n) (C : 'M[R]_n) (N : 'M[bool]_n).
Hypothesis He : eigh_ok eigh.
Hypothesis sC : sym C.
Hypothesis dN : forall i, N i i.

Lemma thr_entry (a : 'M[R]_n) (rho : R) i j :
  soft_off_diagonal_x a (fun i j => omap (fun a => a / rho) (penalties N i j)) i j = if edge N i j then a i j else 0.
Proof.
rewrite /soft_off_diagonal_x !mxE /penalties /edge; have [->|ij] := eqVneq i j; first by rewrite dN.
by case: (_ || _) => /=; rewrite ?mul0r ?soft1x_edge // /soft1x mulr0.
Qed.
(** one update at a state whose dual variable vanishes on the graph *)
Lemma glx_step rho Z U K Z' U' : 0 < rho -> sym Z -> sym U -> (forall i j, edge N i j -> U i j = 0) ->
  glx_updates eigh C (penalties N) 1 rho Z U = (K, Z', U') ->
  [/\ pd K, Z' = on_graph N K, U' = off_graph N (U + K) /\ sym U', sym Z' &
      on_graph N (invmx K - C) = rho *: (Z' - on_graph N Z) /\ ((forall i j, ~~ edge N i j -> Z i j = 0) -> off_graph N (invmx K - C) = rho *: U')].
Proof.
move=> r0 sZ sU u0 []; rewrite subrr scale0r subr0 scale1r div1r => eK eZ eU.
have rv : 0 < rho^-1 by rewrite invr_gt0.
have eA : gl_A Z U = Z - U.
  by rewrite /gl_A linearB /= sZ sU -mulr2n -scaler_nat scalerA mulVf ?scale1r // pnatr_eq0.
have sCA : sym (C - rho *: gl_A Z U) by apply: gl_sSA.
have [pK eI] := prox_logdet_spec He sCA rv; rewrite eK invrK in pK eI.
have hZ : Z' = on_graph N K.
  apply/matrixP => i j; rewrite -eZ thr_entry !mxE eK; case: ifP => // h; by rewrite u0 // addr0.
have hU : U' = off_graph N (U + K).
  apply/matrixP => i j; rewrite -eU eZ hZ eK !mxE; case: ifP => h; first by rewrite subrr addr0 u0.
  by rewrite subr0.
have sK := pd_sym pK.
have sym_on A : sym A -> sym (on_graph N A).
  by move=> sA; apply/matrixP => i j; rewrite !mxE edgeC; case: ifP => // _; have := congr1 (fun B : 'M[R]_n => B i j) sA; rewrite mxE.
have sym_off A : sym A -> sym (off_graph N A).
  by move=> sA; apply/matrixP => i j; rewrite !mxE edgeC; case: ifP => // _; have := congr1 (fun B : 'M[R]_n => B i j) sA; rewrite mxE.
have sUK : sym (U + K) by rewrite /sym linearD /= sU sK.
split; [exact: pK | exact: hZ | split; [exact: hU | rewrite hU; exact: sym_off] | rewrite hZ; exact: sym_on |].
rewrite hZ hU eI eA; split=> [|z0].
  apply/matrixP => i j; rewrite !mxE; case: ifP => h; last by rewrite subrr mulr0.
  by rewrite u0 // subr0; move: (C i j : R) (Z i j : R) (K i j : R); clear; move=> x y z; mcring.
apply/matrixP => i j; rewrite !mxE; case: ifP => h; first by rewrite mulr0.
by rewrite z0 ?h //; move: (C i j : R) (U i j : R) (K i j : R); clear; move=> x y z; mcring.
Qed.
End Body.

(** the loop: after any number of iterations *)
Definition glx_inv n (N : 'M[bool]_n) (s : gl_state n) : Prop :=
  [/\ 0 < gl_rho s, sym (gl_Z s), sym (gl_U s) & forall i j, edge N i j -> gl_U s i j = 0].
Definition glx_later n (N : 'M[bool]_n) (s : gl_state n) : Prop :=
  [/\ glx_inv N s, gl_Zold s = gl_Z s, gl_Z s = on_graph N (gl_K s) & pd (gl_K s)].
Lemma on_off n (N : 'M[bool]_n) (A : 'M[R]_n) : (forall i j, ~~ edge N i j -> A i j = 0) -> on_graph N A = A.
Proof. by move=> h; apply/matrixP => i j; rewrite mxE; case: ifP => // /negbT /h ->. Qed.
Lemma glx_next n (eigh : eigh_t n) (C : 'M[R]_n) (N : 'M[bool]_n) (p : gl_params) j s : eigh_ok eigh -> sym C -> (forall i, N i i) ->
  gl_over_relax p = 1 -> 0 < tau_inc (gl_rho_options p) -> 0 < tau_dec (gl_rho_options p) -> glx_inv N s ->
  let o := glx_body eigh C (penalties N) p j s in
  glx_later N (out_state o.1) /\
  (is_break o.1 -> glx_later N s -> let K := gl_K (out_state o.1) in
    np_norm (on_graph N (invmx K - C)) <= sqrt ((n * n)%:R) * gl_tol p + gl_rtol p * np_norm (off_graph N (invmx K - C)) /\
    np_norm (off_graph N K) <= sqrt ((n * n)%:R) * gl_tol p + gl_rtol p * np_max (np_norm K) (np_norm (on_graph N K))).
Proof.
move=> He sC dN ov ti td [r0 sZ sU u0]; rewrite /glx_body ov.
case e: (glx_updates _ _ _ _ _ _ _) => [[K Z'] U'].
have [pK hZ [hU sU'] sZ' [g1 g2]] := glx_step He sC dN r0 sZ sU u0 e.
have u0' i k : edge N i k -> U' i k = 0 by move=> h; rewrite hU mxE h.
set check := Convergence _ _ _ _ _; case: ifP => st /=; last first.
  split=> //; split=> //=; split=> //=.
  - by rewrite /update_rho; case: ifP => _; [exact: mulr_gt0 | case: ifP => _ //; exact: divr_gt0].
  - by rewrite /sym linearZ /= sU'.
  by move=> i k h; rewrite mxE u0' // mulr0.
split; first by split.
move=> _ [_ ez zK _]; move: st; rewrite /stop_test /= ez => /andP[h1 h2].
have z0 i k : ~~ edge N i k -> gl_Z s i k = 0 by move=> h; rewrite zK mxE (negbTE h).
have := g2 z0 => {}g2; split; last first.
  have eo : off_graph N K = K - Z' by apply/matrixP => i k; rewrite hZ !mxE; case: ifP => _; rewrite ?subrr ?subr0.
  by rewrite eo -hZ.
have r1 := ltW r0; rewrite g1 g2 (on_off z0) !normZ // mulrA; exact: h2.
Qed.

(** C200: in mode "gl" the returned precision is exactly zero outside the graph, after however many iterations; and when the solver stops without warning
    after its first iteration, it agrees on the graph with a positive definite K that satisfies the two conditions of the maximum likelihood given the graph -
    zero outside the graph, inverse equal to C on it - up to the two tolerances *)
Theorem C200_fit n (eigh : eigh_t n) pinvh (C : 'M[R]_n) (N : 'M[bool]_n) (p : gl_params) P it warned :
  eigh_ok eigh -> sym C -> (forall i, N i i) -> sym (pinvh (shrink95 C)) ->
  gl_over_relax p = 1 -> 0 < gl_rho0 p -> 0 < tau_inc (gl_rho_options p) -> 0 < tau_dec (gl_rho_options p) ->
  graphical_lasso_x eigh pinvh C (penalties N) p = Ok (P, it, warned) ->
  exists K, [/\ pd K, P = on_graph N K, (it < gl_max_iter p)%N &
    ~~ warned -> (0 < it)%N ->
    np_norm (on_graph N (invmx K - C)) <= sqrt ((n * n)%:R) * gl_tol p + gl_rtol p * np_norm (off_graph N (invmx K - C)) /\
    np_norm (off_graph N K) <= sqrt ((n * n)%:R) * gl_tol p + gl_rtol p * np_max (np_norm K) (np_norm P)].
Proof.
move=> He sC dN sI ov r0 ti td; rewrite /graphical_lasso_x; set s0 := gl_init _ _ _ _; set body := glx_body _ _ _ _.
have i0 : glx_inv N s0 by split=> //=; [rewrite /sym trmx0 | move=> i j _; rewrite mxE].
have nx j s : glx_inv N s -> glx_later N (out_state (body j s).1) by move=> h; exact: (proj1 (glx_next j He sC dN ov ti td h)).
have lat k : glx_later N (iter_state body 0 s0 k.+1).
  elim: k => [|k IH]; first exact: nx.
  by apply: nx; case: IH.
have [k [[k1 [k2 k3]] es ec ei ee]] := py_forP body (gl_max_iter p) 0 s0 [::] None.
rewrite ei es ee; case: k k1 k2 k3 ec ei es ee => // k k1 k2 k3 _ _ _ _ [<- <- <-].
have [_ _ eZ pK] := lat k; exists (gl_K (iter_state body 0 s0 k.+1)); split=> //; rewrite add0n // => nw k0.
have br : is_break (body k (iter_state body 0 s0 k)).1.
  move: nw; rewrite negb_and negbK => /orP[ne|h]; last exact: h.
  have lt : (k.+1 < gl_max_iter p)%N by rewrite ltn_neqAle ne k1.
  by have [_] := k3 lt; rewrite add0n.
have hl : glx_later N (iter_state body 0 s0 k) by case: (k) k0 => // k' _; exact: lat.
have hi : glx_inv N (iter_state body 0 s0 k) by case: hl.
have [_ /(_ br hl)] := glx_next k He sC dN ov ti td hi.
by rewrite eZ /= add0n.
Qed.
Print Assumptions C200_fit.

(** so do all the fits of bayesian_graphical_lasso, with its default mode: C is the one of the posterior *)
Theorem C200_posterior p (empcov : seq 'rV[R]_p -> res 'M[R]_p) (eigh : eigh_t p) pinvh X (N : 'M[bool]_p) d0 S0 E P it warned :
  eigh_ok eigh -> (forall A : 'M[R]_p, sym A -> sym (pinvh A)) -> mask_ok N -> empcov X = Val E -> sym E -> sym S0 ->
  gw_fit_gl empcov eigh pinvh X N d0 S0 = Val (Ok (P, it, warned)) ->
  let tol := 10%:R ^- 4 in let C := ((size X)%:R + d0 - 2%:R)^-1 *: ((size X)%:R *: E + S0) in
  (forall i j, ~~ (N i j || N j i) -> P i j = 0) /\
  exists K, [/\ pd K, (forall i j, N i j || N j i -> P i j = K i j), (it < 100)%N &
    ~~ warned -> (0 < it)%N ->
    np_norm (on_graph N (invmx K - C)) <= p%:R * tol + tol * np_norm (off_graph N (invmx K - C)) /\
    np_norm (off_graph N K) <= p%:R * tol + tol * np_max (np_norm K) (np_norm P)].
Proof.
move=> He hp [dN _] eE sE sS eV tol C; rewrite /gw_fit_gl eE in eV.
have eR : graphical_lasso_x eigh pinvh C (penalties N) gl_defaults = Ok (P, it, warned) by case: eV.
have sC : sym C by rewrite /sym /C linearZ /= linearD /= linearZ /= sE sS.
have sh : sym (shrink95 C).
  by apply/matrixP => i j; rewrite !mxE eq_sym; have := congr1 (fun B : 'M[R]_p => B i j) sC; rewrite !mxE => ->.
have z1 : 0 < tau_inc (gl_rho_options gl_defaults) by rewrite /= ltr0n.
have z2 : 0 < tau_dec (gl_rho_options gl_defaults) by rewrite /= ltr0n.
have [K [pK eP hi h]] := C200_fit He sC dN (hp _ sh) (erefl : gl_over_relax gl_defaults = 1) (ltr01 : 0 < gl_rho0 gl_defaults) z1 z2 eR.
split=> [i j /negbTE e|]; first by rewrite eP mxE /edge e.
have sq : sqrt (p * p)%:R = p%:R by rewrite natrM; apply: sqrt_square; apply/RleP; rewrite ler0n.
exists K; split=> // [i j e|nw i0]; first by rewrite eP mxE /edge e.
by have := h nw i0; rewrite sq.
Qed.
Print Assumptions C200_posterior.

(** and the points where the iteration rests are exactly the maximum likelihood estimates given the graph (C94) *)
Theorem C200_rests n (eigh : eigh_t n) (C : 'M[R]_n) (N : 'M[bool]_n) (rho : R) P : eigh_ok eigh -> sym C -> (forall i, N i i) -> 0 < rho ->
  ((exists K U, glx_updates eigh C (penalties N) 1 rho P U = (K, P, U)) <->
   [/\ pd P, (forall i j, ~~ (N i j || N j i) -> P i j = 0) & forall i j, N i j || N j i -> invmx P i j = C i j]).
Proof.
move=> He sC dN r0; have rv : 0 < rho^-1 by rewrite invr_gt0.
split.
  case=> K [U []]; rewrite subrr scale0r subr0 scale1r div1r => eK eZ eU.
  have sCA : sym (C - rho *: gl_A P U) by apply: gl_sSA.
  have [pK eI] := prox_logdet_spec He sCA rv; rewrite eK invrK in pK eI.
  have eP : K = P.
    move: eU; rewrite eZ eK => h; have : U + (K - P) - U = 0 by rewrite h subrr.
    by rewrite addrC addKr => /eqP; rewrite subr_eq0 => /eqP.
  have ent i j : P i j = if edge N i j then P i j + U i j else 0.
    by rewrite -[in LHS]eZ thr_entry // mxE eK eP.
  have u0 i j : edge N i j -> U i j = 0.
    by move=> h; have := ent i j; rewrite h -{1}[P i j]addr0 => /addrI.
  rewrite eP in pK eI; split=> // [i j /negbTE h|i j h]; first by have := ent i j; rewrite /edge h.
  have h' : edge N j i by rewrite edgeC.
  have sP : P j i = P i j by have := congr1 (fun B : 'M[R]_n => B i j) (pd_sym pK); rewrite mxE.
  rewrite eI /gl_A !mxE (u0 _ _ h) (u0 _ _ h') !subr0 sP; move: (C i j : R) (P i j : R); clear; move=> x y.
  by mcfield.
case=> pP z st; have sP := pd_sym pP.
have sI : sym (invmx P) by apply: pd_sym; exact: pd_inv.
pose U := rho^-1 *: off_graph N (invmx P - C).
have sU : sym U.
  apply/matrixP => i j; rewrite !mxE edgeC; case: ifP => // _.
  by have := congr1 (fun B : 'M[R]_n => B i j) sI; have := congr1 (fun B : 'M[R]_n => B i j) sC; rewrite !mxE => -> ->.
have eA : gl_A P U = P - U by rewrite /gl_A linearB /= sP sU -mulr2n -scaler_nat scalerA mulVf ?scale1r // pnatr_eq0.
have eK : prox_logdet eigh (C - rho *: gl_A P U) rho^-1 = P.
  apply: prox_logdet_char => //; first by apply: gl_sSA.
  rewrite invrK eA; apply/matrixP => i j; rewrite !mxE; case: ifP => h.
    by rewrite st // mulr0 subr0 subrK.
  have rn : rho != 0 by rewrite gt_eqF.
  by move: (C i j : R) (P i j : R) (invmx P i j : R) rn => x y w rn; rewrite mulrBr mulrA divff // mul1r; move: (rho * y); clear; move=> v; mcring.
have eZ : soft_off_diagonal_x (P + U) (fun i j => omap (fun a => a / rho) (penalties N i j)) = P.
  apply/matrixP => i j; rewrite thr_entry // !mxE; case: ifP => h; first by rewrite h mulr0 addr0.
  by rewrite z // -/(edge N i j) h.
exists P, U; rewrite /glx_updates subrr scale0r subr0 scale1r div1r eK eZ.
by rewrite subrr addr0.
Qed.
Print Assumptions C200_rests.

Lemma glx_ok n (eigh : eigh_t n) pinvh (C : 'M[R]_n) alpha p : (0 < gl_max_iter p)%N ->
  exists P it w, graphical_lasso_x eigh pinvh C alpha p = Ok (P, it, w).
Proof.
move=> m0; rewrite /graphical_lasso_x.
have [k [[_ [_ k3]] _ _ -> _]] := py_forP (glx_body eigh C alpha p) (gl_max_iter p) 0 (gl_init pinvh C p InitEmpirical) [::] None.
by case: k k3 => [/(_ m0) []|k _] //; do 3 eexists.
Qed.
(** a case: two variables without an edge. From the covariance with the entries 2, 1, 2 the solver leaves the off-diagonal entry at zero *)
Example C200_case : exists (eigh : eigh_t 2) pinvh (C : 'M[R]_2) (N : 'M[bool]_2) P it warned, let p := gl_defaults in
  [/\ eigh_ok eigh /\ (forall A : 'M[R]_2, sym A -> sym (pinvh A)), sym C /\ C 0 1 = 1, mask_ok N,
      graphical_lasso_x eigh pinvh C (penalties N) p = Ok (P, it, warned) & P 0 1 = 0].
Proof.
have [eigh He] := eigh_exists 2.
pose C : 'M[R]_2 := \matrix_(i, j) if i == j then 2%:R else 1; pose N : 'M[bool]_2 := \matrix_(i, j) (i == j).
have sC : sym C by apply/matrixP => i j; rewrite !mxE eq_sym.
have mN : mask_ok N by split=> [i|i j]; rewrite mxE ?eqxx // => /eqP ->.
have [P [it [w e]]] := glx_ok eigh (@invmx _ 2) C (penalties N) (isT : (0 < gl_max_iter gl_defaults)%N).
have sI (A : 'M[R]_2) : sym A -> sym (invmx A) by rewrite /sym trmx_inv => ->.
exists eigh, (@invmx _ 2), C, N, P, it, w; split=> //; first by split=> //; rewrite mxE.
have z1 : 0 < tau_inc (gl_rho_options gl_defaults) by rewrite /= ltr0n.
have sh : sym (shrink95 C) by apply/matrixP => i j; rewrite !mxE ![j == i]eq_sym.
have [K [_ -> _ _]] := C200_fit He sC mN.1 (sI _ sh) (erefl : gl_over_relax gl_defaults = 1) (ltr01 : 0 < gl_rho0 gl_defaults) z1 z1 e.
by rewrite mxE /edge !mxE.
Qed.
