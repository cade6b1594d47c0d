(** Proofs about group_lasso_overlap. *)
From Coq Require Import Reals Lra Psatz.
From mathcomp Require Import all_ssreflect all_algebra.
From Verif Require Import RStruct RTac LinTac S_Mat RMx ADMM NP M_Prox M_Loop P_Prox P_Loop P_GL P_GL2 P_LGL P_Rules.
From Verif Require Import S_Linear M_Linear P_Linear P_Linear2 P_Linear3.
Import Order.TTheory GRing.Theory Num.Theory.

Set Implicit Arguments.
Unset Strict Implicit.
Unset Printing Implicit Defensive.
Local Open Scope ring_scope.

Lemma D_functionE groups e : D_function groups e = (count (fun g : seq nat => e \in g) groups)%:R.
Proof.
rewrite /D_function -[RHS]add0r; elim: groups (0 : R) => [|g gs IH] a //=; first by rewrite addr0.
by rewrite IH; case: (e \in g); rewrite ?add0n // natrD addrA.
Qed.
Definition psum (x : seq (seq R)) (groups : seq (seq nat)) (e : nat) : R :=
  \sum_(xg <- zip x groups | e \in xg.2) nth 0 xg.1 (index e xg.2).
Lemma P_star_foldl x e gs k acc : size x = (k + size gs)%N ->
  foldl (P_star_acc x e) acc (zip (iota k (size gs)) gs) =
  (acc.1 + psum (drop k x) gs e, (acc.2 + count (fun g : seq nat => e \in g) gs)%N).
Proof.
elim: gs k acc => [|g gs IH] k [a c] /= hs.
  by rewrite /psum; case: (drop k x) => [|? ?]; rewrite big_nil addr0 addn0.
have hk : (k < size x)%N by rewrite hs -[X in (X < _)%N]addn0 ltn_add2l.
rewrite IH ?addSnnS // (drop_nth [::] hk) /psum /= big_cons /P_star_acc /=.
by case: (e \in g) => /=; rewrite ?addrA ?add0n // addSnnS add1n.
Qed.
Lemma P_starE x groups e : size x = size groups ->
  P_star_x_bar x groups e = psum x groups e / (count (fun g : seq nat => e \in g) groups)%:R.
Proof.
move=> hs; rewrite /P_star_x_bar P_star_foldl //= drop0 add0r add0n.
case: posnP => // /eqP c0; have : psum x groups e = 0; last by move=> ->; rewrite mul0r.
rewrite /psum big1_seq // => [[a g]] /andP[/= eg hin].
move: c0; rewrite eqn0Ngt -has_count => /hasP []; exists g => //.
by move: hin => /(map_f snd) /=; rewrite -/(unzip2 _) unzip2_zip ?hs.
Qed.

(** * consensus *)
Lemma entry_sum (F : R -> R) (x : seq R) (g : seq nat) e : uniq g -> size x = size g ->
  \sum_(ae <- zip x g | ae.2 == e) F ae.1 = if e \in g then F (nth 0 x (index e g)) else 0.
Proof.
elim: g x => [|a g IH] [|c x] //=; first by rewrite big_nil.
move=> /andP[ag ug] [hs]; rewrite big_cons /= inE [e == a]eq_sym.
rewrite IH //; case: (eqVneq a e) => [ea|ne] //=.
by rewrite -ea (negbTE ag) addr0.
Qed.
Lemma entry_count (x : seq R) (g : seq nat) e : uniq g -> size x = size g ->
  \sum_(ae <- zip x g | ae.2 == e) (1 : R) = (e \in g)%:R.
Proof. by move=> ug hs; rewrite (entry_sum (fun=> 1) _ ug hs); case: (e \in g). Qed.

Section Consensus.
Variables (x : seq (seq R)) (groups : seq (seq nat)).
Hypothesis ss : same_shape x groups.
Hypothesis ug : all uniq groups.
Local Notation P := (P_star_x_bar x groups).
Lemma shape_size : size x = size groups.
Proof. by have := congr1 size ss; rewrite !size_map. Qed.
Lemma zip_ok xg : xg \in zip x groups -> uniq xg.2 /\ size xg.1 = size xg.2.
Proof.
move: ss ug; rewrite /same_shape; elim: x groups => [|a s IH] [|g gs] //= [e1 e2] /andP[u1 u2].
by rewrite inE => /orP[/eqP ->|] //; exact: IH.
Qed.
(** residuals at a variable sum to zero *)
Lemma resid0 e : \sum_(xg <- zip x groups) \sum_(ae <- zip xg.1 xg.2 | ae.2 == e) (ae.1 - P e) = 0.
Proof.
have -> : \sum_(xg <- zip x groups) \sum_(ae <- zip xg.1 xg.2 | ae.2 == e) (ae.1 - P e) =
    psum x groups e - (count (fun g : seq nat => e \in g) groups)%:R * P e.
  rewrite /psum [X in X - _]big_mkcond /=.
  have -> : (count (fun g : seq nat => e \in g) groups)%:R * P e = \sum_(xg <- zip x groups) (e \in xg.2)%:R * P e.
    rewrite -mulr_suml; congr (_ * _); rewrite -sum1_count natr_sum big_mkcond /=.
    rewrite -[in LHS](unzip2_zip (s := x) (t := groups)) ?shape_size // big_map; apply: eq_bigr => i _.
    by case: (e \in i.2).
  rewrite -sumrB big_seq [RHS]big_seq; apply: eq_bigr => xg /zip_ok [u s].
  rewrite (entry_sum (fun a => a - P e) _ u s); case: ifP => _; by rewrite ?mul1r // mul0r subr0.
rewrite P_starE ?shape_size //; set c := count _ _.
case: (posnP c) => [c0|cp]; last by rewrite mulrC divfK ?subrr // pnatr_eq0 -lt0n.
rewrite c0 mul0r subr0 /psum big1_seq // => [[a g]] /andP[/= eg hin].
move/eqP: c0; rewrite eqn0Ngt -has_count => /hasP []; exists g => //.
by move: hin => /(map_f snd) /=; rewrite -/(unzip2 _) unzip2_zip ?shape_size.
Qed.
Lemma cross0 (w : nat -> R) : \sum_(xg <- zip x groups) \sum_(ae <- zip xg.1 xg.2) (ae.1 - P ae.2) * w ae.2 = 0.
Proof.
pose s := undup (flatten groups).
have hw xg : xg \in zip x groups -> forall ae, ae \in zip xg.1 xg.2 ->
    (ae.1 - P ae.2) * w ae.2 = \sum_(e <- s) (if ae.2 == e then (ae.1 - P e) * w e else 0).
  move=> hxg ae hae; have [u sz] := zip_ok hxg.
  have hs : ae.2 \in s.
    rewrite mem_undup; apply/flattenP; exists xg.2.
      by move: hxg => /(map_f snd) /=; rewrite -/(unzip2 _) unzip2_zip ?shape_size.
    by move: hae => /(map_f snd) /=; rewrite -/(unzip2 _) unzip2_zip ?sz.
  rewrite (bigD1_seq ae.2) ?undup_uniq //= eqxx big1 ?addr0 // => e ne.
  by rewrite eq_sym (negbTE ne).
rewrite big_seq (eq_bigr (fun xg => \sum_(e <- s) \sum_(ae <- zip xg.1 xg.2) (if ae.2 == e then (ae.1 - P e) * w e else 0))); last first.
  move=> xg hxg; rewrite exchange_big /= big_seq [RHS]big_seq; apply: eq_bigr => ae hae; exact: (hw _ hxg _ hae).
rewrite -big_seq exchange_big /= big1 // => e _.
rewrite (eq_bigr (fun xg => (\sum_(ae <- zip xg.1 xg.2 | ae.2 == e) (ae.1 - P e)) * w e)).
  by rewrite -mulr_suml resid0 mul0r.
by move=> xg _; rewrite mulr_suml -big_mkcond.
Qed.
Lemma pythagoras (v : nat -> R) : disagreement x groups v =
  disagreement x groups P + \sum_(xg <- zip x groups) \sum_(ae <- zip xg.1 xg.2) (P ae.2 - v ae.2) ^+ 2.
Proof.
have h := cross0 (fun e => 2%:R * (P e - v e)).
rewrite -[RHS]addr0 -[X in _ = _ + X]h /disagreement -!big_split /=; apply: eq_bigr => xg _.
rewrite -!big_split /=; apply: eq_bigr => ae _.
by move: (ae.1) (P ae.2) (v ae.2) => a b c; mcring.
Qed.
Lemma consensus_min v : disagreement x groups P <= disagreement x groups v.
Proof.
rewrite (pythagoras v) ler_addl; apply: sumr_ge0 => xg _; apply: sumr_ge0 => ae _; exact: sqr_ge0.
Qed.
Lemma consensus_unique v : disagreement x groups v <= disagreement x groups P ->
  forall e, e \in flatten groups -> v e = P e.
Proof.
rewrite (pythagoras v) ger_addl => h e /flattenP [g hg eg].
have : exists2 a, (a, g) \in zip x groups & size a = size g.
  have hg' : g \in unzip2 (zip x groups) by rewrite unzip2_zip ?shape_size.
  case/mapP: hg' => [[a g'] h1 /= e1]; exists a; rewrite e1 //.
  by have [] := zip_ok h1.
case=> a ha sa; have : exists c, (c, e) \in zip a g.
  have eg' : e \in unzip2 (zip a g) by rewrite unzip2_zip ?sa.
  by case/mapP: eg' => [[c e'] h1 /= ->]; exists c.
case=> c hce; have h0 : \sum_(xg <- zip x groups) \sum_(ae <- zip xg.1 xg.2) (P ae.2 - v ae.2) ^+ 2 = 0.
  apply/eqP; rewrite eq_le h /=; apply: sumr_ge0 => xg _; apply: sumr_ge0 => ae _; exact: sqr_ge0.
move/eqP: h0; rewrite big_seq psumr_eq0; last by move=> xg _; apply: sumr_ge0 => ae _; exact: sqr_ge0.
move/allP => /(_ _ ha); rewrite ha /= big_seq psumr_eq0; last by move=> ae _; exact: sqr_ge0.
move/allP => /(_ _ hce); rewrite hce /= sqrf_eq0 subr_eq0 => /eqP; by [].
Qed.
End Consensus.

(** * the iteration *)
(** every group holds a copy of the same vector *)
Definition copies_of (groups : seq (seq nat)) (X : nat -> R) : seq (seq R) := [seq [seq X e | e <- g] | g <- groups].

Lemma size_copies groups X : size (copies_of groups X) = size groups.
Proof. exact: size_map. Qed.
Lemma P_star_copies groups X e : P_star_x_bar (copies_of groups X) groups e = if e \in flatten groups then X e else 0.
Proof.
rewrite P_starE ?size_copies //.
have -> : psum (copies_of groups X) groups e = (count (fun g : seq nat => e \in g) groups)%:R * X e.
  rewrite /psum /copies_of; elim: groups => [|g gs IH] /=; first by rewrite big_nil mul0r.
  rewrite big_cons /= IH natrD mulrDl; case: ifP => eg; last by rewrite mul0r add0r.
  by rewrite mul1r (nth_map 0%N) ?nth_index ?index_mem.
case: ifP => [/flattenP [g hg eg]|ne].
  rewrite mulrAC divff ?mul1r // pnatr_eq0 -lt0n -has_count; apply/hasP; by exists g.
have -> : count (fun g : seq nat => e \in g) groups = 0%N; last by rewrite mul0r mul0r.
apply/eqP; rewrite eqn0Ngt -has_count; apply/negP => /hasP [g hg eg].
by move/negP: ne; apply; apply/flattenP; exists g.
Qed.
Lemma zip_maps T U V (f : T -> U) (g : T -> V) s : zip (map f s) (map g s) = [seq (f x, g x) | x <- s].
Proof. by elim: s => //= a s ->. Qed.
Lemma ov_x_copies lamda rho groups X Y :
  ov_x_update lamda rho (copies_of groups X) (copies_of groups Y) =
  copies_of groups (fun e => soft1 (X e - Y e / rho) (lamda / rho)).
Proof.
rewrite /ov_x_update /copies_of zip_maps -map_comp; apply: eq_map => g /=.
by rewrite zip_maps -map_comp.
Qed.
Lemma ov_y_copies d rho groups X Y (z : 'cV[R]_d) :
  ov_y_update rho groups (copies_of groups X) (copies_of groups Y) z =
  copies_of groups (fun e => Y e + rho * (X e - at_idx z e)).
Proof.
rewrite /ov_y_update /copies_of.
have -> : zip [seq [seq X e | e <- g] | g <- groups] groups = [seq ([seq X e | e <- g], g) | g <- groups].
  by elim: groups => //= a s ->.
rewrite zip_maps -map_comp; apply: eq_map => g /=.
have -> : zip [seq X e | e <- g] g = [seq (X e, e) | e <- g] by elim: g => //= a s ->.
by rewrite zip_maps -map_comp.
Qed.
Lemma at_idxE d (z : 'cV[R]_d) (i : 'I_d) : at_idx z i = z i 0.
Proof. by rewrite /at_idx insubT ?ltn_ord // => h; congr (z _ _); apply: val_inj. Qed.

Lemma addmxE m n (M N : 'M[R]_(m, n)) i j : (M + N) i j = M i j + N i j. Proof. by rewrite mxE. Qed.
Lemma submxE m n (M N : 'M[R]_(m, n)) i j : (M - N) i j = M i j - N i j. Proof. by rewrite !mxE. Qed.
Lemma scalemxE m n a (M : 'M[R]_(m, n)) i j : (a *: M) i j = a * M i j. Proof. by rewrite mxE. Qed.
Lemma ovDE d groups (v : 'cV[R]_d) i : (ov_D d groups *m v) i 0 = D_function groups i * v i 0.
Proof. by rewrite /ov_D mul_diag_mx !mxE. Qed.

Section Overlap.
Variables (m d : nat) (A : 'M[R]_(m, d)) (b : 'cV[R]_m) (groups : seq (seq nat)) (Minv : 'M[R]_d)
  (obj : seq (seq R) -> 'cV[R]_d -> xR) (p : ov_params).
Local Notation body := (ov_body A b groups Minv obj p).
Local Notation rho := (ov_rho p).
Local Notation lam := (ov_lamda p).
Lemma ov_body_x k s : ov_x (out_state (body k s).1) = ov_x_update lam rho (ov_x s) (ov_y s).
Proof. by rewrite /ov_body; case: ifP => // _; case: ifP. Qed.
Lemma ov_body_z k s : ov_z (out_state (body k s).1) = ov_z_update A b groups Minv rho (ov_x (out_state (body k s).1)) (ov_y s).
Proof. by rewrite /ov_body; case: ifP => // _; case: ifP. Qed.
Lemma ov_body_y k s : ov_y (out_state (body k s).1) =
  ov_y_update rho groups (ov_x (out_state (body k s).1)) (ov_y s) (ov_z (out_state (body k s).1)).
Proof. by rewrite /ov_body; case: ifP => // _; case: ifP. Qed.

Definition agree (s : ov_state d) : Prop :=
  exists X Y, ov_x s = copies_of groups X /\ ov_y s = copies_of groups Y.
Lemma agree_init : agree (ov_init d groups).
Proof.
have e : [seq nseq (size g) 0 | g <- groups] = copies_of groups (fun=> 0).
  by rewrite /copies_of; apply: eq_map => g; elim: g => //= a s ->.
by exists (fun=> 0), (fun=> 0); rewrite /= e.
Qed.
Lemma agree_step k s : agree s -> agree (out_state (body k s).1).
Proof.
move=> [X [Y [ex ey]]]; rewrite /agree ov_body_y ov_body_x ex ey ov_x_copies ov_y_copies.
by eexists; eexists; split; reflexivity.
Qed.

Hypothesis r0 : 0 < rho.
Hypothesis l0 : 0 <= lam.
Hypothesis hinv : (A^T *m A + rho *: ov_D d groups) *m Minv = 1%:M.

Lemma group_l1E (x : 'cV[R]_d) : \sum_(g <- groups) \sum_(i < d | (i : nat) \in g) `|x i 0| =
  \sum_(i < d) D_function groups i * `|x i 0|.
Proof.
rewrite (eq_bigr (fun g : seq nat => \sum_(i < d) ((i : nat) \in g)%:R * `|x i 0|)); last first.
  by move=> g _; rewrite big_mkcond; apply: eq_bigr => i _; case: ifP; rewrite ?mul1r ?mul0r.
rewrite exchange_big; apply: eq_bigr => i _; rewrite -mulr_suml D_functionE; congr (_ * _).
by rewrite -sum1_count natr_sum [RHS]big_mkcond /=; apply: eq_bigr => g _; case: ifP.
Qed.

Lemma ov_fixed k s : agree s ->
  ov_x (out_state (body k s).1) = ov_x s -> ov_y (out_state (body k s).1) = ov_y s -> ov_z (out_state (body k s).1) = ov_z s ->
  minimiser (@everywhere _) (group_l1_problem A b lam groups) (ov_z s).
Proof.
move=> [X [Y [eX eY]]] hx hy hz; split=> // w _; set z := ov_z s.
have cov (e : nat) (F G : nat -> R) : copies_of groups F = copies_of groups G -> e \in flatten groups -> F e = G e.
  move=> h /flattenP [g hg eg].
  have : nth [::] (copies_of groups F) (index g groups) = nth [::] (copies_of groups G) (index g groups) by rewrite h.
  rewrite !(nth_map [::]) ?index_mem // nth_index // => h2.
  have : nth 0 [seq F e | e <- g] (index e g) = nth 0 [seq G e | e <- g] (index e g) by rewrite h2.
  by rewrite !(nth_map 0%N) ?index_mem // nth_index.
have fx : forall i : 'I_d, (i : nat) \in flatten groups -> soft1 (X i - Y i / rho) (lam / rho) = X i.
  by move=> i hi; move: hx; rewrite ov_body_x eX eY ov_x_copies => /cov /(_ hi).
have fz : forall i : 'I_d, (i : nat) \in flatten groups -> X i = z i 0.
  move=> i hi; move: hy; rewrite ov_body_y hx hz eX eY ov_y_copies -/z => /cov /(_ hi).
  rewrite at_idxE => h; have : rho * (X i - z i 0) = 0 by apply: (addrI (Y i)); rewrite addr0.
  by move/eqP; rewrite mulf_eq0 gt_eqF //= subr_eq0 => /eqP.
have D0 (i : 'I_d) : (i : nat) \notin flatten groups -> D_function groups i = 0.
  move=> hi; rewrite D_functionE; case: (posnP (count (fun g : seq nat => (i : nat) \in g) groups)) => [->//|]; rewrite -has_count => /hasP [g hg ig].
  by case/negP: hi; apply/flattenP; exists g.
have Dge (i : 'I_d) : 0 <= D_function groups i by rewrite D_functionE ler0n.
have gradE (i : 'I_d) : ls_grad A b z i 0 = D_function groups i * Y i.
  have : (A^T *m A + rho *: ov_D d groups) *m z =
      A^T *m b + ov_D d groups *m (P_star_vec d (ov_y s) groups + rho *: P_star_vec d (ov_x s) groups).
    by rewrite /z -[in LHS]hz ov_body_z hx /ov_z_update mulmxA hinv mul1mx.
  rewrite mulmxDl -scalemxAl /ls_grad mulmxBr mulmxA => /matrixP /(_ i 0).
  rewrite addmxE scalemxE ovDE addmxE ovDE addmxE scalemxE ![P_star_vec _ _ _ _ _]mxE eX eY !P_star_copies.
  rewrite submxE; case: (boolP ((i : nat) \in flatten groups)) => hi.
    rewrite (fz i hi); move: ((A^T *m A *m z) i 0) ((A^T *m b) i 0) (z i 0) (D_function groups i) (Y i) => c1 c2 c3 c4 c5 h; mclra.
  by rewrite (D0 i hi) !mul0r mulr0 !addr0 => ->; rewrite subrr.
have e1 : forall x, group_l1_problem A b lam groups x = ls_f A b x + lam * \sum_(i < d) D_function groups i * `|x i 0|.
  by move=> x; rewrite /group_l1_problem group_l1E /ls_f [2%:R^-1 * _]mulrC.
rewrite !e1 (ls_f_exp A b z w).
have h2 : 0 <= 2%:R^-1 * fnorm2 (A *m (w - z)) by apply: mulr_ge0; [rewrite invr_ge0 ler0n | exact: fnorm2_ge0].
suff : lam * (\sum_(i < d) D_function groups i * `|z i 0|) <= fdot (ls_grad A b z) (w - z) + lam * (\sum_(i < d) D_function groups i * `|w i 0|).
  by move: (ls_f A b z) (fdot _ _) (2%:R^-1 * _) h2 (lam * _) (lam * _) => c1 c2 c3 h2 c4 c5 h; mclra.
rewrite /fdot !mulr_sumr -big_split /=; apply: ler_sum => i _; rewrite big_ord_recl big_ord0 addr0 gradE.
rewrite submxE.
case: (boolP ((i : nat) \in flatten groups)) => hi; last by rewrite (D0 i hi) !mul0r mulr0 add0r.
rewrite -mulrA !(mulrCA lam) -mulrDr; apply: ler_wpmul2l => //.
have h3 := soft1_strong (X i - Y i / rho) (z i 0 + 0) (divr_ge0 l0 (ltW r0)).
have := soft_subgrad (const_mx (X i - Y i / rho) : 'M[R]_1) (const_mx (w i 0)) (divr_ge0 l0 (ltW r0)).
rewrite /l1 /fdot !big_ord_recl !big_ord0 !mxE !addr0 (fx i hi) (fz i hi) => h4.
have h5 := ler_wpmul2l (ltW r0) h4.
have e5 u : rho * (lam / rho * u) = lam * u by rewrite mulrA [rho * _]mulrC divfK ?gt_eqF.
move: h5; rewrite mulrDr !e5.
have -> : rho * ((z i 0 - Y i / rho - z i 0) * (w i 0 - z i 0)) = - (Y i * (w i 0 - z i 0)).
  have : rho != 0 by rewrite gt_eqF.
  by move: (z i 0 : R) (w i 0 : R) (Y i : R) (rho : R) => c1 c2 c3 r rn; mcfield.
by move: (lam * _) (lam * _) (Y i * _) => c1 c2 c3 h; mclra.
Qed.
End Overlap.
