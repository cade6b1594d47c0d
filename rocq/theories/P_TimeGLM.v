(** Proofs about the temporal generalised linear models. *)
From Coq Require Import FunctionalExtensionality Reals Lra Psatz.
From mathcomp Require Import all_ssreflect all_algebra.
From Verif Require Import Calc RStruct RTac LinTac Spectral S_Mat RMx ADMM NP M_Prox M_Loop M_GL M_LGL M_TGL M_KTGL M_Stab P_Prox P_Rules M_GLM S_GLM P_GLM P_GLM2 P_GLM5 M_TimeGLM.
Import Order.TTheory GRing.Theory Num.Theory.

Set Implicit Arguments.
Unset Strict Implicit.
Unset Printing Implicit Defensive.
Local Open Scope ring_scope.

Section Inv.
Variables (n T : nat).
Definition ezd (E : edges n T * edges n T) := forall e, zdiag (E.1 e) /\ zdiag (E.2 e).
Lemma zdB (A B : 'M[R]_n) : zdiag A -> zdiag B -> zdiag (A - B).
Proof. by move=> a b i; rewrite !mxE a b subrr. Qed.
Lemma zdD (A B : 'M[R]_n) : zdiag A -> zdiag B -> zdiag (A + B).
Proof. by move=> a b i; rewrite !mxE a b addr0. Qed.
Lemma zdZ c (A : 'M[R]_n) : zdiag A -> zdiag (c *: A).
Proof. by move=> a i; rewrite !mxE a mulr0. Qed.
Lemma zd0 : zdiag (0 : 'M[R]_n). Proof. by move=> i; rewrite mxE. Qed.
Lemma zd_sum (I : finType) (P : pred I) (F : I -> 'M[R]_n) : (forall i, P i -> zdiag (F i)) -> zdiag (\sum_(i | P i) F i).
Proof. by move=> h; apply: big_rec => [|i x Pi hx]; [exact: zd0 | apply: zdD => //; exact: h]. Qed.
Lemma symmetrise_zd (A : 'M[R]_n) : zdiag A -> zdiag (symmetrise A).
Proof. by move=> h i; rewrite symmetrise_diag. Qed.
Lemma A_interactions (Z U : edges n T * edges n T) t : ezd Z -> ezd U -> szd (time_glm_A Z U t).
Proof.
move=> hZ hU; rewrite /time_glm_A ffunE; split; first exact: symmetrise_sym.
apply: symmetrise_zd; apply: zdZ; rewrite !ffunE; apply: zdD.
  rewrite add0r; apply: zd_sum => e _; rewrite !ffunE; apply: zdB; [exact: (hZ e).1 | exact: (hU e).1].
apply: zd_sum => e _; rewrite !ffunE; apply: zdB; [exact: (hZ e).2 | exact: (hU e).2].
Qed.
Variable (prox_psi : 'M[R]_n -> R -> 'M[R]_n).
Hypothesis prox_zd : forall M l, zdiag M -> zdiag (prox_psi M l).
Lemma ZU_zd kernel rho (K : stack n T) (U : edges n T * edges n T) : (forall t, zdiag (K t)) -> ezd U ->
  ezd (time_glm_ZU prox_psi kernel rho K U).1 /\ ezd (time_glm_ZU prox_psi kernel rho K U).2.
Proof.
move=> hK hU.
have h1 e : zdiag ((lefts K + U.1) e) by rewrite !ffunE; apply: zdD => //; exact: (hU e).1.
have h2 e : zdiag ((rights K + U.2) e) by rewrite !ffunE; apply: zdD => //; exact: (hU e).2.
have hz : ezd (time_glm_ZU prox_psi kernel rho K U).1.
  move=> e; rewrite /time_glm_ZU /ktgl_edge_update /= !ffunE -?[lefts K e + _]ffunE /pair_update /=.
  have p0 := prox_zd _ (zdB (h2 e) (h1 e)).
  move: (h1 e) (h2 e) p0; rewrite !ffunE => q1 q2 p0.
  by split; apply: zdZ; [apply: zdB; [exact: zdD | exact: p0] | apply: zdD; [exact: zdD | exact: p0]].
split=> // e; have [q1 q2] := hz e.
have eU (A B C : edges n T) : (A + (B - C)) e = A e + (B e - C e) by rewrite !ffunE.
have kl : zdiag (lefts K e) by rewrite ffunE.
have kr : zdiag (rights K e) by rewrite ffunE.
by split; rewrite /= eU; apply: zdD; [exact: (hU e).1 | exact: zdB | exact: (hU e).2 | exact: zdB].
Qed.
End Inv.

Lemma all_some_in (I : finType) (A : Type) (f : I -> option A) dflt g : all_some f dflt = Some g ->
  forall t, f t = Some (g t).
Proof.
rewrite /all_some; case: ifP => // /forallP h [<-] t; by case: (f t) (h t).
Qed.
Section Ising.
Variables (n T m : nat) (psi : 'M[R]_n -> R) (prox_psi : 'M[R]_n -> R -> 'M[R]_n) (p : time_glm_params T).
Implicit Types X : 'I_T -> 'M[R]_(m.+1, n).
Definition tg_inv (s : time_glm_state n T) :=
  [/\ ezd (tg_Z s), ezd (tg_U s) & forall t, szd (tg_K s t)].
Lemma solve_szd X t rho A K : szd A -> time_ising_solve X p t rho A = Some K -> szd K.
Proof.
move=> hA; rewrite /time_ising_solve /ising_fit; case e : (glm_for _ _ _ _ _) => [[s l]|] //= [<-].
have [] : iall (@szd n) s; last by [].
apply: (@glm_for_inv _ (ising_body (X t) (time_ising_inner p rho A) 0) (iall (@szd n))) e.
  by move=> it s1 b s2 q eb; apply: body_szd eb => //; exact: hA.2.
have h0 : szd (0 : 'M[R]_n) by split; [exact: sym0 | exact: zd0].
by split=> [|t' /=]; rewrite ?inE // => /eqP ->.
Qed.
Lemma time_ising_inv X (prox_zd : forall M l, zdiag M -> zdiag (prox_psi M l)) it s b s' :
  tg_inv s -> time_glm_body (time_ising_solve X p) (fun t => ising_loss (X t)) psi prox_psi p it s = Some (b, s') ->
  tg_inv s'.
Proof.
move=> [hZ hU hK]; rewrite /time_glm_body.
case e : (all_some _ _) => [Knew|] //.
have hK' t : szd ([ffun t => Knew t] t : 'M[R]_n).
  rewrite ffunE; apply: (@solve_szd X t (tg_rho s) (time_glm_A (tg_Z s) (tg_U s) t)); first exact: A_interactions.
  exact: (all_some_in e).
have [] := ZU_zd prox_zd (tg_kernel_of p) (tg_rho s) (K := [ffun t => Knew t]) (fun t => (hK' t).2) hU.
case: (time_glm_ZU _ _ _ _ _) => Z U /= z1 z2.
case: ifP => _; first by case=> _ <-.
case: ifP => _; first by case=> _ <-.
by case=> _ <-; split=> //= e'; have [q1 q2] := z2 e'; split; rewrite ffunE; apply: zdZ.
Qed.
Lemma init_inv X : tg_inv (time_glm_init (fun t => ising_loss (X t)) psi p).
Proof.
split; [move=> e0; split; rewrite ffunE; exact: zd0 | move=> e0; split; rewrite ffunE; exact: zd0 |].
by move=> t; rewrite ffunE; split; [exact: sym0 | exact: zd0].
Qed.
Lemma time_ising_interactions X res : (forall M l, zdiag M -> zdiag (prox_psi M l)) ->
  fit_time_ising_model X psi prox_psi p = Some (Ok res) -> forall t, szd (tgr_K res t).
Proof.
move=> hp; rewrite /fit_time_ising_model /time_glm_fit; case e : (glm_for _ _ _ _ _) => [[s l]|] //= h.
have [_ _ hk] : tg_inv s.
  apply: (@glm_for_inv _ (time_glm_body (time_ising_solve X p) (fun t => ising_loss (X t)) psi prox_psi p) tg_inv) e.
    by move=> it s1 b s2; apply: time_ising_inv.
  split; [move=> e0; split; rewrite ffunE; exact: zd0 | move=> e0; split; rewrite ffunE; exact: zd0 |].
  by move=> t; rewrite ffunE; split; [exact: sym0 | exact: zd0].
move: h; case: ifP => _; [case: l e => [i|] e //|]; by case=> <-.
Qed.

(** *** first samples *)
Lemma time_glm_rel (S : Type) (b1 b2 : nat -> S -> option (bool * S)) (Q : S -> S -> Prop) :
  (forall it s1 s2, Q s1 s2 -> (b1 it s1 = None /\ b2 it s2 = None) \/
     exists b s1' s2', [/\ b1 it s1 = Some (b, s1'), b2 it s2 = Some (b, s2') & Q s1' s2']) ->
  forall todo it s1 s2 l, Q s1 s2 -> (glm_for b1 todo it s1 l = None /\ glm_for b2 todo it s2 l = None) \/
     exists s1' s2' l', [/\ glm_for b1 todo it s1 l = Some (s1', l'), glm_for b2 todo it s2 l = Some (s2', l') & Q s1' s2'].
Proof.
move=> hb; elim=> [|k IH] it s1 s2 l q /=; first by right; exists s1, s2, l.
have [[-> ->]|[b [t1 [t2 [-> -> q']]]]] := hb it s1 s2 q; first by left.
by case: b; [right; exists t1, t2, (Some it) | apply: IH].
Qed.
Definition tg_same (s s' : time_glm_state n T) : Prop :=
  [/\ tg_Z s = tg_Z s', tg_U s = tg_U s', tg_Zold s = tg_Zold s', tg_rho s = tg_rho s' & tg_K s = tg_K s'].
Definition result_K (r : option (py_result (time_glm_result n T))) : option (stack n T * option nat) :=
  if r is Some (Ok r') then Some (tgr_K r', tgr_n_iter r') else None.
Lemma time_glm_same (so1 so2 : 'I_T -> R -> 'M[R]_n -> option 'M[R]_n) (l1 l2 : 'I_T -> 'M[R]_n -> xR) :
  (forall t rho A, so1 t rho A = so2 t rho A) -> tg_stop_at p = None ->
  result_K (time_glm_fit so1 l1 psi prox_psi p) = result_K (time_glm_fit so2 l2 psi prox_psi p).
Proof.
move=> hX hs.
have hb it s1 s2 : tg_same s1 s2 ->
    (time_glm_body so1 l1 psi prox_psi p it s1 = None /\ time_glm_body so2 l2 psi prox_psi p it s2 = None) \/
     exists b s1' s2', [/\ time_glm_body so1 l1 psi prox_psi p it s1 = Some (b, s1'),
       time_glm_body so2 l2 psi prox_psi p it s2 = Some (b, s2') & tg_same s1' s2'].
  move=> [e1 e2 e3 e4 e5]; rewrite /time_glm_body e1 e2 e3 e4 hs.
  have -> : (fun t => so1 t (tg_rho s2) (time_glm_A (tg_Z s2) (tg_U s2) t))
       = (fun t => so2 t (tg_rho s2) (time_glm_A (tg_Z s2) (tg_U s2) t)).
    by apply: functional_extensionality.
  case: (all_some _ _) => [Kn|]; [right | by left].
  case: (time_glm_ZU _ _ _ _ _) => Z U; rewrite /stop_test /stop_at_test.
  cbn [c_rnorm c_snorm c_e_pri c_e_dual].
  by case: ifP => _; eexists; eexists; eexists; split; [reflexivity | reflexivity | | reflexivity | reflexivity | ].
have h0 : tg_same (time_glm_init l1 psi p) (time_glm_init l2 psi p) by [].
rewrite /time_glm_fit.
have [[-> ->]//|[s1 [s2 [l [-> -> [_ _ _ _ eK]]]]]] := time_glm_rel hb (tg_max_iter p) 0 None h0.
by rewrite /=; case: ifP => _; [case: l => [i|] //=|]; rewrite /= eK.
Qed.
Lemma time_ising_first X X' : (forall t, row 0 (X t) = row 0 (X' t)) -> tg_stop_at p = None ->
  result_K (fit_time_ising_model X psi prox_psi p) = result_K (fit_time_ising_model X' psi prox_psi p).
Proof.
move=> hX hs; rewrite /fit_time_ising_model.
apply: (@time_glm_same (time_ising_solve X p) (time_ising_solve X' p)); last exact: hs.
move=> t rho A.
rewrite /time_ising_solve; apply: ising_first_sample; last by [].
exact: hX.
Qed.

(** *** the recorded objective *)
Lemma ising_loss_nll k d (Y : 'M[R]_(k, d)) theta : sym theta -> ising_loss Y theta = Fin (ising_nll Y theta).
Proof.
move=> hs; rewrite /ising_loss hs eqxx /=; congr Fin.
rewrite /ising_nll /sample_mean div1r mulrC exchange_big /=; congr (_ / _).
by apply: eq_bigr => i _; apply: eq_bigr => r _; rewrite field_row.
Qed.
Lemma big_xadd_fin (I : finType) (F : I -> R) : \big[xadd/Fin 0]_i Fin (F i) = Fin (\sum_i F i).
Proof. by elim/big_rec2: _ => [|i y1 y2 _ ->]. Qed.
Definition rec_obj X K : R := - (\sum_t ising_nll (X t) (K t : 'M[R]_n)) + tg_alpha p * \sum_t l1od (K t).
Lemma objective_default X (K : stack n T) Z1 Z2 : tg_kernel p = None -> (forall t, sym (K t)) ->
  glm_time_objective (fun t => ising_loss (X t)) K Z1 Z2 (tg_alpha p) (tg_kernel_of p) psi = Fin (rec_obj X K).
Proof.
move=> hk hs; rewrite /glm_time_objective /tg_kernel_of hk /= [\sum_e psi _ * _]big1 => [|e _]; last first.
  rewrite mxE; have /ltn_eqF := valP e; rewrite -[X in X = _]/(t_l e == t_r e) => ->.
  by rewrite mulr0.
have -> : glm_time_loss (fun t => ising_loss (X t)) K = Fin (- \sum_t ising_nll (X t) (K t)).
  rewrite /glm_time_loss -sumrN -big_xadd_fin; apply: eq_bigr => t _.
  by rewrite ising_loss_nll //= mulN1r.
by rewrite /= addr0 /rec_obj; congr (Fin (_ + _ * _)); apply: eq_bigr => t _; rewrite l1_od_normE.
Qed.
Definition last_ok X (s : time_glm_state n T) : Prop :=
  tg_inv s /\ c_obj (last (Convergence NaN 0 0 0 0) (tg_checks s)) = Fin (rec_obj X (tg_K s)).
Lemma last_objective X res h : (forall M l, zdiag M -> zdiag (prox_psi M l)) -> tg_kernel p = None ->
  tg_compute_objective p ->
  fit_time_ising_model X psi prox_psi p = Some (Ok res) -> tgr_history res = Some h ->
  c_obj (last (Convergence NaN 0 0 0 0) h) = Fin (rec_obj X (tgr_K res)).
Proof.
move=> hp hk ho; rewrite /fit_time_ising_model /time_glm_fit; case e : (glm_for _ _ _ _ _) => [[s l]|] //= hr hh.
have [_ hl] : last_ok X s.
  apply: (@glm_for_inv _ (time_glm_body (time_ising_solve X p) (fun t => ising_loss (X t)) psi prox_psi p) (last_ok X)) e.
    move=> it s1 b s2 [i1 _] eb; have i2 := time_ising_inv hp i1 eb; split=> //; move: eb.
    rewrite /time_glm_body; case: (all_some _ _) => [Kn|] //.
    case: (time_glm_ZU _ _ _ _ _) => Z U.
    case: ifP => _; last case: ifP => _; case=> _ e2; move: i2; rewrite -e2 => -[_ _ i2] /=;
      by rewrite last_rcons /= ho objective_default // => t; case: (i2 t).
  split; first exact: init_inv.
  rewrite [c_obj _]/= objective_default // => t; rewrite ffunE; exact: sym0.
by move: hr; case: ifP => _; [case: l e => [i|] e //|]; case=> er; move: hh; rewrite -er /=; case: ifP => // _ [<-].
Qed.

End Ising.

(** *** the ridge *)
Lemma soft1_inj (x y l : R) : 0 <= l -> soft1 x l = soft1 y l -> soft1 x l != 0 -> x = y.
Proof.
move=> l0.
have [[hx ->]|[hx ->]|[_ ->]] := soft1_cases x l0; last by rewrite eqxx.
  have [[_ ->]|[hy ->]|[_ ->]] := soft1_cases y l0.
  + by move/addIr.
  + by move=> e _; exfalso; move: hx hy e => hx hy e; move/eqP: e => /eqP e; have : False; [mclra | ].
  + by move=> ->; rewrite eqxx.
have [[hy ->]|[_ ->]|[_ ->]] := soft1_cases y l0.
+ by move=> e _; exfalso; have : False; [mclra |].
+ by move/addIr.
+ by move=> ->; rewrite eqxx.
Qed.
Lemma ridge_step n m (X : 'M[R]_(m.+1, n)) al gam tol k rho th i j :
  0 <= al -> 0 < gam -> 0 < rho -> sym th -> i != j -> th i j != 0 ->
  let p0 := ising_estimator_params n al tol gam k in
  let p1 := IsingParams al gam tol k false false (Some 0) 1 rho (1 / 2%:R) false in
  ising_step X p0 gam th i j != 0 -> ising_step X p1 gam th i j != ising_step X p0 gam th i j.
Proof.
move=> a0 g0' r0 hs ij tij p0 p1 hne; apply/eqP => e.
move: hne e; rewrite /ising_step grad_noneE [ig_A p1]/= gradE /addA [ig_rho p1]/= [ig_T p1]/= !sodE (negPf ij).
rewrite [ig_alpha p0]/= [ig_alpha p1]/= => hne e.
have /= := soft1_inj (mulr_ge0 a0 (ltW g0')) (esym e) hne.
have eji : th j i = th i j by rewrite -{1}hs mxE.
have eg (t : 'M[R]_n) a b : (t - gam *: g0 X t) a b = t a b - gam * g0 X t a b by rewrite subZE.
have eg' (t : 'M[R]_n) a b : (t - gam *: (g0 X t + (rho * 1) *: (t - 0))) a b = t a b - gam * (g0 X t a b + rho * t a b).
  by rewrite subZE subr0 mulr1 mxE [(rho *: t) a b]mxE.
have es (M : 'M[R]_n) : symmetrise M i j = 2%:R^-1 * (M i j + M j i) by rewrite /symmetrise mxE mxE [M^T _ _]mxE.
rewrite !es.
rewrite !eg !eg' eji => e'.
have : gam * rho * th i j = 0.
  move: e'; move: (g0 X th i j : R) (g0 X th j i : R) (th i j : R) (gam : R) (rho : R) => a b c d e1 h.
  have : 2%:R^-1 *(c - d * a + (c - d * b)) - 2%:R^-1 * (c - d * (a + e1 * c) + (c - d * (b + e1 * c))) = 0.
    by apply/eqP; rewrite subr_eq0; apply/eqP; exact: h.
  by move=> <-; mcfield.
by move/eqP; rewrite !mulf_eq0 (negPf tij) (gt_eqF g0') (gt_eqF r0).
Qed.

(** *** one time point *)
Lemma tpair1 (e : tpair 1) : False.
Proof. by case: e => -[a b] /=; rewrite (ord1 a) (ord1 b). Qed.
Lemma edges1 n (E F : edges n 1) : E = F.
Proof. by apply/ffunP => e; case: (tpair1 e). Qed.
Lemma sqnorm1 n (E : edges n 1 * edges n 1) : pair_sqnorm E = 0.
Proof. by rewrite /pair_sqnorm /edges_sqnorm !big1 ?addr0 // => e; case: (tpair1 e). Qed.
Lemma A_one n (Z U : edges n 1 * edges n 1) t : time_glm_A Z U t = 0.
Proof.
rewrite ffunE /add_rights /add_lefts !ffunE ![\sum_(e | _) _]big1 => [|e|e]; try by case: (tpair1 e).
by rewrite !addr0 scaler0 /symmetrise trmx0 addr0 scaler0.
Qed.
Lemma time_glm_one n (so : 'I_1 -> R -> 'M[R]_n -> option 'M[R]_n) lo psi pr (p : time_glm_params 1) th :
  so 0 (tg_rho0 p) 0 = Some th -> (0 < tg_max_iter p)%N -> 0 <= tg_tol p -> 0 <= tg_rtol p -> 0 <= tg_rho0 p ->
  exists2 res, time_glm_fit so lo psi pr p = Some (Ok res) & tgr_K res 0 = th.
Proof.
move=> hs hm t0 r0 rho0.
have hall : all_some (fun t => so t (tg_rho0 p) (time_glm_A (0, 0) (0, 0) t)) 0 = Some (fun=> th).
  rewrite /all_some.
  have e t : so t (tg_rho0 p) (time_glm_A (0, 0) (0, 0) t) = Some th by rewrite A_one (ord1 t).
  have -> : [forall t, isSome (so t (tg_rho0 p) (time_glm_A (0, 0) (0, 0) t))] by apply/forallP => t; rewrite e.
  by congr Some; apply: functional_extensionality => t; rewrite e.
have [s [hb hK]] : exists s, time_glm_body so lo psi pr p 0 (time_glm_init lo psi p) = Some (true, s) /\ tg_K s 0 = th.
  rewrite /time_glm_body [tg_rho _]/= [tg_Z _]/= [tg_U _]/= hall.
  case: (time_glm_ZU _ _ _ _ _) => Z U.
  case: ifP => _; first by eexists; split; [reflexivity | rewrite /= ffunE].
  case: ifP => [_|]; first by eexists; split; [reflexivity | rewrite /= ffunE].
  have s0 : sqrt 0 = 0 := sqrt_0.
  have sg x : 0 <= sqrt x by apply/RleP; exact: sqrt_pos.
  have q1 (x : R) : 0 <= x -> 0 <= n%:R * 1%:R * tg_tol p + x by move=> h; rewrite addr_ge0 // !mulr_ge0 ?ler0n.
  rewrite /stop_test [c_rnorm _]/= [c_snorm _]/= [c_e_pri _]/= [c_e_dual _]/= !sqnorm1 s0 mulr0.
  have h2 (x y : R) : 0 <= x -> 0 <= y -> 0 <= np_max x y by rewrite /np_max; case: ifP.
  by rewrite !q1 //=; rewrite ?mulr0 // mulr_ge0 // h2.
rewrite /time_glm_fit; case: (tg_max_iter p) hm => // k _.
rewrite /= hb /=.
by case: ifP => _; eexists; try reflexivity.
Qed.
