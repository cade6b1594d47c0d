(** Kernel time graphical lasso: the loop, invariants, counts, termination. *)
From Coq Require Import Reals Lra Psatz.
From mathcomp Require Import all_ssreflect all_algebra.
From Verif Require Import RStruct RTac LinTac Spectral S_Mat RMx ADMM NP M_Prox S_Prox P_Eigh.
From Verif Require Import P_Prox P_Prox2 P_Rules M_Loop P_Loop M_GL S_GL P_GL P_GL2 M_LGL P_LGL.
From Verif Require Import M_TGL S_TGL P_TGL P_TGL2 P_Admm P_TGL3 HB P_TGL4 M_KTGL S_KTGL P_KTGL P_KTGL2.
Import Order.TTheory GRing.Theory Num.Theory.

Set Implicit Arguments.
Unset Strict Implicit.
Unset Printing Implicit Defensive.
Local Open Scope ring_scope.

Local Opaque ktgl_updates.

Section Loop.
Variables (n T : nat) (eigh : eigh_t n) (psi : 'M[R]_n -> R) (prox : 'M[R]_n -> R -> 'M[R]_n).
Variables (S : stack n T) (ns : 'I_T -> R) (p : ktgl_params T).
Local Notation body := (ktgl_body eigh psi prox S ns p).
Local Notation upd s := (ktgl_updates eigh prox S ns p (ktgl_rho s) (ktgl_Z s) (ktgl_U s)).

(** the entry recorded by one iteration *)
Definition ktgl_check (s : ktgl_state n T) : convergence :=
  let: (K, Z, U) := upd s in
  {| c_obj := if ktgl_compute_objective p
             then ktgl_objective ns S Z.1.1 K Z.1.2 Z.2 (ktgl_alpha p) (kernel_of p) psi
             else NaN;
     c_rnorm := sqrt (ktriple_sqnorm (kcopies K - Z));
     c_snorm := ktgl_rho s * sqrt (ktriple_sqnorm (Z - ktgl_Zold s));
     c_e_pri := n%:R * T%:R * ktgl_tol p +
      ktgl_rtol p * np_max (sqrt (ktriple_sqnorm Z)) (sqrt (ktriple_sqnorm (kcopies K)));
     c_e_dual := n%:R * T%:R * ktgl_tol p + ktgl_rtol p * ktgl_rho s * sqrt (ktriple_sqnorm U) |}.

Lemma ktgl_body_check j s : (body j s).2 = ktgl_check s.
Proof.
rewrite /ktgl_body /ktgl_check; case: (ktgl_updates _ _ _ _ _ _ _ _) => [[K Z] U].
set c := {| c_obj := _ |}; case: (stop_at_test _ _ _) => //; by case: (stop_test _).
Qed.

Lemma ktgl_body_break j s : is_break (body j s).1 =
  stop_at_test (c_obj (ktgl_check s)) (ktgl_stop_at p) (ktgl_stop_when p) || stop_test (ktgl_check s).
Proof.
rewrite /ktgl_body /ktgl_check; case: (ktgl_updates _ _ _ _ _ _ _ _) => [[K Z] U].
set c := {| c_obj := _ |}; rewrite [c_obj c]/=.
by case: (stop_at_test _ _ _) => //; case: (stop_test _).
Qed.

Lemma ktgl_body_state j s : let r := upd s in
  exists rho' c, [/\ 0 < tau_inc (ktgl_rho_options p) -> 0 < tau_dec (ktgl_rho_options p) ->
      0 < ktgl_rho s -> 0 < rho',
    out_state (body j s).1 = KTGLState r.1.2 (c *: r.2) r.1.2 rho' r.1.1 &
    is_break (body j s).1 -> rho' = ktgl_rho s /\ c = 1].
Proof.
rewrite /= /ktgl_body; case: (ktgl_updates _ _ _ _ _ _ _ _) => [[K Z] U] /=.
case: (stop_at_test _ _ _) => /=; first by exists (ktgl_rho s), 1; split=> //; rewrite scale1r.
case: (stop_test _) => /=; first by exists (ktgl_rho s), 1; split=> //; rewrite scale1r.
set r' := update_rho _ _ _ _; exists r', (ktgl_rho s / r'); split=> //.
by move=> h1 h2 h; apply: rho_pos.
Qed.
End Loop.

Section Struct.
Variables (n T : nat) (eigh : eigh_t n) (psi : 'M[R]_n -> R) (prox : 'M[R]_n -> R -> 'M[R]_n).
Variables (pinvh : 'M[R]_n -> 'M[R]_n) (p : ktgl_params T).
Hypothesis He : eigh_ok eigh.
Variables (S : stack n T) (ns : 'I_T -> R) (init : init_mode3 n T).
Hypothesis sS : slices (@sym n) S.
Hypothesis ns0 : forall t, 0 < ns t.
Hypothesis ps : forall a lam, sym a -> sym (prox a lam).
Hypothesis r0 : 0 < ktgl_rho0 p.
Hypothesis ti : 0 < tau_inc (ktgl_rho_options p).
Hypothesis td : 0 < tau_dec (ktgl_rho_options p).
Local Notation body := (ktgl_body eigh psi prox S ns p).

Definition ktgl_inv (s : ktgl_state n T) : Prop := 0 < ktgl_rho s /\ ktri_sym (ktgl_U s).
Definition ktgl_post (s : ktgl_state n T) : Prop :=
  [/\ slices (@pd n) (ktgl_K s), ktri_sym (ktgl_Z s) & ktri_sym (ktgl_U s)].

Lemma ktri_symZ a (U : ktriple n T) : ktri_sym U -> ktri_sym (a *: U).
Proof. by case=> h1 h2 h3; split=> t; rewrite !ktriZ ?stZ ?edZ; apply: symZ. Qed.

Lemma ktgl_body_inv j s : ktgl_inv s ->
  ktgl_inv (out_state (body j s).1) /\ ktgl_post (out_state (body j s).1).
Proof.
move=> [rs su]; have [rho' [c [rp -> _]]] := ktgl_body_state eigh psi prox S ns p j s.
case E: (ktgl_updates _ _ _ _ _ _ _ _) => [[K Z] U] /=.
have [h1 h2 h3] := ktgl_struct He sS ns0 ps rs su E.
by split; split=> //=; [apply: rp | apply: ktri_symZ | apply: ktri_symZ].
Qed.

Lemma ktgl_iter_post k : ktgl_post (iter_state body 0 (ktgl_init pinvh S p init) k.+1).
Proof.
apply: (proj2 (ktgl_body_inv _ _)).
elim: k => [|k IH]; last by have [] := ktgl_body_inv (0 + k) IH.
by split=> //=; split=> t; rewrite /= ffunE; apply: sym0.
Qed.
Lemma ktgl_loop_post : (0 < ktgl_max_iter p)%N ->
  ktgl_post (le_state (ktgl_loop eigh psi prox S ns p (ktgl_init pinvh S p init))).
Proof.
move=> m0; apply: (@py_for_post _ _ body ktgl_inv) => //; last exact: ktgl_body_inv.
by split=> //=; split=> t; rewrite /= ffunE; apply: sym0.
Qed.
End Struct.

Section Call.
Variables (n T : nat) (eigh : eigh_t n) (psi : 'M[R]_n -> R) (prox : 'M[R]_n -> R -> 'M[R]_n).
Variables (pinvh : 'M[R]_n -> 'M[R]_n) (p : ktgl_params T).
Variables (S : stack n T) (ns : option ('I_T -> R)) (init : init_mode3 n T).
Local Notation ns' := (odflt (fun=> 1) ns).
Local Notation e0 := (ktgl_loop eigh psi prox S ns' p (ktgl_init pinvh S p init)).
Local Notation call := (kernel_time_graphical_lasso eigh pinvh psi prox S ns p init).

Lemma ktgl_call r : call = Ok r ->
  [/\ ktgl_precision r = (ktgl_Z (le_state e0)).1.1,
      exists c0, ktgl_history r = (if ktgl_return_history p then Some (c0 :: le_checks e0) else None),
      ktgl_n_iter r = (if ktgl_return_n_iter p then omap succn (le_iter e0) else None) &
      ktgl_warned r = le_else e0].
Proof.
rewrite /kernel_time_graphical_lasso; case: (ktgl_return_n_iter p).
  by case: (le_iter _) => // it [<-]; split=> //; eexists; reflexivity.
by case=> <-; split=> //; eexists; reflexivity.
Qed.

Lemma ktgl_call_ok : (0 < ktgl_max_iter p)%N -> exists r, call = Ok r.
Proof.
move=> m0; rewrite /kernel_time_graphical_lasso.
case: (ktgl_return_n_iter p); last by eexists.
have [_ h2 h3 _] := py_for_count (ktgl_body eigh psi prox S ns' p) (ktgl_max_iter p) (ktgl_init pinvh S p init).
rewrite -/(ktgl_loop _ _ _ _ _ _ _) in h2 h3; rewrite h3; move: (h2 m0).
by case: (size _) => // k _; eexists.
Qed.

Lemma ktgl_count r : ktgl_return_n_iter p -> ktgl_return_history p -> call = Ok r ->
  exists h k, [/\ ktgl_history r = Some h, ktgl_n_iter r = Some k, size h = k.+1 &
    [/\ (0 < k)%N, (k <= ktgl_max_iter p)%N, ktgl_warned r -> k = ktgl_max_iter p &
    k = size (le_checks e0)]].
Proof.
move=> rn rh h; have [_ [c0 h1] h2 h3] := ktgl_call h; rewrite rn rh in h1 h2.
have [c1 c2 c3 c4] := py_for_count (ktgl_body eigh psi prox S ns' p) (ktgl_max_iter p) (ktgl_init pinvh S p init).
rewrite -/(ktgl_loop _ _ _ _ _ _ _) in c1 c2 c3 c4.
exists (c0 :: le_checks e0); rewrite h1 h2 h3 c3.
move: h; rewrite /kernel_time_graphical_lasso rn c3; case E: (size _) => [|k] // _.
rewrite E in c1 c4; exists k.+1; split=> //=; rewrite ?E //.
Qed.

Lemma ktgl_zero_iter : ktgl_max_iter p = 0%N ->
  (ktgl_return_n_iter p -> call = UnboundLocalError _) /\
  (~~ ktgl_return_n_iter p -> exists r, call = Ok r /\
     ktgl_precision r = init_precision3 pinvh S init /\ ktgl_warned r = true).
Proof.
move=> m0; rewrite /kernel_time_graphical_lasso /ktgl_loop m0 /=.
case: (ktgl_return_n_iter p); split=> // _.
by eexists; split; first reflexivity.
Qed.
End Call.

Lemma ktgl_top_sym n T (eigh : eigh_t n) psi prox pinvh (S : stack n T) ns p init r :
  eigh_ok eigh -> slices (@sym n) S -> (forall t, 0 < odflt (fun=> 1) ns t) ->
  (forall a lam, sym a -> sym (prox a lam)) -> 0 < ktgl_rho0 p ->
  0 < tau_inc (ktgl_rho_options p) -> 0 < tau_dec (ktgl_rho_options p) -> (0 < ktgl_max_iter p)%N ->
  kernel_time_graphical_lasso eigh pinvh psi prox S ns p init = Ok r ->
  slices (@sym n) (ktgl_precision r).
Proof.
move=> He sS ns0 ps r0 ti td m0 /ktgl_call [-> _ _ _].
by have [_ [? _ _] _] := ktgl_loop_post psi pinvh He init sS ns0 ps r0 ti td m0.
Qed.

(** * termination *)
Section Term.
Variables (n T : nat) (eigh : eigh_t n) (psi : 'M[R]_n -> R) (prox : 'M[R]_n -> R -> 'M[R]_n).
Hypothesis He : eigh_ok eigh.
Variables (S : stack n T) (ns : 'I_T -> R).
Hypothesis sS : slices (@sym n) S.
Hypothesis ns0 : forall t, 0 < ns t.
Hypothesis cv : convex_fun psi.
Variable p : ktgl_params T.
Hypothesis hp : prox_of psi prox.
Hypothesis ps : forall a lam, sym a -> sym (prox a lam).
Hypothesis ti1 : tau_inc (ktgl_rho_options p) = 1.
Hypothesis td1 : tau_dec (ktgl_rho_options p) = 1.
Hypothesis a0 : 0 <= ktgl_alpha p.
Hypothesis b0 : kern_ge0 (kernel_of p).
Local Notation body := (ktgl_body eigh psi prox S ns p).
Local Notation upd s := (ktgl_updates eigh prox S ns p (ktgl_rho s) (ktgl_Z s) (ktgl_U s)).
Local Notation e := (n%:R * T%:R * ktgl_tol p).
Local Notation kf := (fun K : stack n T => \sum_t ns t * gl_f (S t) (K t)).
Local Notation kD := (fun K : stack n T => slices (@pd n) K).
Local Notation kopt p := (minimiser kD
    (fun K => kernel_obj (@l1 n n) psi ns S (ktgl_alpha p) (kernel_of p) K)).

Lemma krho_const r a b : update_rho (ktgl_rho_options p) r a b = r.
Proof. by rewrite /update_rho ti1 td1 mul1r divr1; case: ifP => //; case: ifP. Qed.

Lemma ktgl_body_const j s : 0 < ktgl_rho s -> let r := upd s in
  out_state (body j s).1 = KTGLState r.1.2 r.2 r.1.2 (ktgl_rho s) r.1.1.
Proof.
move=> rs; rewrite /= /ktgl_body; case: (ktgl_updates _ _ _ _ _ _ _ _) => [[K Z] U] /=.
case: (stop_at_test _ _ _) => //=.
by case: (stop_test _) => //=; rewrite krho_const divff ?scale1r // lt0r_neq0.
Qed.

Lemma ktgl_break1 j s : 0 < ktgl_rho s -> ktgl_Zold s = ktgl_Z s -> slices (@sym n) (ktgl_U s).1.1 ->
  0 <= ktgl_rtol p -> 0 <= e ->
  let r := upd s in
  kdw n T (r.2 - ktgl_U s) (r.2 - ktgl_U s) <= e ^+ 2 ->
  ktgl_rho s ^+ 2 * kdw n T (r.1.2 - ktgl_Z s) (r.1.2 - ktgl_Z s) <= e ^+ 2 ->
  is_break (body j s).1.
Proof.
move=> rs old sU rt0 e0 /=; rewrite ktgl_body_break /ktgl_check.
case E: (ktgl_updates _ _ _ _ _ _ _ _) => [[K Z] U] /= h1 h2.
have [_ _ eU] := ktgl_step He sS ns0 cv hp a0 b0 rs sU E.
apply/orP; right; rewrite /stop_test /= old; apply/andP; split.
- apply: le_trans (_ : e <= _); last first.
    rewrite ler_addl; apply: mulr_ge0 => //.
    by apply: le_trans (proj1 (np_max_ge _ _)); apply/RleP; apply: sqrt_pos.
  have e1 : kcopies K - Z = U - ktgl_U s by rewrite eU; move: (kcopies K) (ktgl_U s) => a b; clear; lin.
  by apply: sqrt_le => //; rewrite ksqnormE e1.
- apply: le_trans (_ : e <= _); last first.
    rewrite ler_addl; apply: mulr_ge0; last by apply/RleP; apply: sqrt_pos.
    by apply: mulr_ge0 => //; apply: ltW.
  rewrite mulrC -ler_pdivl_mulr //; apply: sqrt_le; first by apply: divr_ge0 => //; apply: ltW.
  by rewrite ksqnormE expr_div_n ler_pdivl_mulr ?exprn_gt0 // mulrC.
Qed.

Section Run.
Variable st : ktgl_state n T.
Hypothesis rst : 0 < ktgl_rho st.
Hypothesis sst : ktri_sym (ktgl_U st).
Local Notation it := (iter_state body 0 st).

Lemma k_rho k : ktgl_rho (it k) = ktgl_rho st.
Proof. by elim: k => //= k IH; rewrite ktgl_body_const IH. Qed.
Lemma k_sym k : ktri_sym (ktgl_U (it k)).
Proof.
elim: k => // k IH.
have ti : 0 < tau_inc (ktgl_rho_options p) by rewrite ti1 ltr01.
have td : 0 < tau_dec (ktgl_rho_options p) by rewrite td1 ltr01.
have rk : 0 < ktgl_rho (it k) by rewrite k_rho.
by have [[_ ?] _] := ktgl_body_inv psi (p := p) He sS ns0 ps ti td (0 + k) (conj rk IH).
Qed.

Lemma k_step k : admm_step (@kdv n T) (@kdw n T) (@kcopies n T) (@kBt n T) kD kf
  (ktgl_g psi (ktgl_alpha p) (kernel_of p)) (ktgl_rho st) (ktgl_Z (it k)) (ktgl_U (it k)) (ktgl_K (it k.+1))
  (ktgl_Z (it k.+1)) (ktgl_U (it k.+1)).
Proof.
have rk : 0 < ktgl_rho (it k) by rewrite k_rho.
have [sk _ _] := k_sym k.
apply: (@ktgl_step _ _ _ _ _ He _ _ sS ns0 cv hp) => //; rewrite /= ktgl_body_const // -(k_rho k) /=.
by case: (ktgl_updates _ _ _ _ _ _ _ _) => [[]].
Qed.

Lemma k_break k : 0 <= ktgl_rtol p -> 0 <= e ->
  kdw n T (ktgl_U (it k.+2) - ktgl_U (it k.+1)) (ktgl_U (it k.+2) - ktgl_U (it k.+1)) <= e ^+ 2 ->
  ktgl_rho st ^+ 2 * kdw n T (ktgl_Z (it k.+2) - ktgl_Z (it k.+1)) (ktgl_Z (it k.+2) - ktgl_Z (it k.+1)) <= e ^+ 2 ->
  is_break (body k.+1 (it k.+1)).1.
Proof.
move=> rt0 t0 h1 h2; have rs : 0 < ktgl_rho (it k.+1) by rewrite k_rho.
have E := ktgl_body_const (0 + k.+1) rs.
have e2 : it k.+2 = out_state (body (0 + k.+1) (it k.+1)).1 by [].
rewrite e2 E in h1; rewrite e2 E -(k_rho k.+1) in h2.
have old : ktgl_Zold (it k.+1) = ktgl_Z (it k.+1) by rewrite /= ktgl_body_const // k_rho.
have [sk _ _] := k_sym k.+1.
by apply: ktgl_break1.
Qed.

Lemma k_nowarn Ko : kopt p Ko -> 0 <= ktgl_rtol p -> 0 < e ->
  exists N, forall max_iter, (N < max_iter)%N -> ~~ le_else (py_for body max_iter 0 st [::] None).
Proof.
move=> mK rt0 e0; have [U k] := ktgl_opt_kkt sS ns0 cv a0 b0 rst mK.
have [N [N0 h1 h2]] := gen_bound (ktgl_rho st) e0
 (kdw n T (ktgl_U st - U) (ktgl_U st - U) + kdw n T (ktgl_Z st - kcopies Ko) (ktgl_Z st - kcopies Ko)).
exists N => mi hm.
by apply: (gen_nowarn (@kcopiesB n T) (@kcopies_adj n T) rst k_step e0 _ k N0 hm) => // j; apply: k_break => //; apply: ltW.
Qed.
End Run.
End Term.

Lemma ktgl_terminates n T (eigh : eigh_t n) psi prox pinvh (S : stack n T) ns p init :
  eigh_ok eigh -> slices (@sym n) S -> (forall t, 0 < odflt (fun=> 1) ns t) ->
  convex_fun psi -> prox_of psi prox -> (forall a lam, sym a -> sym (prox a lam)) ->
  0 < ktgl_rho0 p -> tau_inc (ktgl_rho_options p) = 1 -> tau_dec (ktgl_rho_options p) = 1 ->
  0 <= ktgl_alpha p -> (forall s t : 'I_T, (s < t)%N -> 0 <= kernel_of p s t) ->
  0 <= ktgl_rtol p -> 0 < n%:R * T%:R * ktgl_tol p ->
  (exists Ko : stack n T, minimiser (fun K : stack n T => slices (@pd n) K)
     (fun K => kernel_obj (@l1 n n) psi (odflt (fun=> 1) ns) S (ktgl_alpha p) (kernel_of p) K) Ko) ->
  exists N, forall k, (N < k)%N -> forall r,
    kernel_time_graphical_lasso eigh pinvh psi prox S ns
      (KTGLParams (ktgl_alpha p) (ktgl_rho0 p) (ktgl_kernel p) k (ktgl_tol p) (ktgl_rtol p)
        (ktgl_return_history p) (ktgl_return_n_iter p) (ktgl_compute_objective p) (ktgl_stop_at p)
        (ktgl_stop_when p) (ktgl_rho_options p)) init = Ok r ->
    ktgl_warned r = false.
Proof.
move=> He sS ns0 cv hp ps r0 ti td a0 b0 rt0 e0 [Ko mK].
have sst : ktri_sym (ktgl_U (ktgl_init pinvh S p init)) by split=> t; rewrite /= ffunE; apply: sym0.
have [N hN] := @k_nowarn _ _ _ _ _ He _ _ sS ns0 cv _ hp ps ti td a0 b0 (ktgl_init pinvh S p init) r0 sst _ mK rt0 e0.
exists N => k kN r /ktgl_call [_ _ _ ->]; apply/negbTE; exact: hN.
Qed.
