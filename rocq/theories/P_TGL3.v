(** Time graphical lasso: the loop, termination, counts, history. *)
From Coq Require Import Reals Lra Psatz.
From mathcomp Require Import all_ssreflect all_algebra.
From Verif Require Import RStruct RTac LinTac Spectral S_Mat RMx ADMM NP M_Prox S_Prox P_Eigh.
From Verif Require Import P_Prox P_Prox2 P_Rules M_Loop P_Loop M_GL S_GL P_GL P_GL2 M_LGL P_LGL.
From Verif Require Import M_TGL S_TGL P_TGL P_TGL2 P_Admm.
Import Order.TTheory GRing.Theory Num.Theory.

Set Implicit Arguments.
Unset Strict Implicit.
Unset Printing Implicit Defensive.
Local Open Scope ring_scope.

Local Opaque tgl_updates.

Section Loop.
Variables (n m : nat) (eigh : eigh_t n) (px : psi_mode n) (S : stack n m.+1) (ns : 'I_m.+1 -> R).
Variable p : tgl_params.
Local Notation body := (tgl_body eigh px S ns p).
Local Notation upd s := (tgl_updates eigh px S ns p (tgl_rho s) (tgl_Z s) (tgl_U s)).

(** the entry recorded by one iteration *)
Definition tgl_check (s : tgl_state n m) : convergence :=
  let: (K, Z, U) := upd s in
  let sz : R := ((m.+1 * (n * n) + 2 * (m * (n * n)))%:R) in
  {| c_obj := if tgl_compute_objective p
             then tgl_objective ns S Z.1.1 K Z.1.2 Z.2 (tgl_alpha p) (tgl_beta p) (psi_norm px)
             else NaN;
     c_rnorm := sqrt (triple_sqnorm (copies K - Z));
     c_snorm := tgl_rho s * sqrt (triple_sqnorm (Z - tgl_Zold s));
     c_e_pri := sqrt sz * tgl_tol p +
      tgl_rtol p * np_max (sqrt (triple_sqnorm Z)) (sqrt (triple_sqnorm (copies K)));
     c_e_dual := sqrt sz * tgl_tol p + tgl_rtol p * tgl_rho s * sqrt (triple_sqnorm U) |}.

Lemma tgl_body_check j s : (body j s).2 = tgl_check s.
Proof.
rewrite /tgl_body /tgl_check; case: (tgl_updates _ _ _ _ _ _ _ _) => [[K Z] U].
set c := {| c_obj := _ |}; case: (stop_at_test _ _ _) => //; by case: (stop_test _).
Qed.

Lemma tgl_body_break j s : is_break (body j s).1 =
  stop_at_test (c_obj (tgl_check s)) (tgl_stop_at p) (tgl_stop_when p) || stop_test (tgl_check s).
Proof.
rewrite /tgl_body /tgl_check; case: (tgl_updates _ _ _ _ _ _ _ _) => [[K Z] U].
set c := {| c_obj := _ |}; rewrite [c_obj c]/=.
by case: (stop_at_test _ _ _) => //; case: (stop_test _).
Qed.

Lemma tgl_body_state j s : let r := upd s in
  exists rho' c, [/\ 0 < tau_inc (tgl_rho_options p) -> 0 < tau_dec (tgl_rho_options p) ->
      0 < tgl_rho s -> 0 < rho',
    out_state (body j s).1 = TGLState r.1.2 (c *: r.2) r.1.2 rho' r.1.1 &
    is_break (body j s).1 -> rho' = tgl_rho s /\ c = 1].
Proof.
rewrite /= /tgl_body; case: (tgl_updates _ _ _ _ _ _ _ _) => [[K Z] U] /=.
case: (stop_at_test _ _ _) => /=; first by exists (tgl_rho s), 1; split=> //; rewrite scale1r.
case: (stop_test _) => /=; first by exists (tgl_rho s), 1; split=> //; rewrite scale1r.
set r' := update_rho _ _ _ _; exists r', (tgl_rho s / r'); split=> //.
by move=> h1 h2 h; apply: rho_pos.
Qed.
End Loop.

Section Struct.
Variables (n m : nat) (eigh : eigh_t n) (psi : 'M[R]_n -> R) (prox : 'M[R]_n -> R -> 'M[R]_n).
Variables (pinvh : 'M[R]_n -> 'M[R]_n) (p : tgl_params).
Hypothesis He : eigh_ok eigh.
Variables (S : stack n m.+1) (ns : 'I_m.+1 -> R) (init : init_mode3 n m.+1).
Hypothesis sS : slices (@sym n) S.
Hypothesis ns0 : forall t, 0 < ns t.
Hypothesis ps : forall a lam, sym a -> sym (prox a lam).
Hypothesis r0 : 0 < tgl_rho0 p.
Hypothesis ti : 0 < tau_inc (tgl_rho_options p).
Hypothesis td : 0 < tau_dec (tgl_rho_options p).
Local Notation px := (PsiPlain psi prox).
Local Notation body := (tgl_body eigh px S ns p).

Definition tgl_inv (s : tgl_state n m) : Prop := 0 < tgl_rho s /\ tri_sym (tgl_U s).
Definition tgl_post (s : tgl_state n m) : Prop :=
  [/\ slices (@pd n) (tgl_K s), tri_sym (tgl_Z s) & tri_sym (tgl_U s)].

Lemma tri_symZ a (U : triple n m) : tri_sym U -> tri_sym (a *: U).
Proof. by case=> h1 h2 h3; split=> t; rewrite !triZ stZ; apply: symZ. Qed.

Lemma tgl_body_inv j s : tgl_inv s ->
  tgl_inv (out_state (body j s).1) /\ tgl_post (out_state (body j s).1).
Proof.
move=> [rs su]; have [rho' [c [rp -> _]]] := tgl_body_state eigh px S ns p j s.
case E: (tgl_updates _ _ _ _ _ _ _ _) => [[K Z] U] /=.
have [h1 h2 h3] := tgl_struct He sS ns0 ps rs su E.
by split; split=> //=; [apply: rp | apply: tri_symZ | apply: tri_symZ].
Qed.

Lemma tgl_iter_post k : tgl_post (iter_state body 0 (tgl_init pinvh S p init) k.+1).
Proof.
apply: (proj2 (tgl_body_inv _ _)).
elim: k => [|k IH]; last by have [] := tgl_body_inv (0 + k) IH.
by split=> //=; split=> t; rewrite /= ffunE; apply: sym0.
Qed.
Lemma tgl_loop_post : (0 < tgl_max_iter p)%N ->
  tgl_post (le_state (tgl_loop eigh px S ns p (tgl_init pinvh S p init))).
Proof.
move=> m0; apply: (@py_for_post _ _ body tgl_inv) => //; last exact: tgl_body_inv.
by split=> //=; split=> t; rewrite /= ffunE; apply: sym0.
Qed.
End Struct.

Section Call.
Variables (n m : nat) (eigh : eigh_t n) (px : psi_mode n).
Variables (pinvh : 'M[R]_n -> 'M[R]_n) (p : tgl_params).
Variables (S : stack n m.+1) (ns : option ('I_m.+1 -> R)) (init : init_mode3 n m.+1).
Local Notation ns' := (odflt (fun=> 1) ns).
Local Notation e0 := (tgl_loop eigh px S ns' p (tgl_init pinvh S p init)).

Lemma tgl_call r : time_graphical_lasso eigh pinvh px S ns p init = Ok r ->
  [/\ tgl_precision r = (tgl_Z (le_state e0)).1.1,
      exists c0, tgl_history r = (if tgl_return_history p then Some (c0 :: le_checks e0) else None),
      tgl_n_iter r = (if tgl_return_n_iter p then omap succn (le_iter e0) else None) &
      tgl_warned r = le_else e0].
Proof.
rewrite /time_graphical_lasso; case: (tgl_return_n_iter p).
  by case: (le_iter _) => // it [<-]; split=> //; eexists; reflexivity.
by case=> <-; split=> //; eexists; reflexivity.
Qed.

Lemma tgl_call_ok : (0 < tgl_max_iter p)%N ->
  exists r, time_graphical_lasso eigh pinvh px S ns p init = Ok r.
Proof.
move=> m0; rewrite /time_graphical_lasso.
case: (tgl_return_n_iter p); last by eexists.
have [_ h2 h3 _] := py_for_count (tgl_body eigh px S ns' p) (tgl_max_iter p) (tgl_init pinvh S p init).
rewrite -/(tgl_loop _ _ _ _ _ _) in h2 h3; rewrite h3; move: (h2 m0).
by case: (size _) => // k _; eexists.
Qed.

(** C17: here the count is right, and the history has one more (initial) entry *)
Lemma tgl_count r : tgl_return_n_iter p -> tgl_return_history p ->
  time_graphical_lasso eigh pinvh px S ns p init = Ok r ->
  exists h k, [/\ tgl_history r = Some h, tgl_n_iter r = Some k, size h = k.+1 &
    [/\ (0 < k)%N, (k <= tgl_max_iter p)%N, tgl_warned r -> k = tgl_max_iter p &
    k = size (le_checks e0)]].
Proof.
move=> rn rh h; have [_ [c0 h1] h2 h3] := tgl_call h; rewrite rn rh in h1 h2.
have [c1 c2 c3 c4] := py_for_count (tgl_body eigh px S ns' p) (tgl_max_iter p) (tgl_init pinvh S p init).
rewrite -/(tgl_loop _ _ _ _ _ _) in c1 c2 c3 c4.
exists (c0 :: le_checks e0); rewrite h1 h2 h3 c3.
move: h; rewrite /time_graphical_lasso rn c3; case E: (size _) => [|k] // _.
rewrite E in c1 c4; exists k.+1; split=> //=; rewrite ?E //.
Qed.

Lemma tgl_zero_iter : tgl_max_iter p = 0%N ->
  (tgl_return_n_iter p -> time_graphical_lasso eigh pinvh px S ns p init = UnboundLocalError _) /\
  (~~ tgl_return_n_iter p -> exists r, time_graphical_lasso eigh pinvh px S ns p init = Ok r /\
     tgl_precision r = init_precision3 pinvh S init /\ tgl_warned r = true).
Proof.
move=> m0; rewrite /time_graphical_lasso /tgl_loop m0 /=.
case: (tgl_return_n_iter p); split=> // _.
by eexists; split; first reflexivity.
Qed.
End Call.

Lemma tgl_top_sym n m (eigh : eigh_t n) psi prox pinvh (S : stack n m.+1) ns p init r :
  eigh_ok eigh -> slices (@sym n) S -> (forall t, 0 < odflt (fun=> 1) ns t) ->
  (forall a lam, sym a -> sym (prox a lam)) -> 0 < tgl_rho0 p ->
  0 < tau_inc (tgl_rho_options p) -> 0 < tau_dec (tgl_rho_options p) -> (0 < tgl_max_iter p)%N ->
  time_graphical_lasso eigh pinvh (PsiPlain psi prox) S ns p init = Ok r ->
  slices (@sym n) (tgl_precision r).
Proof.
move=> He sS ns0 ps r0 ti td m0 /tgl_call [-> _ _ _].
by have [_ [? _ _] _] := tgl_loop_post psi pinvh He init sS ns0 ps r0 ti td m0.
Qed.
