(** Property theorem C100: when the covariance solvers stop, and when they warn. *)
From Coq Require Import Reals.
From mathcomp Require Import all_ssreflect all_algebra.
From Verif Require Import RStruct RTac S_Mat NP M_Prox M_Loop M_GL M_LGL M_TGL M_KTGL M_LTGL M_KLTGL.
From Verif Require Import P_Loop.
Import Order.TTheory GRing.Theory Num.Theory.

Set Implicit Arguments.
Unset Strict Implicit.
Unset Printing Implicit Defensive.
Local Open Scope ring_scope.

(** ** specification *)
(** both residuals of an iteration are within their tolerances *)
Definition within_tol (c : convergence) : Prop := c_rnorm c <= c_e_pri c /\ c_snorm c <= c_e_dual c.
(** the objective of an iteration is within a factor stop_when of the requested value *)
Definition near_target (stop_at : option R) (stop_when : R) (c : convergence) : Prop :=
  exists s o : R, [/\ stop_at = Some s, c_obj c = Fin o, s != 0 & `|o - s| < stop_when * `|s|].
(** a run: one entry for each iteration; no iteration but the last satisfies the rule; a warning is given exactly when no
    iteration satisfies it, after max_iter iterations *)
Definition stops_by (rule : convergence -> Prop) (max_iter : nat) (h : seq convergence) (warned : bool) : Prop :=
  [/\ forall i c0, (i.+1 < size h)%N -> ~ rule (nth c0 h i),
      warned <-> (forall i c0, (i < size h)%N -> ~ rule (nth c0 h i)),
      warned -> size h = max_iter & (size h <= max_iter)%N].

Lemma py_for_stops S (body : nat -> S -> outcome S * convergence) (rule : convergence -> Prop) todo it s checks last :
  (forall j s, is_break (body j s).1 <-> rule (body j s).2) ->
  exists2 h, le_checks (py_for body todo it s checks last) = checks ++ h &
    stops_by rule todo h (le_else (py_for body todo it s checks last)).
Proof.
move=> hb; elim: todo it s checks last => [|todo IH] it s checks last /=.
  by exists [::]; [rewrite cats0 | split].
have := hb it s; case: (body it s) => [[s'|s'] c] /= [h1 h2].
  exists [:: c]; first by rewrite cats1.
  by split=> //=; split=> // /(_ 0%N c isT) []; exact: h1.
have nc : ~ rule c by move/h2.
have [h e [g1 [g2 g2'] g3 g4]] := IH it.+1 s' (rcons checks c) (Some it).
exists (c :: h); first by rewrite e -cats1 -catA.
split=> //=.
- by move=> [|i] c0 // hi; exact: g1.
- split=> [w [|i] c0 hi // | w]; first exact: g2.
  by apply: g2' => i c0 hi; exact: (w i.+1).
by move=> /g3 ->.
Qed.
Lemma stop_testP c : stop_test c <-> within_tol c.
Proof. by rewrite /stop_test; split=> [/andP []|[-> ->]]. Qed.
Lemma stop_atP c a w : stop_at_test (c_obj c) a w <-> near_target a w c.
Proof.
rewrite /stop_at_test /near_target; case: a => [s|]; last by split=> // [[s [o []]]].
case: (c_obj c) => [o| | |]; [|by split=> // [[s' [o' []]]] ..]; split.
  by case/andP => s0 h; exists s, o; split=> //; move: h; rewrite ltr_pdivr_mulr // normr_gt0.
by case=> s' [o' [[<-] [<-] s0 h]]; rewrite s0 /= ltr_pdivr_mulr // normr_gt0.
Qed.

(** * C100 *)
Theorem C100_graphical_lasso : forall n (eigh : eigh_t n) pinvh (S : 'M[R]_n) p init r h,
  graphical_lasso eigh pinvh S p init = Ok r -> gl_history r = Some h ->
  stops_by within_tol (gl_max_iter p) h (gl_warned r).
Proof.
move=> n eigh pinvh S p init r h; rewrite /graphical_lasso /gl_loop.
have hb j s : is_break (gl_body eigh S p j s).1 <-> within_tol (gl_body eigh S p j s).2.
  rewrite -stop_testP /gl_body; case: (gl_updates _ _ _ _ _ _ _) => [[K Z] U]; by case: ifP => /= ->.
have [h' e1 hs] := py_for_stops (gl_max_iter p) 0 (gl_init pinvh S p init) [::] None hb; rewrite /= in e1.
move: hs; set E := py_for _ _ _ _ _ _ => hs; rewrite -/E in e1; rewrite e1.
by case: ifP => _; [case: (le_iter E) => [it|] //|]; case=> <- /=; case: ifP => // _ [<-].
Qed.
Print Assumptions C100_graphical_lasso.

Theorem C100_latent_graphical_lasso : forall n (eigh : eigh_t n) nuc pinvh (S : 'M[R]_n) p init r h,
  latent_graphical_lasso eigh nuc pinvh S p init = Ok r -> lgl_history r = Some h ->
  stops_by (fun c => within_tol c \/ c_obj c = PInf) (lgl_max_iter p) h (lgl_warned r).
Proof.
move=> n eigh nuc pinvh S p init r h; rewrite /latent_graphical_lasso /lgl_loop.
have hb j s : is_break (lgl_body eigh nuc S p j s).1 <-> (within_tol (lgl_body eigh nuc S p j s).2 \/ c_obj (lgl_body eigh nuc S p j s).2 = PInf).
  rewrite -stop_testP /lgl_body; case: (lgl_updates _ _ _ _ _ _ _ _) => [[[K Z] U] L]; set c := Convergence _ _ _ _ _.
  case: (boolP (stop_test c)) => h1 /=; first by split=> // _; left.
  case: (boolP (is_pinf (c_obj c))) => h2 /=; rewrite /c /= in h2.
    by split=> // _; right; case: (if _ then _ else _) h2.
  by split=> // [[]]; [rewrite (negbTE h1) | move=> q; rewrite q in h2].
have [h' e1 hs] := @py_for_stops _ _ (fun c => within_tol c \/ c_obj c = PInf) (lgl_max_iter p) 0 (lgl_init pinvh S p init) [::] None hb; rewrite /= in e1.
move: hs; set E := py_for _ _ _ _ _ _ => hs; rewrite -/E in e1; rewrite e1.
by case: ifP => _; [case: (le_iter E) => [it|] //|]; case=> <- /=; case: ifP => // _ [<-].
Qed.
Print Assumptions C100_latent_graphical_lasso.

(** the time-varying solvers put an entry for the initial estimate first *)
Theorem C100_time_graphical_lasso : forall n m (eigh : eigh_t n) px pinvh p (S : stack n m.+1) ns init r h,
  time_graphical_lasso eigh pinvh px S ns p init = Ok r -> tgl_history r = Some h ->
  stops_by (fun c => near_target (tgl_stop_at p) (tgl_stop_when p) c \/ within_tol c) (tgl_max_iter p) (behead h) (tgl_warned r).
Proof.
move=> n m eigh px pinvh p S ns init r h; rewrite /time_graphical_lasso /tgl_loop.
set n' := odflt _ ns.
have hb j s : is_break (tgl_body eigh px S n' p j s).1 <->
    (near_target (tgl_stop_at p) (tgl_stop_when p) (tgl_body eigh px S n' p j s).2 \/ within_tol (tgl_body eigh px S n' p j s).2).
  rewrite -stop_testP -stop_atP /tgl_body; case: (tgl_updates _ _ _ _ _ _ _ _) => [[K Z] U] /=.
  case: ifP => h1 /=; first by split=> // _; left; rewrite h1.
  by case: ifP => h2 /=; rewrite h1 h2; split=> //; [right | case].
have [h' e1 hs] := @py_for_stops _ _ (fun c => near_target (tgl_stop_at p) (tgl_stop_when p) c \/ within_tol c) (tgl_max_iter p) 0 (tgl_init pinvh S p init) [::] None hb; rewrite /= in e1.
move: hs; set E := py_for _ _ _ _ _ _ => hs; rewrite -/E in e1; rewrite e1.
by case: ifP => _; [case: (le_iter E) => [it|] //|]; case=> <- /=; case: ifP => // _ [<-].
Qed.
Print Assumptions C100_time_graphical_lasso.

Theorem C100_kernel_time_graphical_lasso : forall n T (eigh : eigh_t n) psi prox pinvh p (S : stack n T) ns init r h,
  kernel_time_graphical_lasso eigh pinvh psi prox S ns p init = Ok r -> ktgl_history r = Some h ->
  stops_by (fun c => near_target (ktgl_stop_at p) (ktgl_stop_when p) c \/ within_tol c) (ktgl_max_iter p) (behead h) (ktgl_warned r).
Proof.
move=> n T eigh psi prox pinvh p S ns init r h; rewrite /kernel_time_graphical_lasso /ktgl_loop.
set n' := odflt _ ns.
have hb j s : is_break (ktgl_body eigh psi prox S n' p j s).1 <->
    (near_target (ktgl_stop_at p) (ktgl_stop_when p) (ktgl_body eigh psi prox S n' p j s).2 \/ within_tol (ktgl_body eigh psi prox S n' p j s).2).
  rewrite -stop_testP -stop_atP /ktgl_body; case: (ktgl_updates _ _ _ _ _ _ _ _) => [[K Z] U] /=.
  case: ifP => h1 /=; first by split=> // _; left; rewrite h1.
  by case: ifP => h2 /=; rewrite h1 h2; split=> //; [right | case].
have [h' e1 hs] := @py_for_stops _ _ (fun c => near_target (ktgl_stop_at p) (ktgl_stop_when p) c \/ within_tol c) (ktgl_max_iter p) 0 (ktgl_init pinvh S p init) [::] None hb; rewrite /= in e1.
move: hs; set E := py_for _ _ _ _ _ _ => hs; rewrite -/E in e1; rewrite e1.
by case: ifP => _; [case: (le_iter E) => [it|] //|]; case=> <- /=; case: ifP => // _ [<-].
Qed.
Print Assumptions C100_kernel_time_graphical_lasso.

Theorem C100_latent_time : forall n m (eigh : eigh_t n) nuc pinvh psi phi (S : stack n m.+1) ns p init r h,
  latent_time_graphical_lasso eigh nuc pinvh psi phi S ns p init = Ok r \/
  latent_time_matrix_decomposition eigh nuc psi phi S p = Ok r -> lt_history r = Some h ->
  stops_by within_tol (lt_max_iter p) h (lt_warned r).
Proof.
move=> n m eigh nuc pinvh psi phi S ns p init r h.
rewrite /latent_time_graphical_lasso /latent_time_matrix_decomposition /lt_loop.
have hb Ru ob j s : is_break (lt_body Ru ob eigh psi phi p j s).1 <-> within_tol (lt_body Ru ob eigh psi phi p j s).2.
  rewrite -stop_testP /lt_body; case: (lt_updates _ _ _ _ _ _ _ _) => [[Rm v] d]; case: (lt_old s) => [[a b] c].
  by case: ifP => /= ->.
have G Ru ob s0 cov : lt_return p cov (py_for (lt_body Ru ob eigh psi phi p) (lt_max_iter p) 0 s0 [::] None) = Ok r ->
    lt_history r = Some h -> stops_by within_tol (lt_max_iter p) h (lt_warned r).
  have [h' e1 hs] := py_for_stops (lt_max_iter p) 0 s0 [::] None (hb _ Ru ob); rewrite /= in e1.
  move: hs; set E := py_for _ _ _ _ _ _ => hs; rewrite -/E in e1; rewrite /lt_return e1.
  by case: ifP => _; [case: (le_iter E) => [it|] //|]; case=> <- /=; case: ifP => // _ [<-].
by case; exact: G.
Qed.
Print Assumptions C100_latent_time.

Theorem C100_kernel_latent_time : forall n T (eigh : eigh_t n) nuc psi phi pp pf p (S : stack n T) ns pinvh init r h,
  kernel_latent_time_graphical_lasso eigh nuc pinvh psi pp phi pf S ns p init = Ok r -> klt_history r = Some h ->
  stops_by within_tol (klt_max_iter p) h (klt_warned r).
Proof.
move=> n T eigh nuc psi phi pp pf p S ns pinvh init r h; rewrite /kernel_latent_time_graphical_lasso /klt_loop.
set n' := odflt _ ns.
have hb j s : is_break (klt_body eigh nuc psi pp phi pf S n' p j s).1 <-> within_tol (klt_body eigh nuc psi pp phi pf S n' p j s).2.
  rewrite -stop_testP /klt_body; case: (klt_updates _ _ _ _ _ _ _ _ _) => [[Rm v] d]; case: (klt_old s) => [[a b] c].
  by case: ifP => /= ->.
have [h' e1 hs] := py_for_stops (klt_max_iter p) 0 (klt_init p (init_precision3 pinvh S init)) [::] None hb; rewrite /= in e1.
move: hs; set E := py_for _ _ _ _ _ _ => hs; rewrite -/E in e1; rewrite e1.
by case: ifP => _; [case: (le_iter E) => [it|] //|]; case=> <- /=; case: ifP => // _ [<-].
Qed.
Print Assumptions C100_kernel_latent_time.

(** a history that stops at its second iteration, and one that never does *)
Example C100_case :
  let c (r : R) := Convergence NaN r 0 1 1 in
  stops_by within_tol 5 [:: c 2%:R; c 1] false /\ stops_by within_tol 2 [:: c 2%:R; c 2%:R] true.
Proof.
have n2 : ~~ ((2%:R : R) <= 1) by rewrite lern1.
have no : ~ within_tol (Convergence NaN 2%:R 0 1 1) by move=> [/= h]; rewrite (negbTE n2) in h.
split; split=> //.
- by move=> [|i].
- by split=> // /(_ 1%N (Convergence NaN 0 0 0 0) isT) []; split; rewrite /= ?lexx ?ler01.
- by move=> [|i].
- by split=> // _ [|[|i]].
Qed.
