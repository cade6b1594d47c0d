(** Kernel time graphical lasso: special kernels, recorded objective, time reversal; and
    uniqueness of the estimates. *)
From Coq Require Import Reals Lra Psatz.
From mathcomp Require Import all_ssreflect all_algebra.
From Verif Require Import RStruct RTac LinTac Spectral S_Mat RMx ADMM NP M_Prox S_Prox P_Eigh.
From Verif Require Import P_Prox P_Prox2 P_Rules M_Loop P_Loop M_GL S_GL P_GL P_GL2 M_LGL P_LGL.
From Verif Require Import M_TGL S_TGL P_TGL P_TGL2 P_Admm P_TGL3 HB P_TGL4 P_TGL5.
From Verif Require Import M_KTGL S_KTGL P_KTGL P_KTGL2 P_KTGL3.
Import Order.TTheory GRing.Theory Num.Theory.

Set Implicit Arguments.
Unset Strict Implicit.
Unset Printing Implicit Defensive.
Local Open Scope ring_scope.

(** * first-neighbour kernels *)
Definition first_neighbour T (beta : R) (w : 'I_T -> 'I_T -> R) : Prop :=
  forall s t : 'I_T, (s < t)%N -> w s t = if t == s.+1 :> nat then beta else 0.

Lemma first_neighbour_obj n T (pen psi : 'M[R]_n -> R) ns (S : 'I_T -> 'M[R]_n) alpha beta w K :
  first_neighbour beta w -> kernel_obj pen psi ns S alpha w K = time_obj pen psi ns S alpha beta K.
Proof.
move=> h; rewrite /kernel_obj /time_obj; congr (_ + _); rewrite mulr_sumr; apply: eq_bigr => s _.
rewrite mulr_sumr big_mkcond [RHS]big_mkcond; apply: eq_bigr => t _.
case: ifP => [st|/negbT st]; first by rewrite h //; case: ifP => // _; rewrite mul0r.
by case: eqP => // e; case/negP: st; rewrite e.
Qed.

Lemma opt_ext A (D : A -> Prop) (f g : A -> R) x : (forall y, f y = g y) -> minimiser D f x -> minimiser D g x.
Proof. by move=> e [h1 h2]; split=> // y hy; rewrite -!e; apply: h2. Qed.

Lemma first_neighbour_same n m (eigh : eigh_t n) psi prox : eigh_ok eigh ->
  forall (S : stack n m.+1) ns, slices (@sym n) S -> (forall t, 0 < ns t) ->
  convex_fun psi -> prox_of psi prox ->
  forall p rho (Z U : triple n m) K q rho' (Z' U' : ktriple n m.+1) K',
  0 <= tgl_alpha p -> 0 <= tgl_beta p -> 0 < rho -> 0 < rho' ->
  ktgl_alpha q = tgl_alpha p -> first_neighbour (tgl_beta p) (kernel_of q) ->
  slices (@sym n) U.1.1 -> slices (@sym n) U'.1.1 ->
  tgl_updates eigh (PsiPlain psi prox) S ns p rho Z U = (K, Z, U) ->
  ktgl_updates eigh prox S ns q rho' Z' U' = (K', Z', U') ->
  K = K'.
Proof.
move=> He S ns sS ns0 cv hp p rho Z U K q rho' Z' U' K' a0 b0 r0 r0' ea fn sU sU' E E'.
have [_ h1] := tgl_fixed_opt He sS ns0 cv hp a0 b0 r0 sU E.
have k0 : kern_ge0 (kernel_of q) by move=> s t st; rewrite fn //; case: ifP.
have a0' : 0 <= ktgl_alpha q by rewrite ea.
have [_ h2] := ktgl_fixed_opt He sS ns0 cv hp a0' k0 r0' sU' E'.
rewrite ea in a0' h2; apply: (kernel_opt_unique ns0 cv a0' k0); last exact: h2.
by apply: opt_ext h1 => Y; rewrite (first_neighbour_obj _ _ _ _ _ _ fn).
Qed.

(** * the default kernel *)
Lemma default_kernel_off T (p : ktgl_params T) : ktgl_kernel p = None ->
  forall s t : 'I_T, (s < t)%N -> kernel_of p s t = 0.
Proof.
by move=> e s t st; rewrite /kernel_of e /= mxE -(inj_eq val_inj) /= (ltn_eqF st).
Qed.

Lemma decoupled n T (psi : 'M[R]_n -> R) ns (S : stack n T) alpha w (K : stack n T) :
  (forall s t : 'I_T, (s < t)%N -> w s t = 0) ->
  minimiser (fun K : stack n T => slices (@pd n) K) (fun K => kernel_obj (@l1 n n) psi ns S alpha w K) K ->
  forall t, minimiser (@pd n) (fun X => ns t * (\tr (S t *m X) - ln (\det X)) + alpha * l1 X) (K t).
Proof.
move=> w0 [pK hm] t; split=> // X pX.
have [Y eY] : {Y : stack n T | Y = [ffun u => if u == t then X else K u]} by eexists.
have pY : slices (@pd n) Y by move=> u; rewrite eY ffunE; case: ifP.
have red (Q : stack n T) : kernel_obj (@l1 n n) psi ns S alpha w Q =
   \sum_u (ns u * (\tr (S u *m Q u) - ln (\det (Q u))) + alpha * l1 (Q u)).
  rewrite /kernel_obj [X in _ + X]big1 ?addr0 ?mulr_sumr ?big_split // => s _.
  by rewrite big1 // => u su; rewrite w0 // mul0r.
have := hm _ pY; rewrite !red (bigD1 t) //= [X in _ <= X](bigD1 t) //=.
have -> : Y t = X by rewrite eY ffunE eqxx.
rewrite [X in _ <= _ + X](eq_bigr (fun u => ns u * (\tr (S u *m K u) - ln (\det (K u))) + alpha * l1 (K u))).
  by rewrite ler_add2r.
by move=> u /negPf ut; rewrite eY ffunE ut.
Qed.

Lemma ktgl_default_decoupled n T (eigh : eigh_t n) psi prox : eigh_ok eigh ->
  forall (S : stack n T) ns, slices (@sym n) S -> (forall t, 0 < ns t) ->
  convex_fun psi -> prox_of psi prox ->
  forall p rho (Z U : ktriple n T) K, ktgl_kernel p = None -> 0 <= ktgl_alpha p -> 0 < rho ->
  slices (@sym n) U.1.1 -> ktgl_updates eigh prox S ns p rho Z U = (K, Z, U) ->
  forall t, minimiser (@pd n) (fun X => ns t * (\tr (S t *m X) - ln (\det X)) + ktgl_alpha p * l1 X) (K t).
Proof.
move=> He S ns sS ns0 cv hp p rho Z U K kn a0 r0 sU E.
have k0 : kern_ge0 (kernel_of p) by move=> s t st; rewrite default_kernel_off.
have [_ h2] := ktgl_fixed_opt He sS ns0 cv hp a0 k0 r0 sU E.
by apply: decoupled h2; apply: default_kernel_off.
Qed.

(** * only the part of the kernel above the diagonal matters *)
Definition with_kernel T (p : ktgl_params T) (k : option 'M[R]_T) : ktgl_params T :=
  KTGLParams (ktgl_alpha p) (ktgl_rho0 p) k (ktgl_max_iter p) (ktgl_tol p) (ktgl_rtol p)
    (ktgl_return_history p) (ktgl_return_n_iter p) (ktgl_compute_objective p) (ktgl_stop_at p)
    (ktgl_stop_when p) (ktgl_rho_options p).

Lemma py_for_ext S C (b b' : nat -> S -> outcome S * C) todo it s checks last :
  (forall j s, b j s = b' j s) -> py_for b todo it s checks last = py_for b' todo it s checks last.
Proof.
move=> h; elim: todo it s checks last => //= todo IH it s checks last; rewrite h.
by case: (b' it s) => [[s'|s'] c].
Qed.

Lemma upper_kernel n T (eigh : eigh_t n) pinvh psi prox (S : stack n T) ns p (k k' : 'M[R]_T) init :
  (forall s t : 'I_T, (s < t)%N -> k s t = k' s t) ->
  kernel_time_graphical_lasso eigh pinvh psi prox S ns (with_kernel p (Some k)) init =
  kernel_time_graphical_lasso eigh pinvh psi prox S ns (with_kernel p (Some k')) init.
Proof.
move=> h.
have he (e : tpair T) : k (t_l e) (t_r e) = k' (t_l e) (t_r e) by apply: h; exact: (valP e).
have ho ns' (K Z0 : stack n T) ZL ZR a : ktgl_objective ns' S K Z0 ZL ZR a (kernel_of (with_kernel p (Some k))) psi =
   ktgl_objective ns' S K Z0 ZL ZR a (kernel_of (with_kernel p (Some k'))) psi.
  by rewrite /ktgl_objective; congr (xadd _ (Fin _)); apply: eq_bigr => e _; rewrite he.
have hx r (A B : edges n T) : ktgl_edge_update prox k r A B = ktgl_edge_update prox k' r A B.
  by rewrite /ktgl_edge_update; congr pair; apply/ffunP => e; rewrite !ffunE he.
have hu ns' rho Z U : ktgl_updates eigh prox S ns' (with_kernel p (Some k)) rho Z U =
   ktgl_updates eigh prox S ns' (with_kernel p (Some k')) rho Z U.
  by rewrite /ktgl_updates -[kernel_of (with_kernel p (Some k))]/k
    -[kernel_of (with_kernel p (Some k'))]/k' hx.
have hb ns' j s : ktgl_body eigh psi prox S ns' (with_kernel p (Some k)) j s =
   ktgl_body eigh psi prox S ns' (with_kernel p (Some k')) j s.
  by rewrite /ktgl_body hu; case: (ktgl_updates _ _ _ _ _ _ _ _) => [[K Z] U]; rewrite ho.
have hl ns' : ktgl_loop eigh psi prox S ns' (with_kernel p (Some k)) (ktgl_init pinvh S (with_kernel p (Some k)) init) =
   ktgl_loop eigh psi prox S ns' (with_kernel p (Some k')) (ktgl_init pinvh S (with_kernel p (Some k')) init).
  by rewrite /ktgl_loop; apply: py_for_ext; exact: hb.
by rewrite /kernel_time_graphical_lasso hl ho.
Qed.

(** * uniqueness *)
Lemma gl_opt_unique n (S K Y : 'M[R]_n) alpha pen :
  (forall A B, 2%:R * pen (2%:R^-1 *: (A + B)) <= pen A + pen B) -> 0 <= alpha ->
  minimiser (@pd n) (fun K => \tr (S *m K) - ln (\det K) + alpha * pen K) K ->
  minimiser (@pd n) (fun K => \tr (S *m K) - ln (\det K) + alpha * pen K) Y -> K = Y.
Proof.
move=> pc a0 [pK hK] [pY hY]; apply/eqP; apply/negP => /negP ne.
have pM := mid_pd pK pY.
have := hK _ pM; have := hY _ pM.
have := ler_wpmul2l a0 (pc K Y).
have /= := @gl_f_mid _ S _ _ pK pY true (fun _ => elimN eqP ne); rewrite /gl_f /logdet.
move: (\tr _) (\tr _) (\tr _) (ln _) (ln _) (ln _) (pen _) (pen _) (pen _); clear -a0.
move=> a b c d e f g h i h1 h2 h3 h4.
have : a < a; [by mclra | by rewrite ltxx].
Qed.
