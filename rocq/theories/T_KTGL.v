(** Property theorems C28, C63-C68 (and the parts of C17, C18, C25, C26): kernel_time_graphical_lasso. *)
From Coq Require Import Reals.
From mathcomp Require Import all_ssreflect all_algebra.
From Verif Require Import RStruct RTac S_Mat NP M_Prox M_Loop M_GL M_LGL M_TGL M_KTGL S_GL S_LGL S_TGL S_KTGL.
From Verif Require Import RMx P_Eigh P_Prox P_Loop P_GL P_LGL P_TGL P_TGL2 P_TGL3 P_TGL4 P_TGL5.
From Verif Require Import P_KTGL P_KTGL2 P_KTGL3 P_KTGL4 P_KTGL5 T_GL T_LGL T_TGL.
Import Order.TTheory GRing.Theory Num.Theory.

Set Implicit Arguments.
Unset Strict Implicit.
Unset Printing Implicit Defensive.
Local Open Scope ring_scope.

(** concrete data: three times; weight 1 between neighbours, 1/2 between the first and the last *)
Definition exW : 'M[R]_3 := \matrix_(s, t) if (s == t.+1 :> nat) || (t == s.+1 :> nat) then 1 else 2%:R^-1.
Definition exF : 'M[R]_3 := \matrix_(s, t) if (s == t.+1 :> nat) || (t == s.+1 :> nat) then 1 else 0.
Definition exP (k : option 'M[R]_3) (m : nat) : ktgl_params 3 :=
  KTGLParams 1 1 k m (10%:R^-1) 0 true true true None 0 (RhoOptions 10%:R 1 1).
Lemma exW_ge0 s t : 0 <= exW s t.
Proof. by rewrite mxE; case: ifP => _; mclra. Qed.
Lemma exF_first : forall s t : 'I_3, (s < t)%N -> exF s t = if t == s.+1 :> nat then 1 else 0.
Proof.
move=> s t st; rewrite mxE; have -> : s == t.+1 :> nat = false; last by [].
by apply/negbTE; rewrite neq_ltn ltnS ltnW.
Qed.
Lemma exK_opt (w : 'M[R]_3) : (forall s t, 0 <= w s t) -> minimiser (fun K : stack 2 3 => slices (@pd 2) K)
  (fun K => kernel_obj (@l1 2 2) (@l1 2 2) (fun=> 1) exSt 1 w K) exKt.
Proof.
move=> w0; have [[_ _ pK] h] := exS_lgl_opt; rewrite /= subr0 in pK.
split; first by move=> t; rewrite ffunE.
move=> Y pY; rewrite /kernel_obj !mul1r.
have l10 (X : 'M[R]_2) : 0 <= l1 X by apply: sumr_ge0 => i _; apply: sumr_ge0.
have -> : \sum_(s < 3) \sum_(t < 3 | (s < t)%N) w s t * l1 (exKt t - exKt s) = 0.
  rewrite big1 // => s _; rewrite big1 // => t _; rewrite !ffunE subrr.
  by rewrite -(scale0r 0) l1Z normr0 mul0r mulr0.
rewrite addr0 -[X in X <= _]addr0; apply: ler_add; last first.
  by apply: sumr_ge0 => s _; apply: sumr_ge0 => t _; apply: mulr_ge0.
rewrite -!big_split; apply: ler_sum => t _; rewrite !ffunE !mul1r /=.
have := h (Y t, 0); rewrite /lgl_obj /= !mul1r !subr0 mul0r !addr0; apply.
by split=> //=; rewrite ?subr0 //; [apply: pd_sym | apply: psd0].
Qed.

(** C63 *)
Theorem C63_stationary_is_optimal : forall n T (eigh : eigh_t n) psi prox, eigh_ok eigh ->
  forall (S : stack n T) ns, slices (@sym n) S -> (forall t, 0 < ns t) ->
  convex_fun psi ->
  forall p rho (Z U : ktriple n T) K, prox_of psi prox -> 0 <= ktgl_alpha p ->
  (forall s t : 'I_T, (s < t)%N -> 0 <= kernel_of p s t) -> 0 < rho -> slices (@sym n) U.1.1 ->
  ktgl_updates eigh prox S ns p rho Z U = (K, Z, U) ->
  Z = (K, lefts K, rights K) /\
  minimiser (fun K : stack n T => slices (@pd n) K)
    (fun K => kernel_obj (@l1 n n) psi ns S (ktgl_alpha p) (kernel_of p) K) K.
Proof. exact ktgl_fixed_opt. Qed.
Print Assumptions C63_stationary_is_optimal.
Theorem C63_optimal_is_stationary : forall n T (eigh : eigh_t n) psi prox, eigh_ok eigh ->
  forall (S : stack n T) ns, slices (@sym n) S -> (forall t, 0 < ns t) -> convex_fun psi ->
  forall p rho K, prox_of psi prox -> 0 <= ktgl_alpha p ->
  (forall s t : 'I_T, (s < t)%N -> 0 <= kernel_of p s t) -> 0 < rho ->
  minimiser (fun K : stack n T => slices (@pd n) K)
    (fun K => kernel_obj (@l1 n n) psi ns S (ktgl_alpha p) (kernel_of p) K) K ->
  exists U : ktriple n T, slices (@sym n) U.1.1 /\
    ktgl_updates eigh prox S ns p rho (kcopies K) U = (K, kcopies K, U).
Proof. exact ktgl_opt_fixed. Qed.
Print Assumptions C63_optimal_is_stationary.
Theorem C63_documented_objective_refuted : forall n m (eigh : eigh_t n) psi prox, eigh_ok eigh ->
  forall (S : stack n m.+1) ns, slices (@sym n) S -> (forall t, 0 < ns t) -> convex_fun psi ->
  prox_of psi prox -> forall p rho (Z U : ktriple n m.+1) K (i : 'I_n), 0 < ktgl_alpha p ->
  (forall s t : 'I_m.+1, (s < t)%N -> 0 <= kernel_of p s t) -> 0 < rho -> slices (@sym n) U.1.1 ->
  ktgl_updates eigh prox S ns p rho Z U = (K, Z, U) ->
  ~ minimiser (fun K : stack n m.+1 => slices (@pd n) K)
    (fun K => kernel_obj (@l1od n) psi ns S (ktgl_alpha p) (kernel_of p) K) K.
Proof.
move=> n m eigh psi prox He S ns sS ns0 cv hp p rho Z U K i a0 k0 r0 sU E.
have [_ h] := ktgl_fixed_opt He sS ns0 cv hp (ltW a0) k0 r0 sU E.
exact: kernel_l1_not_od h.
Qed.
Print Assumptions C63_documented_objective_refuted.
Example C63_case : exists (eigh : eigh_t 2) (U : ktriple 2 3), eigh_ok eigh /\ slices (@sym 2) U.1.1 /\
  ktgl_updates eigh (@soft_thresholding 2 2) exSt (fun=> 1) (exP (Some exW) 5) 1 (kcopies exKt) U =
    (exKt, kcopies exKt, U).
Proof.
have [eigh h] := eigh_exists 2.
have [|||U [h1 h2]] := @ktgl_opt_fixed _ _ _ _ _ h _ _ exSt_sym (fun=> ltr01) (@l1_convex 2)
  (exP (Some exW) 5) 1 exKt (@l1_prox 2) _ _ _ (exK_opt exW_ge0).
- exact: ler01.
- by move=> s t _; apply: exW_ge0.
- exact: ltr01.
by exists eigh, U.
Qed.

(** C28: the two objectives agree, and so do the estimates *)
Theorem C28_same_objective : forall n T (pen psi : 'M[R]_n -> R) ns (S : 'I_T -> 'M[R]_n) alpha beta w K,
  (forall s t : 'I_T, (s < t)%N -> w s t = if t == s.+1 :> nat then beta else 0) ->
  kernel_obj pen psi ns S alpha w K = time_obj pen psi ns S alpha beta K.
Proof. exact first_neighbour_obj. Qed.
Print Assumptions C28_same_objective.
Theorem C28_same_estimate : forall n m (eigh : eigh_t n) psi prox, eigh_ok eigh ->
  forall (S : stack n m.+1) ns, slices (@sym n) S -> (forall t, 0 < ns t) ->
  convex_fun psi -> prox_of psi prox ->
  forall p rho (Z U : triple n m) K q rho' (Z' U' : ktriple n m.+1) K',
  0 <= tgl_alpha p -> 0 <= tgl_beta p -> 0 < rho -> 0 < rho' -> ktgl_alpha q = tgl_alpha p ->
  (forall s t : 'I_m.+1, (s < t)%N -> kernel_of q s t = if t == s.+1 :> nat then tgl_beta p else 0) ->
  slices (@sym n) U.1.1 -> slices (@sym n) U'.1.1 ->
  tgl_updates eigh (PsiPlain psi prox) S ns p rho Z U = (K, Z, U) ->
  ktgl_updates eigh prox S ns q rho' Z' U' = (K', Z', U') ->
  K = K'.
Proof. exact first_neighbour_same. Qed.
Print Assumptions C28_same_estimate.
Example C28_case : exists (eigh : eigh_t 2) (U : triple 2 2) (U' : ktriple 2 3), [/\ eigh_ok eigh,
  slices (@sym 2) U.1.1, slices (@sym 2) U'.1.1,
  tgl_updates eigh (PsiPlain (@l1 2 2) (@soft_thresholding 2 2)) exSt (fun=> 1) (exT 5) 1 (copies exKt) U =
    (exKt, copies exKt, U) &
  ktgl_updates eigh (@soft_thresholding 2 2) exSt (fun=> 1) (exP (Some exF) 5) 1 (kcopies exKt) U' =
    (exKt, kcopies exKt, U')].
Proof.
have [eigh h] := eigh_exists 2.
have f0 s t : 0 <= exF s t by rewrite mxE; case: ifP => _; mclra.
have [|||U [h1 h2]] := @tgl_opt_fixed _ _ _ _ _ h _ _ exSt_sym (fun=> ltr01) (@l1_convex 2) (exT 5) 1 exKt
  (@l1_prox 2) _ _ _ exSt_opt; [exact: ler01 | exact: ler01 | exact: ltr01 |].
have [|||U' [h1' h2']] := @ktgl_opt_fixed _ _ _ _ _ h _ _ exSt_sym (fun=> ltr01) (@l1_convex 2)
  (exP (Some exF) 5) 1 exKt (@l1_prox 2) _ _ _ (exK_opt f0);
  [exact: ler01 | by move=> s t _; apply: f0 | exact: ltr01 |].
by exists eigh, U, U'.
Qed.

(** C64 *)
Theorem C64_result : forall n T (eigh : eigh_t n) psi prox pinvh (S : stack n T) ns p init r,
  eigh_ok eigh -> slices (@sym n) S -> (forall t, 0 < odflt (fun=> 1) ns t) ->
  (forall a lam, sym a -> sym (prox a lam)) -> 0 < ktgl_rho0 p ->
  0 < tau_inc (ktgl_rho_options p) -> 0 < tau_dec (ktgl_rho_options p) -> (0 < ktgl_max_iter p)%N ->
  kernel_time_graphical_lasso eigh pinvh psi prox S ns p init = Ok r ->
  slices (@sym n) (ktgl_precision r).
Proof. exact ktgl_top_sym. Qed.
Print Assumptions C64_result.
Theorem C64_every_iteration : forall n T (eigh : eigh_t n) psi prox pinvh p, eigh_ok eigh ->
  forall (S : stack n T) ns init, slices (@sym n) S -> (forall t, 0 < ns t) ->
  (forall a lam, sym a -> sym (prox a lam)) -> 0 < ktgl_rho0 p ->
  0 < tau_inc (ktgl_rho_options p) -> 0 < tau_dec (ktgl_rho_options p) -> forall k,
  let s := iter_state (ktgl_body eigh psi prox S ns p) 0 (ktgl_init pinvh S p init) k.+1 in
  [/\ slices (@pd n) (ktgl_K s),
      [/\ slices (@sym n) (ktgl_Z s).1.1, forall e, sym ((ktgl_Z s).1.2 e) & forall e, sym ((ktgl_Z s).2 e)] &
      [/\ slices (@sym n) (ktgl_U s).1.1, forall e, sym ((ktgl_U s).1.2 e) & forall e, sym ((ktgl_U s).2 e)]].
Proof. exact ktgl_iter_post. Qed.
Print Assumptions C64_every_iteration.
Example C64_case : exists (eigh : eigh_t 2) r, eigh_ok eigh /\ slices (@sym 2) exSt /\ exSt 0 0 1 != 0 /\
  (forall a lam, sym a -> sym (@soft_thresholding 2 2 a lam)) /\
  kernel_time_graphical_lasso eigh id (@l1 2 2) (@soft_thresholding 2 2) exSt None (exP (Some exW) 7)
    Init3Empirical = Ok r.
Proof.
have [eigh h] := eigh_exists 2.
have [r hr] := @ktgl_call_ok 2 3 eigh (@l1 2 2) (@soft_thresholding 2 2) id (exP (Some exW) 7) exSt None
  Init3Empirical isT.
exists eigh, r; split=> //; split; first exact: exSt_sym.
split; first by rewrite ffunE mxE; apply/eqP; mclra.
by split=> // a lam; apply: soft_sym.
Qed.

(** C65 *)
Theorem C65_terminates : forall n T (eigh : eigh_t n) psi prox pinvh (S : stack n T) ns p init,
  eigh_ok eigh -> slices (@sym n) S -> (forall t, 0 < odflt (fun=> 1) ns t) ->
  convex_fun psi -> prox_of psi prox -> (forall a lam, sym a -> sym (prox a lam)) ->
  0 < ktgl_rho0 p -> tau_inc (ktgl_rho_options p) = 1 -> tau_dec (ktgl_rho_options p) = 1 ->
  0 <= ktgl_alpha p -> (forall s t : 'I_T, (s < t)%N -> 0 <= kernel_of p s t) ->
  0 <= ktgl_rtol p -> 0 < n%:R * T%:R * ktgl_tol p ->
  (exists Ko : stack n T, minimiser (fun K : stack n T => slices (@pd n) K)
     (fun K => kernel_obj (@l1 n n) psi (odflt (fun=> 1) ns) S (ktgl_alpha p) (kernel_of p) K) Ko) ->
  exists N, forall k, (N < k)%N -> forall r,
    kernel_time_graphical_lasso eigh pinvh psi prox S ns
      (KTGLParams (ktgl_alpha p) (ktgl_rho0 p) (ktgl_kernel p) k (ktgl_tol p) (ktgl_rtol p)
        (ktgl_return_history p) (ktgl_return_n_iter p) (ktgl_compute_objective p) (ktgl_stop_at p)
        (ktgl_stop_when p) (ktgl_rho_options p)) init = Ok r ->
    ktgl_warned r = false.
Proof. exact ktgl_terminates. Qed.
Print Assumptions C65_terminates.
Example C65_case : 0 < 2%:R * 3%:R * ktgl_tol (exP (Some exW) 5) /\
  exists Ko : stack 2 3, minimiser (fun K : stack 2 3 => slices (@pd 2) K)
    (fun K => kernel_obj (@l1 2 2) (@l1 2 2) (odflt (fun=> 1) None) exSt 1 (kernel_of (exP (Some exW) 5)) K) Ko.
Proof. by split; [rewrite /=; mclra | exists exKt; exact: (exK_opt exW_ge0)]. Qed.

(** C66: without a kernel the times are not coupled at all *)
Theorem C66_default_kernel_decouples : forall n T (eigh : eigh_t n) psi prox, eigh_ok eigh ->
  forall (S : stack n T) ns, slices (@sym n) S -> (forall t, 0 < ns t) ->
  convex_fun psi -> prox_of psi prox ->
  forall p rho (Z U : ktriple n T) K, ktgl_kernel p = None -> 0 <= ktgl_alpha p -> 0 < rho ->
  slices (@sym n) U.1.1 -> ktgl_updates eigh prox S ns p rho Z U = (K, Z, U) ->
  forall t, minimiser (@pd n) (fun X => ns t * (\tr (S t *m X) - ln (\det X)) + ktgl_alpha p * l1 X) (K t).
Proof. exact ktgl_default_decoupled. Qed.
Print Assumptions C66_default_kernel_decouples.
Example C66_case : exists (eigh : eigh_t 2) (U : ktriple 2 3), eigh_ok eigh /\ slices (@sym 2) U.1.1 /\
  ktgl_updates eigh (@soft_thresholding 2 2) exSt (fun=> 1) (exP None 5) 1 (kcopies exKt) U =
    (exKt, kcopies exKt, U).
Proof.
have [eigh h] := eigh_exists 2.
have i0 s t : 0 <= (1%:M : 'M[R]_3) s t by rewrite mxE ler0n.
have [|||U [h1 h2]] := @ktgl_opt_fixed _ _ _ _ _ h _ _ exSt_sym (fun=> ltr01) (@l1_convex 2)
  (exP None 5) 1 exKt (@l1_prox 2) _ _ _ (exK_opt i0).
- exact: ler01.
- by move=> s t _; apply: i0.
- exact: ltr01.
by exists eigh, U.
Qed.

(** C67 *)
Theorem C67_only_upper_kernel : forall n T (eigh : eigh_t n) pinvh psi prox (S : stack n T) ns p
    (k k' : 'M[R]_T) init,
  (forall s t : 'I_T, (s < t)%N -> k s t = k' s t) ->
  kernel_time_graphical_lasso eigh pinvh psi prox S ns (with_kernel p (Some k)) init =
  kernel_time_graphical_lasso eigh pinvh psi prox S ns (with_kernel p (Some k')) init.
Proof. exact upper_kernel. Qed.
Print Assumptions C67_only_upper_kernel.
Example C67_case : let k' : 'M[R]_3 := \matrix_(s, t) if (s < t)%N then exW s t else 7%:R in
  (forall s t : 'I_3, (s < t)%N -> exW s t = k' s t) /\ exW 0 0 <> k' 0 0.
Proof.
split; first by move=> s t st; rewrite [RHS]mxE st.
rewrite !mxE /=; apply/eqP; rewrite lt_eqF //; mclra.
Qed.

(** C68: two stationary states of the same problem, whatever the penalty rho and the start, agree *)
Theorem C68_graphical_lasso : forall n (eigh eigh' : eigh_t n), eigh_ok eigh -> eigh_ok eigh' ->
  forall S : 'M[R]_n, sym S -> forall alpha rho rho' Z U K Z' U' K', 0 <= alpha -> 0 < rho -> 0 < rho' ->
  gl_updates eigh S alpha 1 rho Z U = (K, Z, U) -> gl_updates eigh' S alpha 1 rho' Z' U' = (K', Z', U') ->
  Z = Z'.
Proof.
move=> n eigh eigh' He He' S sS alpha rho rho' Z U K Z' U' K' a0 r0 r0' E E'.
have [_ h] := gl_fixed_opt He sS a0 r0 E; have [_ h'] := gl_fixed_opt He' sS a0 r0' E'.
apply: (gl_opt_unique (pen := @l1od n) _ a0 h h') => A B.
rewrite l1odZ; last by mclra.
by have := l1odD A B; move: (l1od _) (l1od _) (l1od _) => x y z h3; mclra.
Qed.
Print Assumptions C68_graphical_lasso.
Theorem C68_time_graphical_lasso : forall n m (eigh eigh' : eigh_t n) psi prox prox',
  eigh_ok eigh -> eigh_ok eigh' ->
  forall (S : stack n m.+1) ns, slices (@sym n) S -> (forall t, 0 < ns t) ->
  convex_fun psi -> prox_of psi prox -> prox_of psi prox' ->
  forall p p' rho rho' (Z U : triple n m) K (Z' U' : triple n m) K',
  0 <= tgl_alpha p -> 0 <= tgl_beta p -> tgl_alpha p' = tgl_alpha p -> tgl_beta p' = tgl_beta p ->
  0 < rho -> 0 < rho' -> slices (@sym n) U.1.1 -> slices (@sym n) U'.1.1 ->
  tgl_updates eigh (PsiPlain psi prox) S ns p rho Z U = (K, Z, U) ->
  tgl_updates eigh' (PsiPlain psi prox') S ns p' rho' Z' U' = (K', Z', U') ->
  Z.1.1 = Z'.1.1.
Proof.
move=> n m eigh eigh' psi prox prox' He He' S ns sS ns0 cv hp hp' p p' rho rho' Z U K Z' U' K'.
move=> a0 b0 ea eb r0 r0' sU sU' E E'.
have [-> h] := tgl_fixed_opt He sS ns0 cv hp a0 b0 r0 sU E.
rewrite -ea in a0; rewrite -eb in b0.
have [-> h'] := tgl_fixed_opt He' sS ns0 cv hp' a0 b0 r0' sU' E'.
pose w : 'M[R]_m.+1 := \matrix_(s, t) if t == s.+1 :> nat then tgl_beta p else 0.
have fn : first_neighbour (tgl_beta p) w by move=> s t _; rewrite mxE.
have k0 : kern_ge0 w by move=> s t _; rewrite mxE; case: ifP => // _; rewrite -eb.
rewrite ea in a0 h'; rewrite eb in h'; apply: (kernel_opt_unique ns0 cv a0 k0).
  by apply: opt_ext h => Y; rewrite (first_neighbour_obj _ _ _ _ _ _ fn).
by apply: opt_ext h' => Y; rewrite (first_neighbour_obj _ _ _ _ _ _ fn).
Qed.
Print Assumptions C68_time_graphical_lasso.
Theorem C68_kernel_time_graphical_lasso : forall n T (eigh eigh' : eigh_t n) psi prox prox',
  eigh_ok eigh -> eigh_ok eigh' ->
  forall (S : stack n T) ns, slices (@sym n) S -> (forall t, 0 < ns t) ->
  convex_fun psi -> prox_of psi prox -> prox_of psi prox' ->
  forall p p' rho rho' (Z U : ktriple n T) K (Z' U' : ktriple n T) K',
  0 <= ktgl_alpha p -> (forall s t : 'I_T, (s < t)%N -> 0 <= kernel_of p s t) ->
  ktgl_alpha p' = ktgl_alpha p -> kernel_of p' = kernel_of p ->
  0 < rho -> 0 < rho' -> slices (@sym n) U.1.1 -> slices (@sym n) U'.1.1 ->
  ktgl_updates eigh prox S ns p rho Z U = (K, Z, U) ->
  ktgl_updates eigh' prox' S ns p' rho' Z' U' = (K', Z', U') ->
  Z.1.1 = Z'.1.1.
Proof.
move=> n T eigh eigh' psi prox prox' He He' S ns sS ns0 cv hp hp' p p' rho rho' Z U K Z' U' K'.
move=> a0 b0 ea eb r0 r0' sU sU' E E'.
have [-> h] := ktgl_fixed_opt He sS ns0 cv hp a0 b0 r0 sU E.
have a0' : 0 <= ktgl_alpha p' by rewrite ea.
have b0' : kern_ge0 (kernel_of p') by rewrite eb.
have [-> h'] := ktgl_fixed_opt He' sS ns0 cv hp' a0' b0' r0' sU' E'.
rewrite ea eb in h'; exact: (kernel_opt_unique ns0 cv a0 b0 h h').
Qed.
Print Assumptions C68_kernel_time_graphical_lasso.

(** C17, C18, C25, C26 for this solver *)
Theorem C17_kernel_time_graphical_lasso_count : forall n T (eigh : eigh_t n) psi prox pinvh p
    (S : stack n T) ns init r,
  ktgl_return_n_iter p -> ktgl_return_history p ->
  kernel_time_graphical_lasso eigh pinvh psi prox S ns p init = Ok r ->
  exists h k, [/\ ktgl_history r = Some h, ktgl_n_iter r = Some k, size h = k.+1 &
    [/\ (0 < k)%N, (k <= ktgl_max_iter p)%N, ktgl_warned r -> k = ktgl_max_iter p &
    k = size (le_checks (ktgl_loop eigh psi prox S (odflt (fun=> 1) ns) p (ktgl_init pinvh S p init)))]].
Proof. exact ktgl_count. Qed.
Print Assumptions C17_kernel_time_graphical_lasso_count.
Theorem C18_kernel_time_graphical_lasso_zero_iterations :
  forall n T (eigh : eigh_t n) psi prox pinvh p (S : stack n T) ns init, ktgl_max_iter p = 0%N ->
  (ktgl_return_n_iter p ->
     kernel_time_graphical_lasso eigh pinvh psi prox S ns p init = UnboundLocalError _) /\
  (~~ ktgl_return_n_iter p -> exists r, kernel_time_graphical_lasso eigh pinvh psi prox S ns p init = Ok r /\
     ktgl_precision r = init_precision3 pinvh S init /\ ktgl_warned r = true).
Proof. exact ktgl_zero_iter. Qed.
Print Assumptions C18_kernel_time_graphical_lasso_zero_iterations.
(** the kernel is reversed along with the data *)
Theorem C25_kernel_time_reversal : forall n T (eigh : eigh_t n) psi prox,
  (forall x, psi (- x) = psi x) -> (forall x lam, prox (- x) lam = - prox x lam) ->
  forall (S : stack n T) ns p (k k' : 'M[R]_T) pinvh pinvh' init init',
  (forall s t : 'I_T, (s < t)%N -> k' s t = k (rev_ord t) (rev_ord s)) ->
  init_precision3 pinvh' [ffun t => S (rev_ord t)] init' =
    [ffun t => init_precision3 pinvh S init (rev_ord t)] ->
  (forall M, pinvh' M = pinvh M) ->
  match kernel_time_graphical_lasso eigh pinvh psi prox S (Some ns) (with_kernel p (Some k)) init,
        kernel_time_graphical_lasso eigh pinvh' psi prox [ffun t => S (rev_ord t)]
          (Some (fun t => ns (rev_ord t))) (with_kernel p (Some k')) init' with
  | Ok r, Ok r' => [/\ ktgl_precision r' = [ffun t => ktgl_precision r (rev_ord t)],
      ktgl_covariance r' = [ffun t => ktgl_covariance r (rev_ord t)],
      ktgl_history r' = ktgl_history r, ktgl_n_iter r' = ktgl_n_iter r & ktgl_warned r' = ktgl_warned r]
  | UnboundLocalError, UnboundLocalError => True
  | _, _ => False
  end.
Proof. by move=> n T eigh psi prox ev od S ns p k k' pinvh pinvh' init init' hk; apply: krev_call. Qed.
Print Assumptions C25_kernel_time_reversal.
Example C25_kernel_case : forall s t : 'I_3, (s < t)%N -> exF s t = exF (rev_ord t) (rev_ord s).
Proof. by do 2 case=> [[|[|[|//]]] ?] //; rewrite !mxE. Qed.
Theorem C26_kernel_time_objective_refuted : forall n m (eigh : eigh_t n.+1) psi prox pinvh
    (S : stack n.+1 m.+1) ns p init,
  eigh_ok eigh -> slices (@sym n.+1) S -> (forall t, 0 < ns t) -> 0 < ktgl_rho0 p ->
  ktgl_compute_objective p -> ktgl_return_history p -> (0 < ktgl_max_iter p)%N ->
  exists a, 0 < a /\ forall r,
    kernel_time_graphical_lasso eigh pinvh psi prox S (Some ns) (kwith_alpha p a) init = Ok r ->
    let s := iter_state (ktgl_body eigh psi prox S ns (kwith_alpha p a)) 0
               (ktgl_init pinvh S (kwith_alpha p a) init) 1 in
    [/\ slices (@pd n.+1) (ktgl_K s),
      exists v, ktgl_objective ns S (ktgl_K s) (ktgl_Z s).1.1 (ktgl_Z s).1.2 (ktgl_Z s).2 a (kernel_of p)
        psi = Fin v &
      exists h c0, ktgl_history r = Some h /\ c_obj (nth c0 h 1) = PInf].
Proof. exact ktgl_obj_bad. Qed.
Print Assumptions C26_kernel_time_objective_refuted.
Example C26_kernel_case : slices (@sym 2) exSt /\ ktgl_compute_objective (exP (Some exW) 3) /\
  ktgl_return_history (exP (Some exW) 3) /\ (0 < ktgl_max_iter (exP (Some exW) 3))%N.
Proof. by split=> //; exact: exSt_sym. Qed.
