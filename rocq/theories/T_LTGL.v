(** Property theorems C27, C69-C74 (and the parts of C17, C18, C26): the latent time-varying solvers
    latent_time_graphical_lasso, kernel_latent_time_graphical_lasso and
    latent_time_matrix_decomposition. *)
From Coq Require Import Reals.
From mathcomp Require Import all_ssreflect all_algebra.
From Verif Require Import RStruct RTac LinTac S_Mat NP M_Prox M_Loop M_GL M_LGL M_TGL M_KTGL M_LTGL M_KLTGL.
From Verif Require Import S_GL S_LGL S_TGL S_KTGL S_LTGL.
From Verif Require Import RMx P_Eigh P_Prox P_Loop P_GL P_LGL P_TGL P_TGL2 P_TGL3 P_TGL4 P_TGL5.
From Verif Require Import P_KTGL P_Utils2 P_LatCore P_Lat2 P_LTGL P_KLTGL T_GL T_LGL T_TGL T_KTGL.
Import Order.TTheory GRing.Theory Num.Theory.

Set Implicit Arguments.
Unset Strict Implicit.
Unset Printing Implicit Defensive.
Local Open Scope ring_scope.

(** ** C27: structure of every iterate *)
Definition pair_sym n m (X : spair n m) : Prop := slices (@sym n) X.1 /\ slices (@sym n) X.2.
Theorem C27_latent_time_graphical_lasso : forall n m (psi phi : 'M[R]_n -> R) pp pf (eigh : eigh_t n) nuc pinvh
    (S : stack n m.+1) p, eigh_ok eigh -> slices (@sym n) S ->
  (forall a lam, sym a -> sym (pp a lam)) -> (forall a lam, sym a -> sym (pf a lam)) ->
  0 <= lt_tau p -> 0 < lt_rho0 p -> 0 < tau_inc (lt_rho_options p) -> 0 < tau_dec (lt_rho_options p) ->
  forall ns init, (forall t, 0 < ns t) -> slices (@sym n) (init_precision3 pinvh S init) -> forall k,
  let s := iter_state (lt_body (ltgl_R_update eigh S ns) (ltgl_objective nuc S ns p psi phi) eigh
             (PsiPlain psi pp) (PsiPlain phi pf) p) 0 (lt_init p (init_precision3 pinvh S init)) k.+1 in
  [/\ slices (@pd n) (lt_old s).1.1 (* R *), slices (@sym n) (lt_Z0 (lt_pr s)),
      slices (@psd n) (lt_W0 (lt_pr s)),
      pair_sym (lt_Z12 (lt_pr s)) /\ pair_sym (lt_W12 (lt_pr s)) &
      [/\ slices (@sym n) (lt_X0 (lt_du s)), pair_sym (lt_X12 (lt_du s)) & pair_sym (lt_U12 (lt_du s))]].
Proof.
move=> n m psi phi pp pf eigh nuc pinvh S p He sS ps fs t0 r0 ti td ns init ns0 sI k.
by have [h [h1 h2 [h3 h4 h5 h6] h7 [h8 h9 h10 h11]]] := ltgl_iter_struct psi phi nuc He sS ps fs t0 r0 ti td ns0 sI k.
Qed.
Print Assumptions C27_latent_time_graphical_lasso.
Theorem C27_latent_time_matrix_decomposition : forall n m (psi phi : 'M[R]_n -> R) pp pf (eigh : eigh_t n) nuc
    (S : stack n m.+1) p, eigh_ok eigh -> slices (@sym n) S ->
  (forall a lam, sym a -> sym (pp a lam)) -> (forall a lam, sym a -> sym (pf a lam)) ->
  0 <= lt_tau p -> 0 < lt_rho0 p -> 0 < tau_inc (lt_rho_options p) -> 0 < tau_dec (lt_rho_options p) ->
  forall k,
  let s := iter_state (lt_body (ltmd_R_update S) (ltmd_objective nuc S p psi phi) eigh
             (PsiPlain psi pp) (PsiPlain phi pf) p) 0 (lt_init p 0) k.+1 in
  [/\ slices (@sym n) (lt_old s).1.1 (* R *), slices (@sym n) (lt_Z0 (lt_pr s)),
      slices (@psd n) (lt_W0 (lt_pr s)),
      pair_sym (lt_Z12 (lt_pr s)) /\ pair_sym (lt_W12 (lt_pr s)) &
      [/\ slices (@sym n) (lt_X0 (lt_du s)), pair_sym (lt_X12 (lt_du s)) & pair_sym (lt_U12 (lt_du s))]].
Proof.
move=> n m psi phi pp pf eigh nuc S p He sS ps fs t0 r0 ti td k.
by have [h [h1 h2 [h3 h4 h5 h6] h7 [h8 h9 h10 h11]]] := ltmd_iter_struct psi phi nuc He sS ps fs t0 r0 ti td k.
Qed.
Print Assumptions C27_latent_time_matrix_decomposition.
Theorem C27_kernel_latent_time_graphical_lasso : forall n T (eigh : eigh_t n) nuc psi phi pp pf p
    (S : stack n T) ns pinvh, eigh_ok eigh -> slices (@sym n) S -> (forall t, 0 < ns t) ->
  (forall a lam, sym a -> sym (pp a lam)) -> (forall a lam, sym a -> sym (pf a lam)) ->
  0 <= klt_tau p -> 0 < klt_rho0 p -> 0 < tau_inc (klt_rho_options p) -> 0 < tau_dec (klt_rho_options p) ->
  forall init, slices (@sym n) (init_precision3 pinvh S init) -> forall k,
  let s := iter_state (klt_body eigh nuc psi pp phi pf S ns p) 0 (klt_init p (init_precision3 pinvh S init)) k.+1 in
  [/\ slices (@pd n) (klt_old s).1.1 (* R *), slices (@sym n) (klt_Z0 (klt_pr s)),
      slices (@psd n) (klt_W0 (klt_pr s)),
      forall e, [/\ sym ((klt_ZM (klt_pr s)).1 e), sym ((klt_ZM (klt_pr s)).2 e),
                    sym ((klt_WM (klt_pr s)).1 e) & sym ((klt_WM (klt_pr s)).2 e)] &
      slices (@sym n) (klt_X0 (klt_du s)) /\
      forall e, [/\ sym ((klt_YM (klt_du s)).1 e), sym ((klt_YM (klt_du s)).2 e),
                    sym ((klt_UM (klt_du s)).1 e) & sym ((klt_UM (klt_du s)).2 e)]].
Proof.
move=> n T eigh nuc psi phi pp pf p S ns pinvh He sS ns0 ps fs t0 r0 ti td init sI k.
by have [h [h1 h2 [[h3 h4] [h5 h6]] h7 [[h8 h9] [h10 h11]]]] :=
  klt_iter_post nuc psi phi He sS ns0 ps fs t0 r0 ti td sI k.
Qed.
Print Assumptions C27_kernel_latent_time_graphical_lasso.
(** what the caller receives *)
Theorem C27_result : forall n m (psi phi : 'M[R]_n -> R) pp pf (eigh : eigh_t n) nuc pinvh
    (S : stack n m.+1) p, eigh_ok eigh -> slices (@sym n) S ->
  (forall a lam, sym a -> sym (pp a lam)) -> (forall a lam, sym a -> sym (pf a lam)) ->
  0 <= lt_tau p -> 0 < lt_rho0 p -> 0 < tau_inc (lt_rho_options p) -> 0 < tau_dec (lt_rho_options p) ->
  (0 < lt_max_iter p)%N ->
  (forall ns init r, (forall t, 0 < odflt (fun=> 1) ns t) -> slices (@sym n) (init_precision3 pinvh S init) ->
    latent_time_graphical_lasso eigh nuc pinvh (PsiPlain psi pp) (PsiPlain phi pf) S ns p init = Ok r ->
    [/\ slices (@sym n) (lt_precision r), slices (@psd n) (lt_latent r) &
        lt_covariance r = Some [ffun t => pinvh (lt_precision r t)]]) /\
  (forall r, latent_time_matrix_decomposition eigh nuc (PsiPlain psi pp) (PsiPlain phi pf) S p = Ok r ->
    slices (@sym n) (lt_precision r) /\ slices (@psd n) (lt_latent r)).
Proof.
move=> n m psi phi pp pf eigh nuc pinvh S p He sS ps fs t0 r0 ti td m0; split.
  move=> ns init r ns0 sI /lt_returnE [e1 e2 e3 _].
  have [] := lt_loop_post psi phi (ltgl_objective nuc S (odflt (fun=> 1) ns) p psi phi) He ps fs t0 ti td
    (P := fun A : stack n m.+1 => slices (@pd n) A) (fun A h t => pd_sym (h t))
    (fun rho A rp _ => proj1 (ld_Rspec He sS ns0 rp A)) sI r0 m0.
  by move=> _ [h1 h2 _ _ _]; split=> //; rewrite ?e1 ?e2.
move=> r /lt_returnE [e1 e2 e3 _].
have [] := lt_loop_post psi phi (ltmd_objective nuc S p psi phi) He ps fs t0 ti td
    (P := fun A : stack n m.+1 => slices (@sym n) A) (fun A h => h)
    (fun rho A rp h => proj1 (fr_Rspec sS rp h)) (@st_sym0 n m.+1) r0 m0.
by move=> _ [h1 h2 _ _ _]; split=> //; rewrite ?e1 ?e2.
Qed.
Print Assumptions C27_result.
Theorem C27_kernel_result : forall n T (eigh : eigh_t n) nuc psi phi pp pf p
    (S : stack n T) ns pinvh, eigh_ok eigh -> slices (@sym n) S -> (forall t, 0 < odflt (fun=> 1) ns t) ->
  (forall a lam, sym a -> sym (pp a lam)) -> (forall a lam, sym a -> sym (pf a lam)) ->
  0 <= klt_tau p -> 0 < klt_rho0 p -> 0 < tau_inc (klt_rho_options p) -> 0 < tau_dec (klt_rho_options p) ->
  forall init r, slices (@sym n) (init_precision3 pinvh S init) -> (0 < klt_max_iter p)%N ->
  kernel_latent_time_graphical_lasso eigh nuc pinvh psi pp phi pf S ns p init = Ok r ->
  [/\ slices (@sym n) (klt_precision r), slices (@psd n) (klt_latent r) &
      klt_covariance r = [ffun t => pinvh (klt_precision r t)]].
Proof.
move=> n T eigh nuc psi phi pp pf p S ns pinvh He sS ns0 ps fs t0 r0 ti td init r sI m0 /klt_callE [e1 e2 e3 _].
have [] := klt_loop_post nuc psi phi He sS ns0 ps fs t0 r0 ti td sI m0.
by move=> _ [h1 h2 _ _ _]; split=> //; rewrite ?e1 ?e2.
Qed.
Print Assumptions C27_kernel_result.

(** concrete data: three times, two variables, alpha = beta = eta = 1, tau = 0, l1 couplings *)
Definition exLT (m : nat) : lt_params := LTParams 1 0 1 1 1 m (10%:R^-1) 0 true true (RhoOptions 10%:R 1 1) true.
Definition exKLT (m : nat) : klt_params 3 :=
  KLTParams 1 0 1 (Some exW) (Some exF) m (10%:R^-1) 0 true true (RhoOptions 10%:R 1 1) true.
Local Notation l1p := (PsiPlain (@l1 2 2) (@soft_thresholding 2 2)).
Example C27_case : exists (eigh : eigh_t 2) r r' r'', [/\ eigh_ok eigh, slices (@sym 2) exSt,
  latent_time_graphical_lasso eigh (@mxtrace _ 2) id l1p l1p exSt None (exLT 7) Init3Empirical = Ok r,
  latent_time_matrix_decomposition eigh (@mxtrace _ 2) l1p l1p exSt (exLT 7) = Ok r' &
  kernel_latent_time_graphical_lasso eigh (@mxtrace _ 2) id (@l1 2 2) (@soft_thresholding 2 2) (@l1 2 2)
    (@soft_thresholding 2 2) exSt None (exKLT 7) Init3Empirical = Ok r'' /\
  slices (@sym 2) (init_precision3 id exSt Init3Empirical)].
Proof.
have [eigh h] := eigh_exists 2.
have [r hr] := @lt_call_ok 2 2 (exLT 7) (fun Z : stack 2 3 => Some [ffun t => id (Z t)]) eigh l1p l1p
  (ltgl_R_update eigh exSt (fun=> 1)) (ltgl_objective (@mxtrace _ 2) exSt (fun=> 1) (exLT 7) (@l1 2 2) (@l1 2 2))
  (init_precision3 id exSt Init3Empirical) isT.
have [r' hr'] := @lt_call_ok 2 2 (exLT 7) (fun=> None) eigh l1p l1p
  (ltmd_R_update exSt) (ltmd_objective (@mxtrace _ 2) exSt (exLT 7) (@l1 2 2) (@l1 2 2)) 0 isT.
have [r'' hr''] := @klt_call_ok 2 3 eigh (@mxtrace _ 2) (@l1 2 2) (@l1 2 2) (@soft_thresholding 2 2)
  (@soft_thresholding 2 2) (exKLT 7) exSt None id Init3Empirical isT.
exists eigh, r, r', r''; split=> //; [exact: exSt_sym | split=> //].
move=> t; rewrite ffunE; set A := (X in sym (id X)); apply/matrixP => i j; rewrite !mxE.
by rewrite eq_sym (_ : exSt t j i = exSt t i j) // -[in RHS](exSt_sym t) mxE.
Qed.

(** ** C69, C70, C71: stationary states are exactly the minimisers *)
Theorem C69_stationary_is_optimal : forall n m psi phi pp pf (eigh : eigh_t n), eigh_ok eigh ->
  convex_fun psi -> convex_fun phi -> prox_of psi pp -> prox_of phi pf ->
  forall p rho, 0 <= lt_alpha p -> 0 <= lt_tau p -> 0 <= lt_beta p -> 0 <= lt_eta p -> 0 < rho ->
  forall (S : stack n m.+1) ns, slices (@sym n) S -> (forall t, 0 < ns t) ->
  forall v d Rm,
  lt_updates (ltgl_R_update eigh S ns) eigh (PsiPlain psi pp) (PsiPlain phi pf) p rho v d = (Rm, v, d) ->
  let K := lt_Z0 v in let L := lt_W0 v in
  [/\ Rm = K - L, lt_Z12 v = scopies K, lt_W12 v = scopies L &
      minimiser (fun KL : stack n m.+1 * stack n m.+1 => latent_feasible (@pd n) KL.1 KL.2)
        (fun KL => latent_obj (logdet_loss ns S) (@l1 n n) (lt_alpha p) (lt_tau p)
           (fun K => lt_beta p * neighbour_coupling psi K) (fun L => lt_eta p * neighbour_coupling phi L)
           KL.1 KL.2) (K, L)].
Proof.
move=> n m psi phi pp pf eigh He cp cf hp hf p rho a0 t0 b0 e0 r0 S ns sS ns0 v d Rm.
exact: (ltgl_fixed_opt He cp cf a0 t0 b0 e0 sS ns0 r0 hp hf).
Qed.
Print Assumptions C69_stationary_is_optimal.
Theorem C69_optimal_is_stationary : forall n m psi phi pp pf (eigh : eigh_t n), eigh_ok eigh ->
  convex_fun psi -> convex_fun phi -> prox_of psi pp -> prox_of phi pf ->
  (forall x, psi x^T = psi x) -> (forall x, phi x^T = phi x) ->
  forall p rho, 0 <= lt_alpha p -> 0 <= lt_tau p -> 0 <= lt_beta p -> 0 <= lt_eta p -> 0 < rho ->
  forall (S : stack n m.+1) ns, slices (@sym n) S -> (forall t, 0 < ns t) ->
  forall K L,
  minimiser (fun KL : stack n m.+1 * stack n m.+1 => latent_feasible (@pd n) KL.1 KL.2)
        (fun KL => latent_obj (logdet_loss ns S) (@l1 n n) (lt_alpha p) (lt_tau p)
           (fun K => lt_beta p * neighbour_coupling psi K) (fun L => lt_eta p * neighbour_coupling phi L)
           KL.1 KL.2) (K, L) ->
  let v := LTPrimal K (scopies K) L (scopies L) in
  exists d, [/\ slices (@sym n) (lt_X0 d), pair_sym (lt_X12 d), pair_sym (lt_U12 d) &
    lt_updates (ltgl_R_update eigh S ns) eigh (PsiPlain psi pp) (PsiPlain phi pf) p rho v d = (K - L, v, d)].
Proof.
move=> n m psi phi pp pf eigh He cp cf hp hf pT fT p rho a0 t0 b0 e0 r0 S ns sS ns0 K L mKL v.
have [d [[_ _ h3 h4 h5] h]] := ltgl_opt_fixed He cp cf a0 t0 b0 e0 sS ns0 r0 hp hf pT fT mKL.
by exists d.
Qed.
Print Assumptions C69_optimal_is_stationary.
Theorem C70_stationary_is_optimal : forall n T psi phi pp pf (eigh : eigh_t n), eigh_ok eigh ->
  convex_fun psi -> convex_fun phi -> prox_of psi pp -> prox_of phi pf ->
  forall (p : klt_params T) rho, 0 <= klt_alpha p -> 0 <= klt_tau p ->
  (forall s t : 'I_T, (s < t)%N -> 0 <= kpsi_of p s t) -> (forall s t : 'I_T, (s < t)%N -> 0 <= kphi_of p s t) ->
  0 < rho -> forall (S : stack n T) ns, slices (@sym n) S -> (forall t, 0 < ns t) ->
  forall v d Rm, klt_updates eigh pp pf S ns p rho v d = (Rm, v, d) ->
  let K := klt_Z0 v in let L := klt_W0 v in
  [/\ Rm = K - L, klt_ZM v = ecopies K, klt_WM v = ecopies L &
      minimiser (fun KL : stack n T * stack n T => latent_feasible (@pd n) KL.1 KL.2)
        (fun KL => latent_obj (logdet_loss ns S) (@l1 n n) (klt_alpha p) (klt_tau p)
           (kernel_coupling (fun s t => kpsi_of p s t) psi) (kernel_coupling (fun s t => kphi_of p s t) phi)
           KL.1 KL.2) (K, L)].
Proof.
move=> n T psi phi pp pf eigh He cp cf hp hf p rho a0 t0 b0 e0 r0 S ns sS ns0 v d Rm.
exact: (kltgl_fixed_opt He cp cf a0 t0 b0 e0 sS ns0 r0 hp hf).
Qed.
Print Assumptions C70_stationary_is_optimal.
Theorem C70_optimal_is_stationary : forall n T psi phi pp pf (eigh : eigh_t n), eigh_ok eigh ->
  convex_fun psi -> convex_fun phi -> prox_of psi pp -> prox_of phi pf ->
  (forall x, psi x^T = psi x) -> (forall x, phi x^T = phi x) ->
  forall (p : klt_params T) rho, 0 <= klt_alpha p -> 0 <= klt_tau p ->
  (forall s t : 'I_T, (s < t)%N -> 0 <= kpsi_of p s t) -> (forall s t : 'I_T, (s < t)%N -> 0 <= kphi_of p s t) ->
  0 < rho -> forall (S : stack n T) ns, slices (@sym n) S -> (forall t, 0 < ns t) -> forall K L,
  minimiser (fun KL : stack n T * stack n T => latent_feasible (@pd n) KL.1 KL.2)
        (fun KL => latent_obj (logdet_loss ns S) (@l1 n n) (klt_alpha p) (klt_tau p)
           (kernel_coupling (fun s t => kpsi_of p s t) psi) (kernel_coupling (fun s t => kphi_of p s t) phi)
           KL.1 KL.2) (K, L) ->
  let v := KLTPrimal K (ecopies K) L (ecopies L) in
  exists d, klt_updates eigh pp pf S ns p rho v d = (K - L, v, d).
Proof.
move=> n T psi phi pp pf eigh He cp cf hp hf pT fT p rho a0 t0 b0 e0 r0 S ns sS ns0 K L mKL v.
have [d [_ h]] := kltgl_opt_fixed He cp cf a0 t0 b0 e0 sS ns0 r0 hp hf pT fT mKL.
by exists d.
Qed.
Print Assumptions C70_optimal_is_stationary.
Theorem C71_stationary_is_optimal : forall n m psi phi pp pf (eigh : eigh_t n), eigh_ok eigh ->
  convex_fun psi -> convex_fun phi -> prox_of psi pp -> prox_of phi pf ->
  forall p rho, 0 <= lt_alpha p -> 0 <= lt_tau p -> 0 <= lt_beta p -> 0 <= lt_eta p -> 0 < rho ->
  forall (S : stack n m.+1), slices (@sym n) S ->
  forall v d Rm, slices (@sym n) (lt_Z0 v) -> slices (@sym n) (lt_X0 d) ->
  lt_updates (ltmd_R_update S) eigh (PsiPlain psi pp) (PsiPlain phi pf) p rho v d = (Rm, v, d) ->
  let K := lt_Z0 v in let L := lt_W0 v in
  [/\ Rm = K - L, lt_Z12 v = scopies K, lt_W12 v = scopies L &
      minimiser (fun KL : stack n m.+1 * stack n m.+1 => latent_feasible (@sym n) KL.1 KL.2)
        (fun KL => latent_obj (frobenius_loss S) (@l1 n n) (lt_alpha p) (lt_tau p)
           (fun K => lt_beta p * neighbour_coupling psi K) (fun L => lt_eta p * neighbour_coupling phi L)
           KL.1 KL.2) (K, L)].
Proof.
move=> n m psi phi pp pf eigh He cp cf hp hf p rho a0 t0 b0 e0 r0 S sS v d Rm.
exact: (ltmd_fixed_opt He cp cf a0 t0 b0 e0 sS r0 hp hf).
Qed.
Print Assumptions C71_stationary_is_optimal.
Theorem C71_optimal_is_stationary : forall n m psi phi pp pf (eigh : eigh_t n), eigh_ok eigh ->
  convex_fun psi -> convex_fun phi -> prox_of psi pp -> prox_of phi pf ->
  (forall x, psi x^T = psi x) -> (forall x, phi x^T = phi x) ->
  forall p rho, 0 <= lt_alpha p -> 0 <= lt_tau p -> 0 <= lt_beta p -> 0 <= lt_eta p -> 0 < rho ->
  forall (S : stack n m.+1), slices (@sym n) S -> forall K L,
  minimiser (fun KL : stack n m.+1 * stack n m.+1 => latent_feasible (@sym n) KL.1 KL.2)
        (fun KL => latent_obj (frobenius_loss S) (@l1 n n) (lt_alpha p) (lt_tau p)
           (fun K => lt_beta p * neighbour_coupling psi K) (fun L => lt_eta p * neighbour_coupling phi L)
           KL.1 KL.2) (K, L) ->
  let v := LTPrimal K (scopies K) L (scopies L) in
  exists d, [/\ slices (@sym n) (lt_X0 d), pair_sym (lt_X12 d), pair_sym (lt_U12 d) &
    lt_updates (ltmd_R_update S) eigh (PsiPlain psi pp) (PsiPlain phi pf) p rho v d = (K - L, v, d)].
Proof.
move=> n m psi phi pp pf eigh He cp cf hp hf pT fT p rho a0 t0 b0 e0 r0 S sS K L mKL v.
have [d [[_ _ h3 h4 h5] h]] := ltmd_opt_fixed He cp cf a0 t0 b0 e0 sS r0 hp hf pT fT mKL.
by exists d.
Qed.
Print Assumptions C71_optimal_is_stationary.

(** ** C72: the estimates solvers converge to agree on K - L *)
Theorem C72_latent_time_graphical_lasso : forall n m psi phi pp pf pp' pf' (eigh eigh' : eigh_t n),
  eigh_ok eigh -> eigh_ok eigh' -> convex_fun psi -> convex_fun phi -> prox_of psi pp -> prox_of phi pf ->
  prox_of psi pp' -> prox_of phi pf' ->
  forall p rho rho', 0 <= lt_alpha p -> 0 <= lt_tau p -> 0 <= lt_beta p -> 0 <= lt_eta p ->
  0 < rho -> 0 < rho' -> forall (S : stack n m.+1) ns, slices (@sym n) S -> (forall t, 0 < ns t) ->
  forall v d Rm v' d' Rm',
  lt_updates (ltgl_R_update eigh S ns) eigh (PsiPlain psi pp) (PsiPlain phi pf) p rho v d = (Rm, v, d) ->
  lt_updates (ltgl_R_update eigh' S ns) eigh' (PsiPlain psi pp') (PsiPlain phi pf') p rho' v' d' = (Rm', v', d') ->
  lt_Z0 v - lt_W0 v = lt_Z0 v' - lt_W0 v'.
Proof.
move=> n m psi phi pp pf pp' pf' eigh eigh' He He' cp cf hp hf hp' hf' p rho rho' a0 t0 b0 e0 r0 r0' S ns sS ns0.
move=> v d Rm v' d' Rm' E E'.
have [_ _ _ h] := ltgl_fixed_opt He cp cf a0 t0 b0 e0 sS ns0 r0 hp hf E.
have [_ _ _ h'] := ltgl_fixed_opt He' cp cf a0 t0 b0 e0 sS ns0 r0' hp' hf' E'.
exact: (ltgl_unique cp cf a0 b0 e0 ns0 h h').
Qed.
Print Assumptions C72_latent_time_graphical_lasso.
Theorem C72_kernel_latent_time_graphical_lasso : forall n T psi phi pp pf pp' pf' (eigh eigh' : eigh_t n),
  eigh_ok eigh -> eigh_ok eigh' -> convex_fun psi -> convex_fun phi -> prox_of psi pp -> prox_of phi pf ->
  prox_of psi pp' -> prox_of phi pf' ->
  forall (p : klt_params T) rho rho', 0 <= klt_alpha p -> 0 <= klt_tau p ->
  (forall s t : 'I_T, (s < t)%N -> 0 <= kpsi_of p s t) -> (forall s t : 'I_T, (s < t)%N -> 0 <= kphi_of p s t) ->
  0 < rho -> 0 < rho' -> forall (S : stack n T) ns, slices (@sym n) S -> (forall t, 0 < ns t) ->
  forall v d Rm v' d' Rm',
  klt_updates eigh pp pf S ns p rho v d = (Rm, v, d) -> klt_updates eigh' pp' pf' S ns p rho' v' d' = (Rm', v', d') ->
  klt_Z0 v - klt_W0 v = klt_Z0 v' - klt_W0 v'.
Proof.
move=> n T psi phi pp pf pp' pf' eigh eigh' He He' cp cf hp hf hp' hf' p rho rho' a0 t0 b0 e0 r0 r0' S ns sS ns0.
move=> v d Rm v' d' Rm' E E'.
have [_ _ _ h] := kltgl_fixed_opt He cp cf a0 t0 b0 e0 sS ns0 r0 hp hf E.
have [_ _ _ h'] := kltgl_fixed_opt He' cp cf a0 t0 b0 e0 sS ns0 r0' hp' hf' E'.
exact: (kltgl_unique cp cf a0 b0 e0 ns0 h h').
Qed.
Print Assumptions C72_kernel_latent_time_graphical_lasso.
Theorem C72_latent_time_matrix_decomposition : forall n m psi phi pp pf pp' pf' (eigh eigh' : eigh_t n),
  eigh_ok eigh -> eigh_ok eigh' -> convex_fun psi -> convex_fun phi -> prox_of psi pp -> prox_of phi pf ->
  prox_of psi pp' -> prox_of phi pf' ->
  forall p rho rho', 0 <= lt_alpha p -> 0 <= lt_tau p -> 0 <= lt_beta p -> 0 <= lt_eta p ->
  0 < rho -> 0 < rho' -> forall (S : stack n m.+1), slices (@sym n) S ->
  forall v d Rm v' d' Rm', slices (@sym n) (lt_Z0 v) -> slices (@sym n) (lt_X0 d) ->
  slices (@sym n) (lt_Z0 v') -> slices (@sym n) (lt_X0 d') ->
  lt_updates (ltmd_R_update S) eigh (PsiPlain psi pp) (PsiPlain phi pf) p rho v d = (Rm, v, d) ->
  lt_updates (ltmd_R_update S) eigh' (PsiPlain psi pp') (PsiPlain phi pf') p rho' v' d' = (Rm', v', d') ->
  lt_Z0 v - lt_W0 v = lt_Z0 v' - lt_W0 v'.
Proof.
move=> n m psi phi pp pf pp' pf' eigh eigh' He He' cp cf hp hf hp' hf' p rho rho' a0 t0 b0 e0 r0 r0' S sS.
move=> v d Rm v' d' Rm' s1 s2 s3 s4 E E'.
have [_ _ _ h] := ltmd_fixed_opt He cp cf a0 t0 b0 e0 sS r0 hp hf s1 s2 E.
have [_ _ _ h'] := ltmd_fixed_opt He' cp cf a0 t0 b0 e0 sS r0' hp' hf' s3 s4 E'.
exact: (ltmd_unique cp cf a0 b0 e0 h h').
Qed.
Print Assumptions C72_latent_time_matrix_decomposition.

(** ** C73: the documented objective (penalty off the diagonal) is not what is minimised *)
Theorem C73_latent_time_graphical_lasso_refuted : forall n m psi phi pp pf (eigh : eigh_t n), eigh_ok eigh ->
  convex_fun psi -> convex_fun phi -> prox_of psi pp -> prox_of phi pf ->
  forall p rho, 0 < lt_alpha p -> 0 <= lt_tau p -> 0 <= lt_beta p -> 0 <= lt_eta p -> 0 < rho ->
  forall (S : stack n m.+1) ns, slices (@sym n) S -> (forall t, 0 < ns t) ->
  forall v d Rm (i : 'I_n),
  lt_updates (ltgl_R_update eigh S ns) eigh (PsiPlain psi pp) (PsiPlain phi pf) p rho v d = (Rm, v, d) ->
  ~ minimiser (fun KL : stack n m.+1 * stack n m.+1 => latent_feasible (@pd n) KL.1 KL.2)
        (fun KL => latent_obj (logdet_loss ns S) (@l1od n) (lt_alpha p) (lt_tau p)
           (fun K => lt_beta p * neighbour_coupling psi K) (fun L => lt_eta p * neighbour_coupling phi L)
           KL.1 KL.2) (lt_Z0 v, lt_W0 v).
Proof.
move=> n m psi phi pp pf eigh He cp cf hp hf p rho a0 t0 b0 e0 r0 S ns sS ns0 v d Rm i E.
have [_ _ _ h] := ltgl_fixed_opt He cp cf (ltW a0) t0 b0 e0 sS ns0 r0 hp hf E.
exact: (ltgl_not_od sS ns0 i a0 h).
Qed.
Print Assumptions C73_latent_time_graphical_lasso_refuted.
Theorem C73_kernel_latent_time_graphical_lasso_refuted : forall n T psi phi pp pf (eigh : eigh_t n), eigh_ok eigh ->
  convex_fun psi -> convex_fun phi -> prox_of psi pp -> prox_of phi pf ->
  forall (p : klt_params T) rho, 0 < klt_alpha p -> 0 <= klt_tau p ->
  (forall s t : 'I_T, (s < t)%N -> 0 <= kpsi_of p s t) -> (forall s t : 'I_T, (s < t)%N -> 0 <= kphi_of p s t) ->
  0 < rho -> forall (S : stack n T) ns, slices (@sym n) S -> (forall t, 0 < ns t) ->
  forall v d Rm (i : 'I_n) (s : 'I_T), klt_updates eigh pp pf S ns p rho v d = (Rm, v, d) ->
  ~ minimiser (fun KL : stack n T * stack n T => latent_feasible (@pd n) KL.1 KL.2)
        (fun KL => latent_obj (logdet_loss ns S) (@l1od n) (klt_alpha p) (klt_tau p)
           (kernel_coupling (fun s t => kpsi_of p s t) psi) (kernel_coupling (fun s t => kphi_of p s t) phi)
           KL.1 KL.2) (klt_Z0 v, klt_W0 v).
Proof.
move=> n T psi phi pp pf eigh He cp cf hp hf p rho a0 t0 b0 e0 r0 S ns sS ns0 v d Rm i s E.
have [_ _ _ h] := kltgl_fixed_opt He cp cf (ltW a0) t0 b0 e0 sS ns0 r0 hp hf E.
exact: (kltgl_not_od sS ns0 i s a0 h).
Qed.
Print Assumptions C73_kernel_latent_time_graphical_lasso_refuted.
(** for the matrix decomposition, wherever the estimate has a positive diagonal entry at every time *)
Theorem C73_latent_time_matrix_decomposition_refuted : forall n m psi phi pp pf (eigh : eigh_t n), eigh_ok eigh ->
  convex_fun psi -> convex_fun phi -> prox_of psi pp -> prox_of phi pf ->
  forall p rho, 0 < lt_alpha p -> 0 <= lt_tau p -> 0 <= lt_beta p -> 0 <= lt_eta p -> 0 < rho ->
  forall (S : stack n m.+1), slices (@sym n) S ->
  forall v d Rm (i : 'I_n), slices (@sym n) (lt_Z0 v) -> slices (@sym n) (lt_X0 d) ->
  (forall t, 0 < lt_Z0 v t i i) ->
  lt_updates (ltmd_R_update S) eigh (PsiPlain psi pp) (PsiPlain phi pf) p rho v d = (Rm, v, d) ->
  ~ minimiser (fun KL : stack n m.+1 * stack n m.+1 => latent_feasible (@sym n) KL.1 KL.2)
        (fun KL => latent_obj (frobenius_loss S) (@l1od n) (lt_alpha p) (lt_tau p)
           (fun K => lt_beta p * neighbour_coupling psi K) (fun L => lt_eta p * neighbour_coupling phi L)
           KL.1 KL.2) (lt_Z0 v, lt_W0 v).
Proof.
move=> n m psi phi pp pf eigh He cp cf hp hf p rho a0 t0 b0 e0 r0 S sS v d Rm i s1 s2 Kp E.
have [_ _ _ h] := ltmd_fixed_opt He cp cf (ltW a0) t0 b0 e0 sS r0 hp hf s1 s2 E.
exact: (ltmd_not_od a0 Kp h).
Qed.
Print Assumptions C73_latent_time_matrix_decomposition_refuted.

(** the hypotheses of C69-C73 are met: explicit minimisers with L = 0 *)
Lemma l1_ge0 n (X : 'M[R]_n) : 0 <= l1 X.
Proof. by apply: sumr_ge0 => i _; apply: sumr_ge0. Qed.
Lemma l1_T n (x : 'M[R]_n) : l1 x^T = l1 x.
Proof.
rewrite /l1 exchange_big; apply: eq_bigr => i _; apply: eq_bigr => j _; by rewrite mxE.
Qed.
Lemma l1_00 n : l1 (0 : 'M[R]_n) = 0.
Proof. by rewrite /l1 big1 // => i _; rewrite big1 // => j _; rewrite mxE normr0. Qed.
Lemma nc_ge0 n T (X : 'I_T -> 'M[R]_n) : 0 <= neighbour_coupling (@l1 n n) X.
Proof. by apply: sumr_ge0 => s _; apply: sumr_ge0 => t _; apply: l1_ge0. Qed.
Lemma nc_const n T (K : stack n T) M : (forall t, K t = M) -> neighbour_coupling (@l1 n n) K = 0.
Proof. by move=> h; rewrite /neighbour_coupling big1 // => s _; rewrite big1 // => t _; rewrite !h subrr l1_00. Qed.
Lemma kc_ge0 n T (w : 'M[R]_T) (X : 'I_T -> 'M[R]_n) : (forall s t, 0 <= w s t) ->
  0 <= kernel_coupling (fun s t => w s t) (@l1 n n) X.
Proof. by move=> h; apply: sumr_ge0 => s _; apply: sumr_ge0 => t _; apply: mulr_ge0 => //; apply: l1_ge0. Qed.
Lemma kc_const n T w (K : stack n T) M : (forall t, K t = M) -> kernel_coupling w (@l1 n n) K = 0.
Proof.
by move=> h; rewrite /kernel_coupling big1 // => s _; rewrite big1 // => t _; rewrite !h subrr l1_00 mulr0.
Qed.
Lemma exLT_base (Y : stack 2 3 * stack 2 3) : latent_feasible (@pd 2) Y.1 Y.2 ->
  logdet_loss (fun=> 1) exSt (fun t => exKt t - (0 : stack 2 3) t) + 1 * (\sum_t l1 (exKt t))
    + 0 * (\sum_t \tr ((0 : stack 2 3) t)) <=
  logdet_loss (fun=> 1) exSt (fun t => Y.1 t - Y.2 t) + 1 * (\sum_t l1 (Y.1 t)) + 0 * (\sum_t \tr (Y.2 t)).
Proof.
move=> [pL pR]; have [_ h] := exS_lgl_opt; rewrite /logdet_loss !mul1r !mul0r !addr0 -!big_split.
apply: ler_sum => t _; rewrite !ffunE !mul1r subr0 /=.
have := h (Y.1 t, Y.2 t); rewrite /lgl_obj /= !mul1r !subr0 !mul0r !addr0; apply; split=> //=.
have -> : Y.1 t = Y.1 t - Y.2 t + Y.2 t by rewrite subrK.
by apply: symD; [apply: pd_sym | apply: psd_sym].
Qed.
Lemma exKt0_feas : latent_feasible (@pd 2) exKt (0 : stack 2 3).
Proof.
have [[_ _ pK] _] := exS_lgl_opt; rewrite /= subr0 in pK.
by split=> t; rewrite !ffunE ?subr0 //; apply: psd0.
Qed.
Lemma exLT_opt : minimiser (fun KL : stack 2 3 * stack 2 3 => latent_feasible (@pd 2) KL.1 KL.2)
  (fun KL => latent_obj (logdet_loss (fun=> 1) exSt) (@l1 2 2) 1 0
     (fun K => 1 * neighbour_coupling (@l1 2 2) K) (fun L => 1 * neighbour_coupling (@l1 2 2) L)
     KL.1 KL.2) (exKt, 0).
Proof.
split; first exact: exKt0_feas.
move=> Y fY; rewrite /latent_obj !mul1r; have := exLT_base fY; rewrite !mul1r.
rewrite (@nc_const _ _ exKt (diag_mx (\row_i (exS i i + 1)^-1))); last by move=> t; rewrite ffunE.
rewrite (@nc_const _ _ (0 : stack 2 3) 0); last by move=> t; rewrite ffunE.
have := nc_ge0 Y.1; have := nc_ge0 Y.2 => /= h1 h2 h3.
by rewrite !addr0; apply: ler_paddr => //; apply: ler_paddr.
Qed.
Lemma exF_ge0 s t : 0 <= exF s t. Proof. by rewrite mxE; case: ifP => _; mclra. Qed.
Lemma exKLT_opt : minimiser (fun KL : stack 2 3 * stack 2 3 => latent_feasible (@pd 2) KL.1 KL.2)
  (fun KL => latent_obj (logdet_loss (fun=> 1) exSt) (@l1 2 2) 1 0
     (kernel_coupling (fun s t => exW s t) (@l1 2 2)) (kernel_coupling (fun s t => exF s t) (@l1 2 2))
     KL.1 KL.2) (exKt, 0).
Proof.
split; first exact: exKt0_feas.
move=> Y fY; rewrite /latent_obj; have h3 := exLT_base fY.
rewrite (@kc_const _ _ _ exKt (diag_mx (\row_i (exS i i + 1)^-1))); last by move=> t; rewrite ffunE.
rewrite (@kc_const _ _ _ (0 : stack 2 3) 0); last by move=> t; rewrite ffunE.
have h1 := kc_ge0 Y.1 exW_ge0; have h2 := kc_ge0 Y.2 exF_ge0.
by rewrite !addr0; apply: ler_paddr => //; apply: ler_paddr.
Qed.
Example C69_case : exists (eigh : eigh_t 2) d, eigh_ok eigh /\
  let v := LTPrimal exKt (scopies exKt) (0 : stack 2 3) (scopies 0) in
  lt_updates (ltgl_R_update eigh exSt (fun=> 1)) eigh l1p l1p (exLT 5) 1 v d = (exKt - 0, v, d).
Proof.
have [eigh h] := eigh_exists 2.
have [|||||d [_ hd]] := @ltgl_opt_fixed 2 2 _ _ _ _ eigh h (@l1_convex 2) (@l1_convex 2) (exLT 5) 1 _ _ _ _
  exSt (fun=> 1) exSt_sym (fun=> ltr01) exKt 0 _ (@l1_prox 2) (@l1_prox 2) (@l1_T 2) (@l1_T 2) exLT_opt.
- exact: ler01.
- exact: lexx.
- exact: ler01.
- exact: ler01.
- exact: ltr01.
by exists eigh, d.
Qed.
Example C70_case : exists (eigh : eigh_t 2) d, eigh_ok eigh /\
  let v := KLTPrimal exKt (ecopies exKt) (0 : stack 2 3) (ecopies 0) in
  klt_updates eigh (@soft_thresholding 2 2) (@soft_thresholding 2 2) exSt (fun=> 1) (exKLT 5) 1 v d
    = (exKt - 0, v, d).
Proof.
have [eigh h] := eigh_exists 2.
have [|||||d [_ hd]] := @kltgl_opt_fixed 2 3 _ _ _ _ eigh h (@l1_convex 2) (@l1_convex 2) (exKLT 5) 1 _ _ _ _
  exSt (fun=> 1) exSt_sym (fun=> ltr01) exKt 0 _ (@l1_prox 2) (@l1_prox 2) (@l1_T 2) (@l1_T 2) exKLT_opt.
- exact: ler01.
- exact: lexx.
- by move=> s t _; apply: exW_ge0.
- by move=> s t _; apply: exF_ge0.
- exact: ltr01.
by exists eigh, d.
Qed.
(** matrix decomposition: K = S - 1/2, L = 0 *)
Definition exH : 'M[R]_2 := const_mx 2%:R^-1.
Definition exKmd : stack 2 3 := [ffun=> exS - exH].
Lemma exMD_opt : minimiser (fun KL : stack 2 3 * stack 2 3 => latent_feasible (@sym 2) KL.1 KL.2)
  (fun KL => latent_obj (frobenius_loss exSt) (@l1 2 2) 1 0
     (fun K => 1 * neighbour_coupling (@l1 2 2) K) (fun L => 1 * neighbour_coupling (@l1 2 2) L)
     KL.1 KL.2) (exKmd, 0).
Proof.
have sH : sym exH by apply/matrixP => i j; rewrite !mxE.
split; first by split=> t; rewrite !ffunE ?subr0; [apply: psd0 | apply: symB; first exact: exS_sym].
move=> [K L] /= [pL sR]; rewrite /latent_obj !mul1r !mul0r !addr0.
rewrite (@nc_const _ _ exKmd (exS - exH)); last by move=> t; rewrite ffunE.
rewrite (@nc_const _ _ (0 : stack 2 3) 0); last by move=> t; rewrite ffunE.
rewrite !addr0 -addrA -[X in X <= _]addr0; apply: ler_add; last by apply: addr_ge0; apply: nc_ge0.
rewrite /frobenius_loss -!big_split; apply: ler_sum => t _; rewrite !ffunE subr0 /=.
have h1 : 0 <= fdot exH (L t).
  have -> : fdot exH (L t) = 2%:R^-1 * fdot (const_mx 1) (L t).
    by rewrite -fdotZl; congr fdot; apply/matrixP => i j; rewrite !mxE mulr1.
  apply: mulr_ge0; first by mclra.
  have h := (pL t).2 (const_mx 1).
  rewrite quadE in h; congr (0 <= _) : h.
  by apply: eq_bigr => a _; apply: eq_bigr => b _; rewrite !mxE !mulr1 mul1r.
have e1 (M : 'M[R]_2) : fnorm2 (exS - M) = fnorm2 exH + 2%:R * fdot exH (exS - M - exH) + fnorm2 (exS - M - exH).
  by rewrite -fnorm2D; congr fnorm2; rewrite [RHS]addrC subrK.
have e2 : l1 (exS - exH) = 2%:R * fdot exH (exS - exH).
  rewrite /l1 /fdot !big_ord_recl !big_ord0 !mxE /=; do !(rewrite ger0_norm; last by mclra); mclra.
have e3 : 2%:R * fdot exH (K t) <= l1 (K t).
  rewrite /l1 /fdot mulr_sumr; apply: ler_sum => i _; rewrite mulr_sumr; apply: ler_sum => j _.
  by rewrite mxE mulrA mulfV ?pnatr_eq0 // mul1r ler_norm.
have -> : exS - (exS - exH) = exH by rewrite opprB [LHS]addrC subrK.
rewrite e2 e1; set D := exS - _ - exH.
have := fnorm2_ge0 D; have -> : fdot exH D = fdot exH (exS - exH) - fdot exH (K t) + fdot exH (L t).
  by rewrite -fdotBr -fdotDr; congr fdot; rewrite /D; lin.
move: h1 e3; move: (fnorm2 exH) (fnorm2 D) (fdot _ _) (fdot _ _) (fdot _ _) (l1 _) => a b c d e g; clear.
by move=> h1 h2 h3; mclra.
Qed.
Example C71_case : exists (eigh : eigh_t 2) d, [/\ eigh_ok eigh, slices (@sym 2) exKmd, slices (@sym 2) (lt_X0 d),
  (forall t, 0 < exKmd t 0 0) &
  let v := LTPrimal exKmd (scopies exKmd) (0 : stack 2 3) (scopies 0) in
  lt_updates (ltmd_R_update exSt) eigh l1p l1p (exLT 5) 1 v d = (exKmd - 0, v, d)].
Proof.
have [eigh h] := eigh_exists 2.
have [|||||d [[_ _ sd _ _] hd]] := @ltmd_opt_fixed 2 2 _ _ _ _ eigh h (@l1_convex 2) (@l1_convex 2) (exLT 5) 1 _ _ _ _
  exSt exSt_sym exKmd 0 _ (@l1_prox 2) (@l1_prox 2) (@l1_T 2) (@l1_T 2) exMD_opt.
- exact: ler01.
- exact: lexx.
- exact: ler01.
- exact: ler01.
- exact: ltr01.
exists eigh, d; split=> // t; rewrite ffunE.
  by apply: symB; [exact: exS_sym | apply/matrixP => i j; rewrite !mxE].
by rewrite !mxE /=; mclra.
Qed.

(** ** C26, C17, C18 for these solvers *)
(** the recorded objective: log-likelihood (or squared error) at the iterate R, penalties at Z_0 and
    W_0, couplings at the consensus copies *)
Theorem C26_latent_time_graphical_lasso : forall n m (psi phi : 'M[R]_n -> R) pp pf (eigh : eigh_t n) nuc pinvh
    (S : stack n m.+1) p, eigh_ok eigh -> slices (@sym n) S ->
  (forall a lam, sym a -> sym (pp a lam)) -> (forall a lam, sym a -> sym (pf a lam)) ->
  0 <= lt_tau p -> 0 < lt_rho0 p -> 0 < tau_inc (lt_rho_options p) -> 0 < tau_dec (lt_rho_options p) ->
  forall ns init, (forall t, 0 < ns t) -> slices (@sym n) (init_precision3 pinvh S init) -> forall c0 k,
  (forall M, psd M -> nuc M = \tr M) -> lt_compute_objective p ->
  let body := lt_body (ltgl_R_update eigh S ns) (ltgl_objective nuc S ns p psi phi) eigh
             (PsiPlain psi pp) (PsiPlain phi pf) p in
  let e := lt_loop (ltgl_R_update eigh S ns) (ltgl_objective nuc S ns p psi phi) eigh
             (PsiPlain psi pp) (PsiPlain phi pf) p (lt_init p (init_precision3 pinvh S init)) in
  (k < size (le_checks e))%N ->
  let s := iter_state body 0 (lt_init p (init_precision3 pinvh S init)) k.+1 in
  let Rm := (lt_old s).1.1 in let v := lt_pr s in
  c_obj (nth c0 (le_checks e) k) =
  Fin (logdet_loss ns S Rm
       + lt_alpha p * (\sum_t l1od (lt_Z0 v t))
       + lt_beta p * (\sum_t psi ((lt_Z12 v).2 t - (lt_Z12 v).1 t))
       + (lt_tau p * (\sum_t \tr (lt_W0 v t))
          + lt_eta p * (\sum_t phi ((lt_W12 v).2 t - (lt_W12 v).1 t)))).
Proof.
move=> n m psi phi pp pf eigh nuc pinvh S p He sS ps fs t0 r0 ti td ns init ns0 sI c0 k nucP co.
exact: (@ltgl_hist_obj n m psi phi pp pf eigh nuc pinvh S p He sS ps fs t0 r0 ti td ns init ns0 sI c0 k nucP co).
Qed.
Print Assumptions C26_latent_time_graphical_lasso.
Theorem C26_latent_time_matrix_decomposition : forall n m (psi phi : 'M[R]_n -> R) pp pf (eigh : eigh_t n) nuc
    (S : stack n m.+1) p, eigh_ok eigh -> slices (@sym n) S ->
  (forall a lam, sym a -> sym (pp a lam)) -> (forall a lam, sym a -> sym (pf a lam)) ->
  0 <= lt_tau p -> 0 < lt_rho0 p -> 0 < tau_inc (lt_rho_options p) -> 0 < tau_dec (lt_rho_options p) ->
  forall c0 k, (forall M, psd M -> nuc M = \tr M) -> lt_compute_objective p ->
  let body := lt_body (ltmd_R_update S) (ltmd_objective nuc S p psi phi) eigh
             (PsiPlain psi pp) (PsiPlain phi pf) p in
  let e := lt_loop (ltmd_R_update S) (ltmd_objective nuc S p psi phi) eigh
             (PsiPlain psi pp) (PsiPlain phi pf) p (lt_init p 0) in
  (k < size (le_checks e))%N ->
  let s := iter_state body 0 (lt_init p 0) k.+1 in
  let Rm := (lt_old s).1.1 in let v := lt_pr s in
  c_obj (nth c0 (le_checks e) k) =
  Fin (frobenius_loss S Rm
       + lt_alpha p * (\sum_t l1od (lt_Z0 v t))
       + lt_tau p * (\sum_t \tr (lt_W0 v t))
       + lt_beta p * (\sum_t psi ((lt_Z12 v).2 t - (lt_Z12 v).1 t))
       + lt_eta p * (\sum_t phi ((lt_W12 v).2 t - (lt_W12 v).1 t))).
Proof.
move=> n m psi phi pp pf eigh nuc S p He sS ps fs t0 r0 ti td c0 k nucP co.
exact: (@ltmd_hist_obj n m psi phi pp pf eigh nuc S p He sS ps fs t0 r0 ti td c0 k nucP co).
Qed.
Print Assumptions C26_latent_time_matrix_decomposition.

Theorem C17_latent_time_off_by_one : forall n m (eigh : eigh_t n) nuc pinvh psi phi (S : stack n m.+1) ns p init r,
  lt_return_n_iter p -> lt_return_history p ->
  latent_time_graphical_lasso eigh nuc pinvh psi phi S ns p init = Ok r \/
  latent_time_matrix_decomposition eigh nuc psi phi S p = Ok r ->
  exists h k, [/\ lt_history r = Some h, lt_n_iter r = Some k, size h = k.+1,
    (size h <= lt_max_iter p)%N & lt_warned r -> size h = lt_max_iter p].
Proof. by move=> n m eigh nuc pinvh psi phi S ns p init r rn rh [] h; exact: (lt_count rn rh h). Qed.
Print Assumptions C17_latent_time_off_by_one.
Theorem C17_kernel_latent_time_off_by_one : forall n T (eigh : eigh_t n) nuc psi phi pp pf p
    (S : stack n T) ns pinvh init r, klt_return_n_iter p -> klt_return_history p ->
  kernel_latent_time_graphical_lasso eigh nuc pinvh psi pp phi pf S ns p init = Ok r ->
  exists h k, [/\ klt_history r = Some h, klt_n_iter r = Some k, size h = k.+1,
    (size h <= klt_max_iter p)%N & klt_warned r -> size h = klt_max_iter p].
Proof. exact klt_count. Qed.
Print Assumptions C17_kernel_latent_time_off_by_one.
Theorem C18_latent_time_zero_iterations : forall n m (eigh : eigh_t n) nuc pinvh psi phi (S : stack n m.+1) ns p init,
  lt_max_iter p = 0%N ->
  (lt_return_n_iter p ->
     latent_time_graphical_lasso eigh nuc pinvh psi phi S ns p init = UnboundLocalError _ /\
     latent_time_matrix_decomposition eigh nuc psi phi S p = UnboundLocalError _) /\
  (~~ lt_return_n_iter p ->
     (exists r, [/\ latent_time_graphical_lasso eigh nuc pinvh psi phi S ns p init = Ok r,
       lt_precision r = init_precision3 pinvh S init, lt_latent r = 0 & lt_warned r = true]) /\
     (exists r, [/\ latent_time_matrix_decomposition eigh nuc psi phi S p = Ok r,
       lt_precision r = 0, lt_latent r = 0 & lt_warned r = true])).
Proof.
move=> n m eigh nuc pinvh psi phi S ns p init m0.
by split=> h; split; [apply: (proj1 (lt_zero_iter _ _ _ _ _ _ _ m0)) | apply: (proj1 (lt_zero_iter _ _ _ _ _ _ _ m0))
  | apply: (proj2 (lt_zero_iter _ _ _ _ _ _ _ m0)) | apply: (proj2 (lt_zero_iter _ _ _ _ _ _ _ m0))].
Qed.
Print Assumptions C18_latent_time_zero_iterations.
Theorem C18_kernel_latent_time_zero_iterations : forall n T (eigh : eigh_t n) nuc psi phi pp pf p
    (S : stack n T) ns pinvh init, klt_max_iter p = 0%N ->
  let call := kernel_latent_time_graphical_lasso eigh nuc pinvh psi pp phi pf S ns p init in
  (klt_return_n_iter p -> call = UnboundLocalError _) /\
  (~~ klt_return_n_iter p -> exists r, [/\ call = Ok r, klt_precision r = init_precision3 pinvh S init,
     klt_latent r = 0 & klt_warned r = true]).
Proof. by move=> n T eigh nuc psi phi pp pf p S ns pinvh init; exact: klt_zero_iter. Qed.
Print Assumptions C18_kernel_latent_time_zero_iterations.
