(** Property theorems C143-C148: how the kernel-driven estimators choose their kernel and what they return. *)
From Coq Require Import Reals Lra.
From mathcomp Require Import all_ssreflect all_algebra.
From Verif Require Import RStruct RTac S_Mat NP M_Prox M_Loop M_GL M_LGL M_TGL M_KTGL M_Utils M_Missing M_KernelFit.
From Verif Require Import RMx P_Prox P_Missing P_KTGL5 T_GL T_LGL T_TGL T_KTGL S_GL S_LGL S_TGL S_KTGL P_KernelFit.
Import Order.TTheory GRing.Theory Num.Theory.

Set Implicit Arguments.
Unset Strict Implicit.
Unset Printing Implicit Defensive.
Local Open Scope ring_scope.

(** * C143: the kernel *)

(** no kernel: the identity, whatever the parameter; the solver then minimises the penalised likelihood of each time on its own *)
Theorem C143_none : forall T (times : 'I_T -> R) theta, choose_kernel times KNone theta = Val 1%:M.
Proof. by []. Qed.
Print Assumptions C143_none.
Theorem C143_none_decouples : forall n T (eigh : eigh_t n) psi prox, eigh_ok eigh ->
  forall (S : stack n T) ns, slices (@sym n) S -> (forall t, 0 < ns t) -> convex_fun psi -> prox_of psi prox ->
  forall times theta p rho (Z U : ktriple n T) K, choose_kernel times KNone theta = Val (kernel_of p) -> 0 <= ktgl_alpha p -> 0 < rho ->
  slices (@sym n) U.1.1 -> ktgl_updates eigh prox S ns p rho Z U = (K, Z, U) ->
  forall t, minimiser (@pd n) (fun X => ns t * (\tr (S t *m X) - ln (\det X)) + ktgl_alpha p * l1 X) (K t).
Proof.
move=> n T eigh psi prox he S ns sS ns0 cp pp times theta p rho Z U K [ek] a0 r0 sU.
have -> : ktgl_updates eigh prox S ns p rho Z U =
    ktgl_updates eigh prox S ns (KTGLParams (ktgl_alpha p) 0 None 0 0 0 true true true None 0 (RhoOptions 10%:R 1 1)) rho Z U.
  by rewrite /ktgl_updates /= -ek.
by move=> h t; apply: (C66_default_kernel_decouples he sS ns0 cp pp _ _ r0 sU h).
Qed.
Print Assumptions C143_none_decouples.

(** a class of kernels: the entry of two classes is the kernel of their labels *)
Theorem C143_rbf : forall T (times : 'I_T -> R) theta, 0 < theta ->
  exists k, [/\ choose_kernel times (KClass RBF) theta = Val k,
    (forall s t, k s t = Rtrigo_def.exp (- ((times s - times t) ^+ 2 / (2%:R * theta ^+ 2)))),
    (forall t, k t t = 1) /\ (forall s t, k s t = k t s),
    (forall s t, 0 < k s t <= 1) &
    (forall s t s' t', `|times s - times t| < `|times s' - times t'| -> k s' t' < k s t)].
Proof.
move=> T times theta th0; exists (gram (rbf theta) times); split=> // [s t|||s t s' t' h]; rewrite ?mxE //.
- by split=> [t|s t]; rewrite !mxE ?rbf_diag // rbf_sym.
- by move=> s t; rewrite mxE rbf_gt0 rbf_le1.
- exact: rbf_decreasing.
Qed.
Print Assumptions C143_rbf.
Theorem C143_constant : forall T (times : 'I_T -> R) c, choose_kernel times (KClass ConstantKernel) c = Val (const_mx c).
Proof. by move=> T times c; congr Val; apply/matrixP => s t; rewrite !mxE. Qed.
Print Assumptions C143_constant.
(** ExpSineSquared has period 1: for whole labels (the default of the generators) it does not depend on its parameter, every weight is 1 *)
Theorem C143_periodic_refuted : forall T (labels : 'I_T -> nat) theta,
  choose_kernel (fun t => (labels t)%:R) (KClass ExpSineSquared) theta = Val (const_mx 1).
Proof. by move=> T labels theta; congr Val; apply/matrixP => s t; rewrite !mxE ess_nat. Qed.
Print Assumptions C143_periodic_refuted.

(** the documented kernel, an array, is rejected for two classes or more: by every solver and every array *)
Theorem C143_array_refuted : forall T (times : 'I_T -> R) k (A : 'M[R]_k.+2) theta, choose_kernel times (KArray A) theta = Raise ValueError.
Proof. by []. Qed.
Print Assumptions C143_array_refuted.
Theorem C143_array_fit_refuted : forall n T (times : 'I_T.+2 -> R) Out (prec : Out -> stack n T.+2) solver (A : 'M[R]_T.+2)
    ker_param minimise m init K0,
  kernel_fit times prec solver (KArray A) ker_param minimise m init K0 = Raise ValueError.
Proof. by move=> n T times Out prec solver A [theta|] minimise m init K0. Qed.
Print Assumptions C143_array_fit_refuted.
(** the estimators that learn the similarity do accept an array of the right size, and only that *)
Theorem C143_similarity_array : forall T k (A : 'M[R]_k), (forall e : k = T, given_kernel T (KArray A) = Val (castmx (e, e) A)) /\
  (k <> T -> given_kernel T (KArray A) = Raise ValueError).
Proof.
move=> T k A; split=> [e|ne]; rewrite /given_kernel; case: eqP => // e'.
by rewrite (eq_irrelevance e e').
Qed.
Print Assumptions C143_similarity_array.
Example C143_case : exists A : 'M[R]_3, given_kernel 3 (KArray A) = Val A /\ given_kernel 2 (KArray A) = Raise ValueError /\
  choose_kernel (fun t : 'I_3 => (t : nat)%:R) (KArray A) 1 = Raise ValueError /\ A 0 (lift 0 0) <> 0.
Proof.
exists (const_mx 1); have [h _] := C143_similarity_array 3 (const_mx 1 : 'M[R]_3); rewrite (h erefl) castmx_id.
have [_ ->//] := C143_similarity_array 2 (const_mx 1 : 'M[R]_3).
by split=> //; split=> //; split=> //; rewrite mxE => /eqP; rewrite oner_eq0.
Qed.
(** and the decoupled fit is that of a concrete case *)
Example C143_none_case : exists (eigh : eigh_t 2) (U : ktriple 2 3), eigh_ok eigh /\ slices (@sym 2) U.1.1 /\
  choose_kernel (fun t : 'I_3 => (t : nat)%:R) KNone 1 = Val (kernel_of (exP None 5)) /\
  ktgl_updates eigh (@soft_thresholding 2 2) exSt (fun=> 1) (exP None 5) 1 (kcopies exKt) U = (exKt, kcopies exKt, U).
Proof. by have [eigh [U [h1 [h2 h3]]]] := C66_case; exists eigh, U. Qed.

(** * C144: ker_param="auto" *)

(** if the loop stops on its own, what it returns is the solver's result for the kernel at a parameter which is within 1e-5 of the best one
    for the returned matrices *)
Theorem C144_converged : forall n T (times : 'I_T -> R) Out (prec : Out -> stack n T) solver c minimise m init K0 K out,
  (0 < m)%N -> kernel_fit times prec solver (KClass c) None minimise m init K0 = Val (K, out, false) ->
  exists r theta k K1, [/\ out = Some r, K = prec r, kernel_at times c theta = Val k, solver k (Init3Array K1) = Val r &
    `|theta - minimise K| < (10%:R ^+ 5)^-1].
Proof.
move=> n T times Out prec solver c minimise m init K0 K out m0; rewrite /kernel_fit.
case e: (em_loop _ _ _ _ _ _ _ _ _ _) => [[[[K' out'] theta] w]|//] [<- <- ew].
have [|h1 h2] := em_loop_spec _ e => //; rewrite addn0 in h1.
by have [r [k [K1 [h3 h4 h5 h6 h7]]]] := h1 m0; exists r, theta, k, K1; split=> //; apply: h2.
Qed.
Print Assumptions C144_converged.
(** if it runs out of iterations, the kernel was the best one for the matrices before the last call *)
Theorem C144_exhausted : forall n T (times : 'I_T -> R) Out (prec : Out -> stack n T) solver c minimise m init K0 K out,
  (0 < m)%N -> kernel_fit times prec solver (KClass c) None minimise m init K0 = Val (K, out, true) ->
  exists r k K1, [/\ out = Some r, K = prec r, kernel_at times c (minimise K1) = Val k & solver k (Init3Array K1) = Val r].
Proof.
move=> n T times Out prec solver c minimise m init K0 K out m0; rewrite /kernel_fit.
case e: (em_loop _ _ _ _ _ _ _ _ _ _) => [[[[K' out'] theta] w]|//] [<- <- ew].
have [|h1 h2] := em_loop_spec _ e => //; rewrite addn0 in h1.
by have [r [k [K1 [h3 h4 h5 h6 h7]]]] := h1 m0; exists r, k, K1; rewrite -h5; split.
Qed.
Print Assumptions C144_exhausted.
(** "best": the smaller the parameter the better, so that none is best and the search ends at the lower bound, where the times are decoupled *)
Theorem C144_best_refuted : forall n T (times : 'I_T -> R) (psi : 'M[R]_n -> R) (K : stack n T),
  injective times -> (forall X, 0 <= psi X) -> forall s t : 'I_T, (s < t)%N -> 0 < psi (K t - K s) ->
  forall c, (c = RBF \/ c = ConstantKernel) -> forall theta theta', 0 < theta' < theta ->
  exists a b, [/\ objective_kernel times psi c K theta' = Val a, objective_kernel times psi c K theta = Val b & a < b].
Proof.
move=> n T times psi K inj p0 s t st pst c hc theta theta' /andP[t0 tt].
by case: hc => ->; do 2 eexists; split; try reflexivity; [apply: objective_rbf_lt st pst|apply: objective_constant_lt st pst].
Qed.
Print Assumptions C144_best_refuted.
Theorem C144_best_limit : forall n T (times : 'I_T -> R) (psi : 'M[R]_n -> R) (K : stack n T),
  injective times -> (forall X, 0 <= psi X) -> forall e : R, 0 < e ->
  exists theta, 0 < theta /\ exists a, objective_kernel times psi RBF K theta = Val a /\ a < e.
Proof.
move=> n T times psi K inj p0 e e0; have [l l0 h] := objective_rbf_small K p0 inj e0.
by exists l; split=> //; eexists.
Qed.
Print Assumptions C144_best_limit.
Theorem C144_periodic_increasing : forall n T (times : 'I_T -> R) (psi : 'M[R]_n -> R) (K : stack n T),
  (forall X, 0 <= psi X) -> forall theta theta', 0 < theta' < theta ->
  exists a b, [/\ objective_kernel times psi ExpSineSquared K theta' = Val a, objective_kernel times psi ExpSineSquared K theta = Val b & a <= b].
Proof. by move=> n T times psi K p0 theta theta' /andP[t0 tt]; do 2 eexists; split; try reflexivity; apply: objective_ess_le. Qed.
Print Assumptions C144_periodic_increasing.
(** without a callable, or with a kernel that has neither parameter, it raises *)
Theorem C144_rejects : forall n T (times : 'I_T -> R) Out (prec : Out -> stack n T) solver kernel minimise m init K0,
  (forall c, kernel <> KClass c) -> kernel_fit times prec solver kernel None minimise m init K0 = Raise ValueError.
Proof. by move=> n T times Out prec solver [|k A|c] minimise m init K0 h //; case: (h c). Qed.
Print Assumptions C144_rejects.
(** concretely: a solver that returns its initial value, a search that returns 1/2 *)
Example C144_case : exists K : stack 1 2,
  kernel_fit (fun t : 'I_2 => (t : nat)%:R) id (fun _ i => if i is Init3Array K then Val K else Raise ValueError) (KClass RBF) None
    (fun=> 2%:R^-1) 5 Init3Empirical K = Val (K, Some K, false) /\
  0 < l1 (K (lift 0 0) - K 0).
Proof.
exists [ffun t : 'I_2 => (t : nat)%:R%:M]; split; last first.
  by rewrite /l1 !big_ord1 !ffunE !mxE /= subr0 normr1 ltr01.
by rewrite /kernel_fit /em_loop /= subrr normr0 invr_gt0 exprn_gt0 // ltr0n.
Qed.
