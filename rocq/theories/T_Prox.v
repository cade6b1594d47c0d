(** Property theorems C01-C11: proximal operators and step-size rules. *)
From Coq Require Import Reals String.
From mathcomp Require Import all_ssreflect all_algebra.
From Verif Require Import RStruct RTac S_Mat NP Str M_Prox S_Prox.
From Verif Require Import RMx P_Eigh P_Prox P_Prox2 P_Prox3 P_Rules.
Import Order.TTheory GRing.Theory Num.Theory.

Set Implicit Arguments.
Unset Strict Implicit.
Unset Printing Implicit Defensive.
Local Open Scope ring_scope.

(** C01 *)
Theorem C01_soft_thresholding_entry : forall m n (a : 'M[R]_(m, n)) lam i j, 0 <= lam ->
  unique_minimiser (@everywhere R) (fun x => lam * `|x| + (x - a i j) ^+ 2 / 2%:R)
    (soft_thresholding a lam i j).
Proof. by move=> m n a lam i j l0; rewrite mxE; exact: soft1_unique. Qed.
Print Assumptions C01_soft_thresholding_entry.

Theorem C01_soft_thresholding : forall m n (a : 'M[R]_(m, n)) lam, 0 <= lam ->
  unique_minimiser (@everywhere _) (fun X => lam * l1 X + fnorm2 (X - a) / 2%:R)
    (soft_thresholding a lam).
Proof. exact soft_unique. Qed.
Print Assumptions C01_soft_thresholding.
Example C01_case : soft_thresholding (const_mx 3%:R : 'M[R]_(2, 3)) 1 = const_mx 2%:R.
Proof.
apply/matrixP => i j; rewrite !mxE.
have l0 : (0 : R) <= 1 by exact: ler01.
by case: (soft1_cases 3%:R l0) => [[h ->]|[h _]|[/andP[h1 h2] _]]; mclra.
Qed.

(** C02 *)
Theorem C02_off_diagonal : forall n (a : 'M[R]_n) lam, 0 <= lam ->
  (forall i, soft_thresholding_off_diagonal a lam i i = a i i) /\
  unique_minimiser (@everywhere _) (fun X => lam * l1od X + fnorm2 (X - a) / 2%:R)
    (soft_thresholding_off_diagonal a lam) /\
  (sym a -> sym (soft_thresholding_off_diagonal a lam)).
Proof. exact sod_all. Qed.
Print Assumptions C02_off_diagonal.
(** the code's [l1_od_norm] is the off-diagonal l1 norm of the statement *)
Theorem C02_l1_od_norm : forall n (a : 'M[R]_n), l1_od_norm a = l1od a.
Proof. exact l1_od_normE. Qed.
Print Assumptions C02_l1_od_norm.

(** C03 *)
Theorem C03_prox_logdet : forall n eigh, @eigh_ok n eigh -> forall (A : 'M[R]_n) lam, sym A -> 0 < lam ->
  unique_minimiser (@pd n) (fun X => \tr (A *m X) - ln (\det X) + fnorm2 X / (2%:R * lam))
    (prox_logdet eigh A lam).
Proof. exact prox_logdet_unique. Qed.
Print Assumptions C03_prox_logdet.
Theorem C03_basis_independent : forall n eigh eigh' (A : 'M[R]_n) lam,
  eigh_ok eigh -> eigh_ok eigh' -> sym A -> 0 < lam ->
  prox_logdet eigh A lam = prox_logdet eigh' A lam.
Proof. exact prox_logdet_indep. Qed.
Print Assumptions C03_basis_independent.
Theorem C03_prox_logdet_ala_ma : forall n eigh, @eigh_ok n eigh -> forall (A : 'M[R]_n) lam, sym A -> 0 < lam ->
  unique_minimiser (@pd n) (fun X => - (lam * ln (\det X)) + fnorm2 (X + A) / 2%:R)
    (prox_logdet_ala_ma eigh A lam).
Proof. exact ma_unique. Qed.
Print Assumptions C03_prox_logdet_ala_ma.
(** the hypotheses are met, by a matrix which is neither diagonal nor definite *)
Example C03_case : exists (eigh : eigh_t 2) (A : 'M[R]_2), eigh_ok eigh /\ sym A /\ A 0 1 = 1 /\ ~ psd A.
Proof.
have [eigh h] := eigh_exists 2; exists eigh, (\matrix_(i, j) if i == j then 0 else 1).
split=> //; split; first by apply/matrixP => i j; rewrite !mxE eq_sym.
split; first by rewrite mxE.
case=> _ /(_ (\col_i if i == 0 then 1 else -1)); rewrite /quad !mxE sum2 !mxE !sum2 !mxE /=.
by move=> h'; mclra.
Qed.

(** C04 *)
Theorem C04_prox_trace_indicator : forall n eigh, @eigh_ok n eigh ->
  forall (A : 'M[R]_n) lam, sym A -> 0 <= lam ->
  unique_minimiser (@psd n) (fun X => lam * \tr X + fnorm2 (X - A) / 2%:R)
    (prox_trace_indicator eigh A lam).
Proof. exact prox_trace_unique. Qed.
Print Assumptions C04_prox_trace_indicator.

(** C05 *)
Theorem C05_prox_laplacian : forall m n (a : 'M[R]_(m, n)) lam, 0 <= lam ->
  unique_minimiser (@everywhere _) (fun X => lam * fnorm2 X + fnorm2 (X - a) / 2%:R)
    (prox_laplacian a lam).
Proof. exact lap_unique. Qed.
Print Assumptions C05_prox_laplacian.

(** C06: column [j] of the result is the row vector [y] transposed *)
Theorem C06_blockwise : forall m n (a : 'M[R]_(m, n)) lam j, 0 < lam ->
  exists y : 'rV[R]_m,
    unique_minimiser (@everywhere _)
      (fun x => lam * fnorm x + fnorm2 (x - row j a^T) / 2%:R) y /\
    forall i, blockwise_soft_thresholding a lam i j = Fin (y 0 i).
Proof. exact blockP'. Qed.
Print Assumptions C06_blockwise.
Theorem C06_blockwise_lambda0_nan : forall m n (a : 'M[R]_(m, n)) i j,
  (forall k, a k j = 0) -> blockwise_soft_thresholding a 0 i j = NaN.
Proof. exact block_nan. Qed.
Print Assumptions C06_blockwise_lambda0_nan.
Theorem C06_symmetric_agrees : forall n (a : 'M[R]_n) lam j i, 0 <= lam -> (exists k, a k j != 0) ->
  blockwise_soft_thresholding_symmetric a lam i j = blockwise_soft_thresholding a lam i j.
Proof. exact bsts_nonzero. Qed.
Print Assumptions C06_symmetric_agrees.
Theorem C06_symmetric_zero_column_nan : forall n (a : 'M[R]_n) lam j i, 0 <= lam ->
  (forall k, a k j = 0) -> blockwise_soft_thresholding_symmetric a lam i j = NaN.
Proof. exact bsts_zero. Qed.
Print Assumptions C06_symmetric_zero_column_nan.

(** C07 *)
Theorem C07_consistent_laplacian_l1 : forall n linf_1d node prox_node name,
  name = "laplacian"%string \/ name = "l1"%string ->
  exists norm prox,
    @check_norm_prox n linf_1d node prox_node name = Some (norm, prox, false) /\
    exact_prox norm prox.
Proof. exact check_ok. Qed.
Print Assumptions C07_consistent_laplacian_l1.
Theorem C07_value_error : forall n linf_1d node prox_node name,
  @check_norm_prox n linf_1d node prox_node name = None <->
  name \notin [:: "laplacian"%string; "l1"%string; "l2"%string; "linf"%string; "node"%string].
Proof. exact check_none. Qed.
Print Assumptions C07_value_error.
Theorem C07_node_flag : forall n linf_1d node prox_node name norm prox b,
  @check_norm_prox n linf_1d node prox_node name = Some (norm, prox, b) ->
  b = (name == "node"%string).
Proof. exact check_flag. Qed.
Print Assumptions C07_node_flag.
Theorem C07_l2_refuted : forall linf_1d node prox_node norm prox,
  @check_norm_prox 2 linf_1d node prox_node "l2" = Some (norm, prox, false) ->
  ~ exact_prox norm prox.
Proof. exact l2_not_exact. Qed.
Print Assumptions C07_l2_refuted.
Theorem C07_linf_refuted : forall linf_1d node prox_node norm prox,
  (forall a lam, 0 < lam ->
     minimiser (@everywhere _) (fun x => lam * vec_inf x + fnorm2 (x - a) / 2%:R) (linf_1d a lam)) ->
  @check_norm_prox 2 linf_1d node prox_node "linf" = Some (norm, prox, false) ->
  ~ exact_prox norm prox.
Proof. exact linf_not_exact. Qed.
Print Assumptions C07_linf_refuted.

(** C08 *)
Theorem C08_pair_update : forall m n (psi : 'M[R]_(m, n) -> R) prox_psi,
  (forall a lam, 0 <= lam ->
    unique_minimiser (@everywhere _) (fun X => lam * psi X + fnorm2 (X - a) / 2%:R) (prox_psi a lam)) ->
  forall A1 A2 beta rho, 0 <= beta -> 0 < rho ->
  unique_minimiser (@everywhere _)
    (fun Z => beta * psi (Z.2 - Z.1) + rho / 2%:R * (fnorm2 (Z.1 - A1) + fnorm2 (Z.2 - A2)))
    (pair_update prox_psi A1 A2 beta rho).
Proof. exact pair_unique. Qed.
Print Assumptions C08_pair_update.
Example C08_case m n (a : 'M[R]_(m, n)) lam : 0 <= lam ->
  unique_minimiser (@everywhere _) (fun X => lam * fnorm2 X + fnorm2 (X - a) / 2%:R)
    (prox_laplacian a lam).
Proof. exact: lap_unique. Qed.

(** C09 *)
Theorem C09_prox_FL_off_diagonal : forall T n tv,
  (forall (s : 'rV[R]_T) beta, 0 <= beta ->
    minimiser (@everywhere _) (fun y => beta * tvar y + fnorm2 (y - s) / 2%:R) (tv s beta)) ->
  forall (a : 'I_T -> 'M[R]_n) beta lam symmetric optimize, 0 <= beta -> 0 <= lam ->
  (symmetric && ~~ optimize -> forall t, sym (a t)) ->
  forall i j, i != j ->
  unique_minimiser (@everywhere _)
    (fun y : 'rV[R]_T => lam * l1 y + beta * tvar y + fnorm2 (y - \row_t a t i j) / 2%:R)
    (\row_t prox_FL tv a beta lam symmetric optimize t i j).
Proof. exact FL_off. Qed.
Print Assumptions C09_prox_FL_off_diagonal.
Theorem C09_prox_FL_diagonal : forall T n tv,
  (forall (s : 'rV[R]_T) beta, 0 <= beta ->
    minimiser (@everywhere _) (fun y => beta * tvar y + fnorm2 (y - s) / 2%:R) (tv s beta)) ->
  forall (a : 'I_T -> 'M[R]_n) beta lam symmetric optimize, 0 <= beta ->
  (symmetric && ~~ optimize -> forall t, sym (a t)) ->
  forall i,
  unique_minimiser (@everywhere _)
    (fun y : 'rV[R]_T => beta * tvar y + fnorm2 (y - \row_t a t i i) / 2%:R)
    (\row_t prox_FL tv a beta lam symmetric optimize t i i).
Proof. exact FL_diag. Qed.
Print Assumptions C09_prox_FL_diagonal.
(** a TV solver meeting the hypothesis exists, for series of length two *)
Example C09_case : exists tv, forall (s : 'rV[R]_2) beta, 0 <= beta ->
  minimiser (@everywhere _) (fun y => beta * tvar y + fnorm2 (y - s) / 2%:R) (tv s beta).
Proof. exact tv2_exists. Qed.

(** C10 *)
Theorem C10_update_rho_cases : forall o rho rnorm snorm,
  (mu o * snorm < rnorm /\ update_rho o rho rnorm snorm = tau_inc o * rho) \/
  (~ (mu o * snorm < rnorm) /\ mu o * rnorm < snorm /\ update_rho o rho rnorm snorm = rho / tau_dec o) \/
  (~ (mu o * snorm < rnorm) /\ ~ (mu o * rnorm < snorm) /\ update_rho o rho rnorm snorm = rho).
Proof. exact rho_cases. Qed.
Print Assumptions C10_update_rho_cases.
Theorem C10_positive : forall o, 0 < tau_inc o -> 0 < tau_dec o ->
  forall rho history, 0 < rho -> 0 < rho_run o rho history.
Proof. exact rho_run_pos. Qed.
Print Assumptions C10_positive.
Theorem C10_envelope : forall o rho history, 1 <= tau_inc o -> 1 <= tau_dec o -> 0 < rho ->
  rho / tau_dec o ^+ size history <= rho_run o rho history <= rho * tau_inc o ^+ size history.
Proof. exact rho_run_env'. Qed.
Print Assumptions C10_envelope.
Example C10_case : 1 <= tau_inc default_rho_options /\ 1 <= tau_dec default_rho_options.
Proof. by split; rewrite /=; mclra. Qed.

(** C11 *)
Theorem C11_update_gamma : forall eps g k0, 0 < eps -> eps <= g ->
  (forall k, eps <= gamma_run g k0 k eps) /\
  (forall k l, (k <= l)%N -> gamma_run g k0 l eps <= gamma_run g k0 k eps) /\
  exists K, forall k, (K <= k)%N -> gamma_run g k0 k eps = eps.
Proof. exact gamma_all. Qed.
Print Assumptions C11_update_gamma.
(** a step below eps is raised to eps at the next iteration *)
Theorem C11_lower_bound : forall eps g k, eps <= update_gamma g k eps.
Proof. exact gamma_ge. Qed.
Print Assumptions C11_lower_bound.
