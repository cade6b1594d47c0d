(** C196: the same for the time-varying problems. *)
From Coq Require Import Reals Lra.
From mathcomp Require Import all_ssreflect all_algebra.
From Verif Require Import RStruct RTac LinTac S_Mat RMx NP M_Prox S_Prox P_Prox P_Prox2 M_Loop M_GL S_GL P_Eigh P_GL M_TGL S_TGL P_TGL P_TGL2.
From Verif Require Import P_TGL4 M_KTGL S_KTGL P_KTGL P_KTGL2 P_KTGL4 P_Screen T_GL T_TGL.
Import Order.TTheory GRing.Theory Num.Theory.

Set Implicit Arguments.
Unset Strict Implicit.
Unset Printing Implicit Defensive.
Local Open Scope ring_scope.

(** specification: the penalty on the differences sees only absolute values *)
Definition sign_blind n (psi : 'M[R]_n -> R) : Prop := forall X Y : 'M[R]_n, (forall i j, `|X i j| = `|Y i j|) -> psi X = psi Y.

(** the four norms of check_norm_prox that are not the node penalty do *)
Theorem C196_norms n : [/\ sign_blind (@squared_norm n n), sign_blind (@l1_norm n n), sign_blind (@np_norm n n) & sign_blind (@np_norm_inf n n)].
Proof.
have sq : sign_blind (@squared_norm n n).
  move=> X Y h; apply: eq_bigr => i _; apply: eq_bigr => j _; have e (x : R) : x * x = `|x| * `|x|.
    by rewrite -normrM ger0_norm // -expr2 sqr_ge0.
  by rewrite e h -e.
split=> // X Y h; first by apply: eq_bigr => i _; apply: eq_bigr => j _.
  by rewrite /np_norm (sq _ _ h).
by rewrite /np_norm_inf; apply: eq_bigr => i _; apply: eq_bigr => j _.
Qed.
Print Assumptions C196_norms.

Lemma psi_keep n (B : pred 'I_n) (psi : 'M[R]_n -> R) X Y : convex_fun psi -> sign_blind psi -> psi (keep B X - keep B Y) <= psi (X - Y).
Proof.
move=> cv sb; have e : keep B X - keep B Y = keep B (X - Y) by apply/matrixP => i j; rewrite !mxE; case: ifP; rewrite ?subrr.
have fE : psi (flip B (X - Y)) = psi (X - Y) by apply: sb => i j; rewrite !mxE; case: ifP; rewrite ?normrN.
have h0 : 0 <= 2%:R^-1 :> R by mclra.
have h1 : 2%:R^-1 <= 1 :> R by mclra.
have := cv (X - Y) (flip B (X - Y)) _ h0 h1; rewrite fE e keepE.
have -> : (1 - 2%:R^-1) *: (X - Y) + 2%:R^-1 *: flip B (X - Y) = 2%:R^-1 *: (X - Y + flip B (X - Y)) by lin.
by move: (psi _) (psi _) => a b h; mclra.
Qed.
Section Time.
Variables (n T : nat) (B : pred 'I_n) (psi : 'M[R]_n -> R) (S : stack n T) (ns : 'I_T -> R) (alpha : R).
Hypotheses (sS : slices (@sym n) S) (ns0 : forall t, 0 < ns t) (cv : convex_fun psi) (sb : sign_blind psi) (a0 : 0 <= alpha).
Hypothesis hB : forall t i j, B i != B j -> ns t * `|S t i j| <= alpha.
Definition keeps (K : stack n T) : stack n T := [ffun t => keep B (K t)].
Lemma kernel_obj_keep (w : 'M[R]_T) (K : stack n T) : (forall s t : 'I_T, (s < t)%N -> 0 <= w s t) -> slices (@pd n) K ->
  kernel_obj (@l1 n n) psi ns S alpha w (keeps K) <= kernel_obj (@l1 n n) psi ns S alpha w K.
Proof.
move=> w0 pK; rewrite /kernel_obj; apply: ler_add.
  rewrite !mulr_sumr -!big_split /=; apply: ler_sum => t _; rewrite ffunE.
  have h i j : B i != B j -> `|S t i j| <= alpha / ns t by move=> ij; rewrite ler_pdivl_mulr // mulrC hB.
  have := ler_wpmul2l (ltW (ns0 t)) (gl_f_keep (sS t) (pK t) h); rewrite /gl_f /logdet [l1 (K t)](l1_keep B) !mulrDr.
  have -> : ns t * (alpha / ns t * cross B (K t)) = alpha * cross B (K t) by rewrite mulrA mulrCA mulfV ?mulr1 // gt_eqF.
  move: (ns t * _) (ns t * _) (ns t * _) (ns t * _) (alpha * _) (alpha * _); clear; move=> a b c d e f h; mclra.
apply: ler_sum => s _; apply: ler_sum => t st; rewrite !ffunE; apply: ler_wpmul2l (psi_keep B _ _ cv sb); exact: w0.
Qed.
Lemma kernel_opt_keep (w : 'M[R]_T) K : kern_ge0 w -> minimiser (fun K : stack n T => slices (@pd n) K) (fun K => kernel_obj (@l1 n n) psi ns S alpha w K) K ->
  forall t i j, B i != B j -> K t i j = 0.
Proof.
move=> w0 mK; have [pK hK] := mK.
have e : keeps K = K.
  apply: (kernel_opt_unique ns0 cv a0 w0 _ mK); split; first by move=> t; rewrite ffunE; apply: keep_pd.
  by move=> Y pY; apply: le_trans (kernel_obj_keep w0 pK) (hK Y pY).
by move=> t i j ij; rewrite -e ffunE mxE (negbTE ij).
Qed.
End Time.

(** C196: when at every time the covariances between B and the other variables, times the number of samples, do not exceed alpha, no estimate has an edge
    between them *)
Theorem C196_time_graphical_lasso n m (eigh : eigh_t n) psi prox : eigh_ok eigh ->
  forall (S : stack n m.+1) ns, slices (@sym n) S -> (forall t, 0 < ns t) -> convex_fun psi -> prox_of psi prox -> sign_blind psi ->
  forall p rho (Z U : triple n m) K, 0 <= tgl_alpha p -> 0 <= tgl_beta p -> 0 < rho -> slices (@sym n) U.1.1 ->
  tgl_updates eigh (PsiPlain psi prox) S ns p rho Z U = (K, Z, U) ->
  forall B : pred 'I_n, (forall t i j, B i != B j -> ns t * `|S t i j| <= tgl_alpha p) -> forall t i j, B i != B j -> Z.1.1 t i j = 0.
Proof.
move=> He S ns sS ns0 cv hp sb p rho Z U K a0 b0 r0 sU E B hB.
have [-> h] := tgl_fixed_opt He sS ns0 cv hp a0 b0 r0 sU E.
pose w : 'M[R]_m.+1 := \matrix_(s, t) if t == s.+1 :> nat then tgl_beta p else 0.
have fn : first_neighbour (tgl_beta p) w by move=> s t _; rewrite mxE.
have k0 : kern_ge0 w by move=> s t _; rewrite mxE; case: ifP.
apply: (kernel_opt_keep sS ns0 cv sb a0 hB k0).
by apply: opt_ext h => Y; rewrite (first_neighbour_obj _ _ _ _ _ _ fn).
Qed.
Print Assumptions C196_time_graphical_lasso.
Theorem C196_kernel_time_graphical_lasso n T (eigh : eigh_t n) psi prox : eigh_ok eigh ->
  forall (S : stack n T) ns, slices (@sym n) S -> (forall t, 0 < ns t) -> convex_fun psi -> prox_of psi prox -> sign_blind psi ->
  forall p rho (Z U : ktriple n T) K, 0 <= ktgl_alpha p -> (forall s t : 'I_T, (s < t)%N -> 0 <= kernel_of p s t) ->
  0 < rho -> slices (@sym n) U.1.1 ->
  ktgl_updates eigh prox S ns p rho Z U = (K, Z, U) ->
  forall B : pred 'I_n, (forall t i j, B i != B j -> ns t * `|S t i j| <= ktgl_alpha p) -> forall t i j, B i != B j -> Z.1.1 t i j = 0.
Proof.
move=> He S ns sS ns0 cv hp sb p rho Z U K a0 b0 r0 sU E B hB.
have [-> h] := ktgl_fixed_opt He sS ns0 cv hp a0 b0 r0 sU E.
exact: (kernel_opt_keep sS ns0 cv sb a0 hB b0 h).
Qed.
Print Assumptions C196_kernel_time_graphical_lasso.

Example C196_case : exists (eigh : eigh_t 2) (U : triple 2 2), [/\ eigh_ok eigh, slices (@sym 2) U.1.1, sign_blind (@l1 2 2),
  tgl_updates eigh (PsiPlain (@l1 2 2) (@soft_thresholding 2 2)) exSt (fun=> 1) (exT 5) 1 (copies exKt) U = (exKt, copies exKt, U) &
  forall t i j, (i == 0 :> 'I_2) != (j == 0) -> 1 * `|exSt t i j| <= 1].
Proof.
have [eigh [U [He [sU e]]]] := C23_case; exists eigh, U; split=> //; first by case: (C196_norms 2).
move=> t i j ij; rewrite ffunE mxE mul1r; case: eqP => [E|_]; last by rewrite normr1.
by move: ij; rewrite E eqxx.
Qed.
