(** C187: the kernels of the Wishart process (regain/bayesian/wishart_process_.py:212-221). *)
From Coq Require Import Reals Lra.
From mathcomp Require Import all_ssreflect all_algebra.
From Verif Require Import RStruct RTac LinTac Spectral S_Mat S_Fit RMx M_Utils M_Sampling P_Utils2 P_Sampling2 M_WKernel P_WKernel.
Import Order.TTheory GRing.Theory Num.Theory.

Set Implicit Arguments.
Unset Strict Implicit.
Unset Printing Implicit Defensive.
Local Open Scope ring_scope.

(** * C187 the kernels *)
(** with a variance and an inverse width, both not negative, the kernel matrix of any points is symmetric positive semidefinite, with or
    without the normalisation *)
Theorem C187_rbf_psd : forall n d (X : 'M[R]_(n, d)) (var iw : R) normalised, 0 <= var -> 0 <= iw ->
  exists K, rbf_kernel X X (Some var) (Some iw) normalised = Val K /\ psd K.
Proof.
move=> n d X var iw nrm v0 w0; eexists; split; first reflexivity.
have g0 : 0 <= 1 / 2%:R * iw by rewrite mulr_ge0 // divr_ge0 // ?ler01 ?ler0n.
have h : psd (var *: sk_rbf_kernel X X (1 / 2%:R * iw)).
  by apply: psdZ => //; rewrite rbf_entry; apply/dcong_psd/exp_psd/gram_psd; rewrite mulr_ge0 ?ler0n.
by case: nrm => //; apply: psdZ => //; apply/RleP; exact: sqrt_pos.
Qed.
Print Assumptions C187_rbf_psd.

(** the periodic kernel of any times is positive semidefinite with ones on the diagonal *)
Theorem C187_periodic_psd : forall n (t : 'cV[R]_n) (iw : R), iw <> 0 ->
  psd (periodic_kernel t t iw) /\ forall i, periodic_kernel t t iw i i = 1.
Proof.
move=> n t l l0; split; last first.
  by move=> i; rewrite periodic_entry subrr mulr0 sin_0 mul0r expr0n mulr0 oppr0 exp_0.
pose X : 'M[R]_(n, 2) := \matrix_(i, k) if k == 0 then cos (2%:R * (PI * t i 0)) else sin (2%:R * (PI * t i 0)).
have h0 : 0 <= l^-1 ^+ 2 by exact: sqr_ge0.
have e0 : 0 <= exp (- (l^-1 ^+ 2)) by apply/RleP/Rlt_le/exp_pos.
have := psdZ e0 (exp_psd (gram_psd X h0)); congr psd; apply/matrixP=> i j; rewrite periodic_entry mxE mxE mxE mxE -wexpD; congr exp.
rewrite !big_ord_recl big_ord0 !mxE /=.
have -> : (sin (PI * (t i 0 - t j 0)) / l) ^+ 2 = (1 - cos (2%:R * (PI * t i 0) - 2%:R * (PI * t j 0))) / 2%:R * l^-1 ^+ 2.
  rewrite exprMn sin2_half; congr (( _ - cos _) / _ * _); by rewrite !mulrBr.
rewrite [cos (_ - _)]cos_minus; move: (cos _) (cos _) (sin _) (sin _) (l^-1 ^+ 2) => a b c d e; toR; field.
Qed.
Print Assumptions C187_periodic_psd.

(** at distinct times the kernel matrix is positive definite, so that predicting at the training times gives the fitted covariances *)
Theorem C187_rbf_pd : forall n (t : 'cV[R]_n) (var iw : R) normalised, 0 < var -> 0 < iw -> (forall i j, i != j -> t i 0 <> t j 0) ->
  exists K, rbf_kernel t t (Some var) (Some iw) normalised = Val K /\ pd K.
Proof.
move=> n t var iw nrm v0 w0 dt; eexists; split; first reflexivity.
have g0 : 0 < 1 / 2%:R * iw by rewrite mulr_gt0 // divr_gt0 // ?ltr01 ?ltr0n.
have h : pd (var *: sk_rbf_kernel t t (1 / 2%:R * iw)).
  apply: pdZ => //; rewrite rbf_entry; apply: (dcong_pd (d := fun i => exp (- (1 / 2%:R * iw * fnorm2 (row i t))))) => [i|].
    by have := exp_pos (- (1 / 2%:R * iw * fnorm2 (row i t))) => e0 z; rewrite z in e0; exact: Rlt_irrefl e0.
  by apply: exp_gram_pd => //; rewrite mulr_gt0 ?ltr0n.
case: nrm => //; apply: pdZ => //; apply/RltP/sqrt_lt_R0; apply/RltP; rewrite divr_gt0 // mulr_gt0 ?ltr0n //; apply/RltP; exact: PI_RGT_0.
Qed.
Print Assumptions C187_rbf_pd.
Theorem C187_predict_train : forall v p n (t : 'cV[R]_n) (iw : R) (pinvh : 'M[R]_n -> 'M[R]_n) (u_map : umat v p n) (L_map : 'M[R]_p),
  pinvh_ok pinvh -> 0 < iw -> (forall i j, i != j -> t i 0 <> t j 0) ->
  exists K, rbf_kernel t t (Some 1) (Some iw) false = Val K /\ predict pinvh K K u_map L_map = GWP_construct u_map L_map.
Proof.
move=> v p n t iw pinvh u L hp w0 dt; have [K [e hK]] := C187_rbf_pd false (ltr01 : 0 < 1 :> R) w0 dt.
by exists K; split => //; apply: predict_train => //; [exact: pd_sym | exact: pd_unit].
Qed.
Print Assumptions C187_predict_train.

(** the correlation of two different times falls as the inverse width of the RBF kernel grows *)
Theorem C187_rbf_width : forall n d (X : 'M[R]_(n, d)) (w1 w2 : R) i j, w1 < w2 -> row i X <> row j X -> exists K1 K2,
  [/\ rbf_kernel X X (Some 1) (Some w1) false = Val K1, rbf_kernel X X (Some 1) (Some w2) false = Val K2, K2 i j < K1 i j & K1 i i = 1].
Proof.
move=> n d X w1 w2 i j w ne; eexists; eexists; split; try reflexivity.
  rewrite !scale1r !mxE; apply/RltP/exp_increasing/RltP; rewrite ltr_oppl opprK ltr_pmul2r.
    by rewrite ltr_pmul2l // divr_gt0 ?ltr01 ?ltr0n.
  rewrite lt_neqAle fnorm2_ge0 andbT; apply/negP=> /eqP z; apply: ne; apply/eqP; rewrite -subr_eq0; apply/eqP.
  by apply/fnorm2_eq0.
by rewrite scale1r mxE subrr fnorm2_0 mulr0 oppr0 exp_0.
Qed.
Print Assumptions C187_rbf_width.

(** The defaults of _rbf_kernel do not work: without a variance or an inverse width it raises TypeError. The normalised kernel does not
    have ones on its diagonal. *)
Theorem C187_rbf_defaults_refuted : forall n m d (X : 'M[R]_(n, d)) (Y : 'M[R]_(m, d)) var iw nrm,
  rbf_kernel X Y None iw nrm = Raise TypeError /\ rbf_kernel X Y var None nrm = Raise TypeError.
Proof. by move=> n m d X Y var [w|] nrm. Qed.
Print Assumptions C187_rbf_defaults_refuted.
Theorem C187_rbf_normalised_refuted : forall n d (X : 'M[R]_(n, d)) (var iw : R) i, 0 < var -> 0 < iw -> exists K,
  rbf_kernel X X (Some var) (Some iw) true = Val K /\ (K i i = var <-> iw = 2%:R * PI).
Proof.
move=> n d X var iw i v0 w0; eexists; split; first reflexivity.
rewrite !mxE subrr fnorm2_0 mulr0 oppr0 exp_0; have p0 : 0 < 2%:R * PI by rewrite mulr_gt0 ?ltr0n //; apply/RltP; exact: PI_RGT_0.
have s1 : sqrt 1 = 1 by exact: sqrt_1.
split=> [h | ->]; last by rewrite divff ?gt_eqF // s1 mul1r mulr1.
have h1 : sqrt (iw / (2%:R * PI)) = 1.
  by apply: (mulIf (lt0r_neq0 v0)); rewrite mul1r -{2}h mulr1.
have h2 : iw / (2%:R * PI) = 1.
  have q0 : 0 <= iw / (2%:R * PI) by rewrite divr_ge0 // ltW.
  by have := sqrt_sqrt _ (RleP _ _ q0); rewrite h1 => <-; exact: mulr1.
by rewrite -[LHS](divfK (lt0r_neq0 p0)) h2 mul1r.
Qed.
Print Assumptions C187_rbf_normalised_refuted.

(** The argument called inverse width is the width of the periodic kernel: the correlation grows with it. *)
Theorem C187_periodic_width_refuted : forall n (t : 'cV[R]_n) (w1 w2 : R) i j, 0 < w1 -> w1 < w2 -> sin (PI * (t i 0 - t j 0)) <> 0 ->
  periodic_kernel t t w1 i j < periodic_kernel t t w2 i j.
Proof.
move=> n t w1 w2 i j h1 h2 s0; rewrite !periodic_entry; apply/RltP/exp_increasing/RltP; rewrite ltr_oppl opprK ltr_pmul2l ?ltr0n //.
rewrite !exprMn ltr_pmul2l; last by rewrite exprn_even_gt0 //; apply/eqP.
by rewrite !exprVn ltf_pinv ?posrE ?exprn_gt0 // ?(lt_trans h1 h2) // ltr_expn2r // ?nnegrE ltW // (lt_trans h1).
Qed.
Print Assumptions C187_periodic_width_refuted.
(** With integer times, the usual labels of time points, all correlations of the periodic kernel are one whatever its parameter: the matrix
    is singular for two or more times, and the predicted covariance is the same at all integer times. *)
Theorem C187_periodic_integer_refuted : forall n m (a : 'I_n -> Z) (b : 'I_m -> Z) (w : R),
  let t : 'cV[R]_n := \col_i IZR (a i) in let s : 'cV[R]_m := \col_i IZR (b i) in
  [/\ periodic_kernel s t w = const_mx 1, (1 < n)%N -> \det (periodic_kernel t t w) = 0 &
      forall v p (pinvh : 'M[R]_n -> 'M[R]_n) (u_map : umat v p n) (L_map : 'M[R]_p) i j,
        predict pinvh (periodic_kernel t t w) (periodic_kernel s t w) u_map L_map i =
        predict pinvh (periodic_kernel t t w) (periodic_kernel s t w) u_map L_map j].
Proof.
have key n m (a : 'I_n -> Z) (b : 'I_m -> Z) (w : R) : periodic_kernel (\col_i IZR (b i)) (\col_i IZR (a i)) w = const_mx 1.
  apply/matrixP=> i j; rewrite !mxE divr1.
  have -> : fnorm (row i (\col_i IZR (b i)) - row j (\col_i IZR (a i))) = IZR (Z.abs (b i - a j)).
    rewrite /fnorm /fnorm2 !big_ord1 !mxE expr2 abs_IZR minus_IZR; exact: sqrt_Rsqr_abs.
  have -> : PI * IZR (Z.abs (b i - a j)) = (IZR (Z.abs (b i - a j)) * PI)%R by exact: Rmult_comm.
  have -> : sin (IZR (Z.abs (b i - a j)) * PI) = 0 by apply: sin_eq_0_1; eexists; reflexivity.
  by rewrite mul0r expr0n mulr0 oppr0 exp_0.
move=> n m a b w t s; rewrite /t /s !key; split=> [//|n1|v p pinvh u L i j].
  pose i0 : 'I_n := Ordinal (ltnW n1); pose i1 : 'I_n := Ordinal n1.
  by apply: (@determinant_alternate _ _ _ i0 i1) => // k; rewrite !mxE.
rewrite /predict /GWP_construct !ffunE.
have e k : (const_mx 1 *m pinvh (const_mx 1) : 'M[R]_(m, n)) i k = (const_mx 1 *m pinvh (const_mx 1) : 'M[R]_(m, n)) j k.
  by rewrite !mxE; apply: eq_bigr => l _; rewrite !mxE.
congr ((_ *m (_^T *m _) *m _)^T); apply: eq_bigr => k _; by rewrite e.
Qed.
Print Assumptions C187_periodic_integer_refuted.

Example C187_case : let t : 'cV[R]_3 := \col_i (nat_of_ord i)%:R in forall i j, i != j -> t i 0 <> t j 0.
Proof. by move=> t i j ij; rewrite !mxE => /eqP; rewrite eqr_nat => /eqP e; case/negP: ij; apply/eqP/val_inj. Qed.
