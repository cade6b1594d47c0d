(** The optimisation problems of the solvers have solutions. *)
From Coq Require Import Reals Lra Psatz.
From mathcomp Require Import all_ssreflect all_algebra.
From Verif Require Import RStruct RTac LinTac S_Mat RMx Exist S_GL S_Linear NP M_Prox P_Prox M_Linear P_Linear P_Linear2 P_Linear4.
Import Order.TTheory GRing.Theory Num.Theory.

Set Implicit Arguments.
Unset Strict Implicit.
Unset Printing Implicit Defensive.
Local Open Scope ring_scope.

(** * lasso *)
Lemma le_l1 m n (X : 'M[R]_(m, n)) i j : `|X i j| <= l1 X.
Proof.
rewrite /l1 (bigD1 i) //= (bigD1 j) //= -!addrA ler_addl; apply: addr_ge0.
  by apply: sumr_ge0.
by apply: sumr_ge0 => k _; apply: sumr_ge0.
Qed.
Lemma lasso_exists m n (A : 'M[R]_(m, n)) b lamda : 0 < lamda -> exists x, lasso_optimum A b lamda x.
Proof.
move=> l0; pose f x := ls_f A b x + ls_g lamda x.
apply: (@min_exists _ _ (@everywhere _) f 0 (f 0 / lamda)) => //.
  move=> X _ hX i j; rewrite ler_pdivl_mulr //; apply: le_trans hX; rewrite mulrC.
  apply: le_trans (ler_wpmul2l (ltW l0) (le_l1 X i j)) _; rewrite /f ler_addr.
  by apply: mulr_ge0; [rewrite invr_ge0 ler0n | exact: fnorm2_ge0].
move=> u X v _ hu hv; split=> //; apply: cv_le hv; apply: cvD; apply: cvM; try exact: cv_const; last exact: cv_l1.
by apply: cv_fnorm2; apply: mx_cvD; [apply: mx_cvM => //|]; exact: mx_cv_const.
Qed.

(** * graphical lasso *)
Section GL.
Variable n : nat.
Implicit Types X S : 'M[R]_n.
Lemma psd_unit_pd X : psd X -> X \in unitmx -> pd X.
Proof.
move=> [sX hX] uX; split=> // v v0; rewrite lt_def hX andbT; apply/eqP => q0.
have [B [[sB _] eB]] := psd_sqrt (conj sX hX).
have : B *m v = 0.
  apply: (@fdotAA_eq0 _ _ (B *m v)); rewrite -fnorm2E /fnorm2; move: q0.
  rewrite /quad -eB -{1}sB !mulmxA -trmx_mul -mulmxA mxE => h.
  by rewrite -[RHS]h; apply: eq_bigr => i _; rewrite big_ord_recl big_ord0 addr0 [in RHS]mxE expr2.
move=> h; case/negP: v0; apply/eqP; rewrite -[v](mulKmx uX) -eB -mulmxA h !mulmx0 //.
Qed.
Lemma bil_delta X i j : ((delta_mx i 0 : 'cV[R]_n)^T *m X *m (delta_mx j 0 : 'cV[R]_n)) 0 0 = X i j.
Proof. by rewrite trmx_delta -rowE -colE !mxE. Qed.
Lemma quad_delta2 X i j (s : R) : sym X -> quad X (delta_mx i 0 + s *: delta_mx j 0) = X i i + 2%:R * s * X i j + s ^+ 2 * X j j.
Proof.
move=> sX; have e : X j i = X i j by rewrite -[in LHS]sX mxE.
set x := delta_mx i 0; set y := delta_mx j 0; 
have -> : quad X (x + s *: y) = (x^T *m X *m x) 0 0 + s * (x^T *m X *m y) 0 0 + s * (y^T *m X *m x) 0 0 + s * s * (y^T *m X *m y) 0 0.
  have t : (x + s *: y)^T = x^T + s *: y^T by apply/matrixP => a c; rewrite !mxE.
  rewrite /quad t !mulmxDl !mulmxDr -!scalemxAl -!scalemxAr scalerA.
  rewrite !addmxE !scalemxE; mcring.
rewrite !bil_delta e; move: (X i i) (X i j) (X j j) => a b c; mcring.
Qed.
Lemma psd_diag_ge0 X i : psd X -> 0 <= X i i.
Proof. by move=> pX; have := proj2 pX (delta_mx i 0); rewrite quad_delta. Qed.
Lemma psd_diag_tr X i : psd X -> X i i <= \tr X.
Proof.
move=> pX; rewrite /mxtrace (bigD1 i) //= ler_addl; apply: sumr_ge0 => k _; exact: psd_diag_ge0.
Qed.
Lemma psd_entry X i j : psd X -> `|X i j| <= \tr X.
Proof.
move=> pX; have h1 := psd_diag_tr i pX; have h2 := psd_diag_tr j pX.
have h3 := proj2 pX (delta_mx i 0 + 1 *: delta_mx j 0); have h4 := proj2 pX (delta_mx i 0 + (-1) *: delta_mx j 0).
rewrite (quad_delta2 _ _ _ (proj1 pX)) in h3; rewrite (quad_delta2 _ _ _ (proj1 pX)) in h4.
rewrite ler_norml; move: (X i i) (X i j) (X j j) (\tr X) h1 h2 h3 h4 => a b c t h1 h2 h3 h4.
by apply/andP; split; mclra.
Qed.
Lemma l1od_ge0 X : 0 <= l1od X.
Proof. by apply: sumr_ge0 => i _; apply: sumr_ge0. Qed.

(** logdet grows slower than any multiple of the trace *)
Lemma logdet_sub (c : R) X : 0 < c -> pd X -> logdet X <= logdet (c^-1%:M : 'M[R]_n) + c * \tr X.
Proof.
move=> c0 pX.
have pc : pd (c^-1%:M : 'M[R]_n) by rewrite -scalemx1; apply: pdZ; [rewrite invr_gt0 | exact: pd1].
have := logdet_tangent pc pX; rewrite invmx_scalar invrK mulmxBr mxtraceD linearN /= mul_scalar_mx mxtraceZ -scalar_mxM mulfV ?gt_eqF //.
rewrite mxtrace1; have : (0 : R) <= n%:R by rewrite ler0n.
by move: (logdet X) (logdet _) (c * _) (n%:R : R) => a b d e h1 h2; mclra.
Qed.

(** what makes the level sets bounded: a positive diagonal and a penalty on the other entries *)
Definition pos_diag S : Prop := forall i, 0 < S i i.
Lemma pos_min (I : finType) (F : I -> R) : (forall i, 0 < F i) -> exists2 s, 0 < s & forall i, s <= F i.
Proof.
move=> h; pose s := \sum_i (F i)^-1; have s0 : 0 <= s by apply: sumr_ge0 => i _; rewrite invr_ge0 ltW.
have s1 : 0 < 1 + s by apply: ltr_spaddl => //; exact: ltr01.
exists (1 + s)^-1; first by rewrite invr_gt0.
move=> i; rewrite -[F i]invrK lef_pinv ?posrE ?invr_gt0 //.
apply: (@le_trans _ _ s); last by rewrite ler_addr ler01.
by rewrite /s (bigD1 i) //= ler_addl; apply: sumr_ge0 => j _; rewrite invr_ge0 ltW.
Qed.
Lemma lin_growth S (alpha : R) : psd S -> pos_diag S -> 0 < alpha ->
  exists2 c, 0 < c & forall X, psd X -> c * \tr X <= \tr (S *m X) + alpha * l1od X.
Proof.
move=> pS dS a0; have [s s0 hs] := pos_min dS.
pose M := l1 S; have M0 : 0 <= M by apply: sumr_ge0 => i _; apply: sumr_ge0.
exists (alpha / (alpha + M) * s); first by apply: mulr_gt0 => //; apply: divr_gt0 => //; apply: ltr_spaddl.
move=> X pX; rewrite (tr_fdot _ (proj1 pS)); have h0 := psd_fdot_ge0 pS pX.
have h1 : s * \tr X - M * l1od X <= fdot S X.
  rewrite /fdot /mxtrace /l1od [s * _]mulr_sumr [M * _]mulr_sumr -sumrB; apply: ler_sum => i _.
  rewrite mulr_sumr [X in _ <= X](bigD1 i) //=; apply: ler_add.
    by apply: ler_wpmul2r; [exact: psd_diag_ge0 | exact: hs].
  rewrite ler_oppl -sumrN; apply: ler_sum => j _; apply: le_trans (ler_norm _) _; rewrite normrN normrM.
  by apply: ler_wpmul2r => //; exact: le_l1.
have aM : 0 < alpha + M by apply: ltr_spaddl.
have o0 := l1od_ge0 X; rewrite -!mulrA [_^-1 * _]mulrC !mulrA ler_pdivr_mulr //.
have := ler_wpmul2l (ltW a0) h1; have := mulr_ge0 M0 h0; have := mulr_ge0 (ltW (mulr_gt0 a0 a0)) o0.
clearbody M; move: (l1od X) (fdot S X) (\tr X) o0 h0 h1 => o d t o0 h0 h1 g1 g2 g3; mcnra.
Qed.

Lemma cv_ln (a : nat -> R) l : 0 < l -> Un_cv a l -> Un_cv (fun k => ln (a k)) (ln l).
Proof.
move=> l0; apply: continuity_seq; apply: derivable_continuous_pt; exists (Rinv l); apply: derivable_pt_lim_ln; exact/RltP.
Qed.
Lemma cv_quad (u : nat -> 'M[R]_n) X v : mx_cv u X -> Un_cv (fun k => quad (u k) v) (quad X v).
Proof. by move=> hu; apply: mx_cvM; [apply: mx_cvM => //|]; exact: mx_cv_const. Qed.
Lemma cv_ge (a : nat -> R) l c : Un_cv a l -> (forall k, c <= a k) -> c <= l.
Proof.
move=> /cvN h hc; rewrite -ler_opp2; apply: cv_le h _ => eps e0; exists 0%N => k _.
by rewrite -[X in X <= _]addr0 ler_add ?ler_opp2 // ltW.
Qed.
Lemma psd_lim (u : nat -> 'M[R]_n) X : (forall k, psd (u k)) -> mx_cv u X -> psd X.
Proof.
move=> hu hX; split.
  apply/matrixP => i j; rewrite mxE; apply: (UL_sequence (fun k => u k i j)); last exact: hX.
  by apply: cv_eq (hX j i) => k; rewrite -[in RHS](proj1 (hu k)) mxE.
by move=> v; apply: cv_ge (cv_quad v hX) _ => k; exact: (proj2 (hu k) v).
Qed.
(** a limit of positive definite matrices whose determinants stay away from 0 *)
Lemma pd_lim (u : nat -> 'M[R]_n) X c : (forall k, pd (u k) /\ c <= logdet (u k)) -> mx_cv u X ->
  pd X /\ Un_cv (fun k => logdet (u k)) (logdet X).
Proof.
move=> hu hX; have pX : psd X by apply: (psd_lim (u := u)) => // k; apply: pd_psd; have [] := hu k.
have dX : Rtrigo_def.exp c <= \det X.
  apply: cv_ge (cv_det hX) _ => k; have [pk ck] := hu k; apply/RleP.
  rewrite -(exp_ln (\det (u k))); last by apply/RltP; exact: pd_det_gt0.
  case: (Rle_lt_or_eq_dec _ _ (elimT (RleP _ _) ck)) => [/exp_increasing/Rlt_le //|->]; exact: Rle_refl.
have d0 : 0 < \det X by apply: lt_le_trans dX; apply/RltP; exact: exp_pos.
split; first by apply: psd_unit_pd => //; rewrite unitmxE unitfE gt_eqF.
by apply: cv_ln => //; exact: cv_det.
Qed.

Lemma cv_tr_mul S (u : nat -> 'M[R]_n) X : mx_cv u X -> Un_cv (fun k => \tr (S *m u k)) (\tr (S *m X)).
Proof.
move=> hu; apply: cv_sum => i _; apply: mx_cvM => //; exact: mx_cv_const.
Qed.

Lemma gl_exists S (alpha : R) : psd S -> pos_diag S -> 0 < alpha -> exists K, gl_optimum S alpha K.
Proof.
move=> pS dS a0; have [c c0 hc] := lin_growth pS dS a0.
have hC X := @logdet_sub _ X (half_pos c0); move: hC; move: (logdet _) => C hC.
apply: (@min_exists _ _ (@pd n) (gl_obj S alpha) 1%:M ((gl_obj S alpha 1%:M + C) / (c / 2%:R))).
- exact: pd1.
- move=> X pX hX i j; apply: le_trans (psd_entry i j (pd_psd pX)) _; rewrite ler_pdivl_mulr ?half_pos //.
  have := hC X pX; have := hc X (pd_psd pX); move: hX; rewrite {1}/gl_obj /gl_obj2 -/(logdet X).
  move: (gl_obj _ _ _) (\tr (S *m X)) (logdet X) (alpha * _) (\tr X) => a b d e t h1 h2 h3; mcnra.
move=> u X v hu hX hv.
have [pX lX] : pd X /\ Un_cv (fun k => logdet (u k)) (logdet X).
  apply: (@pd_lim _ _ (- gl_obj S alpha 1%:M)) => // k; have [pk hk] := hu k; split=> //.
  move: hk; rewrite {1}/gl_obj /gl_obj2 -/(logdet (u k)) (tr_fdot _ (proj1 pS)).
  have := psd_fdot_ge0 pS (pd_psd pk); have := mulr_ge0 (ltW a0) (l1od_ge0 (u k)).
  by move: (gl_obj _ _ _) (fdot _ _) (logdet _) (alpha * _) => a b d e h1 h2 h3; mclra.
split=> //; apply: cv_le hv; apply: cvD; last by apply: cvM; [exact: cv_const | exact: cv_l1od].
by apply: cvB => //; exact: cv_tr_mul.
Qed.
End GL.
