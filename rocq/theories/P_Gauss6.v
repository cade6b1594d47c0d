(** Generators of precision matrices: fixed sparsity, sines, latent variables by Schur complements, kernels. *)
From Coq Require Import Reals String.
From mathcomp Require Import all_ssreflect all_algebra.
From Verif Require Import RStruct RTac NP Str S_Mat RMx Spectral S_Utils M_Utils P_Utils2 M_Ising P_Ising7 M_Gauss P_Gauss P_Gauss2 P_Gauss3 P_Gauss4 P_Gauss5.
Import Order.TTheory GRing.Theory Num.Theory.

Set Implicit Arguments.
Unset Strict Implicit.
Unset Printing Implicit Defensive.
Local Open Scope ring_scope.

Lemma fill_sym p (A : 'M[R]_p) d : sym A -> sym (fill_diag A d).
Proof. by move/symP => s; apply/symP => i j; rewrite !mxE eq_sym; case: eqP => [->|] // _; exact: s. Qed.

(** * fixed sparsity *)
Section Fixed.
Variable chol : chol_t.
Hypothesis cok : chols_ok chol.
Variable p : nat.
Implicit Types (theta L z : 'M[R]_p).
Lemma fs_dominant (A L : 'M[R]_p) : sym A -> sym L ->
  let B := fill_diag A (fun i => \sum_j `|A i j| + \sum_j `|L i j| + 1 / 10%:R) in
  [/\ sym B, pd B & pd (B - L)].
Proof.
move=> sA sL B; have sB : sym B by exact: fill_sym.
have Bii i : B i i = \sum_j `|A i j| + \sum_j `|L i j| + 1 / 10%:R by rewrite mxE eqxx.
have Bij i j : j != i -> B i j = A i j by rewrite mxE eq_sym => /negbTE ->.
have t0 : 0 < 1 / 10%:R :> R by apply: divr_gt0; rewrite ?ltr01 ?ltr0n.
have L0 i : 0 <= \sum_j `|L i j| by apply: sumr_ge0.
split=> //.
  apply: diag_dom_pd => // i; rewrite Bii (eq_bigr (fun j => `|A i j|)); last by move=> j /Bij ->.
  rewrite [X in _ < X + _ + _](bigD1 i) //=.
  have := L0 i; have := normr_ge0 (A i i); move: (`|A i i|) (\sum_(j | j != i) `|A i j|) (\sum_j `|L i j|) => a b c a0 c0; mclra.
apply: diag_dom_pd => [|i]; first exact: symB.
have le : \sum_(j | j != i) `|(B - L) i j| <= \sum_(j | j != i) `|A i j| + \sum_(j | j != i) `|L i j|.
  by rewrite -big_split; apply: ler_sum => j ji /=; rewrite mxE [(- L) i j]mxE Bij // ler_norm_sub.
apply: le_lt_trans le _; rewrite [X in _ < X]mxE [(- L) i i]mxE Bii [X in _ < (X + _ + _) + _](bigD1 i) //= [X in _ < (_ + X + _) + _](bigD1 i) //=.
have := ler_norm (L i i); have := normr_ge0 (A i i); move: (`|A i i|) (`|L i i|) (L i i) (\sum_(j | j != i) `|A i j|) (\sum_(j | j != i) `|L i j|) => a b c e f h1 h2; mclra.
Qed.
(** the matrix before its diagonal is set *)
Definition fs_mid theta z (plus : bool) (epsilon : R) : 'M[R]_p :=
  let A : 'M[R]_p := \matrix_(i, j) if fs_nonzero theta i j then
     (if plus then theta i j + z i j * (1 / 10%:R) else theta i j - z i j * (1 / 10%:R)) else theta i j in
  let A : 'M[R]_p := map_mx (fun x : R => `|x|) A in
  let A : 'M[R]_p := 2%:R^-1 *: (A + A^T) in
  \matrix_(i, j) if A i j < epsilon then 0 else A i j.
Lemma fs_stepE theta L z plus epsilon : fs_step theta L z plus epsilon =
  fill_diag (fs_mid theta z plus epsilon) (fun i => \sum_j `|fs_mid theta z plus epsilon i j| + \sum_j `|L i j| + 1 / 10%:R).
Proof. by []. Qed.
Lemma fs_mid_sym theta z plus epsilon : sym (fs_mid theta z plus epsilon).
Proof.
apply/symP => i j; rewrite /fs_mid; set A := map_mx _ _.
have e : (2%:R^-1 *: (A + A^T)) i j = (2%:R^-1 *: (A + A^T)) j i by exact: (proj1 (symP _) (sym_halfsum A)).
by rewrite mxE [RHS]mxE e.
Qed.
Lemma fs_step_ok theta L z plus epsilon : sym L ->
  let B := fs_step theta L z plus epsilon in [/\ sym B, pd B & pd (B - L)].
Proof. by move=> sL /=; rewrite fs_stepE; apply: fs_dominant => //; exact: fs_mid_sym. Qed.
(** after a step, every off-diagonal entry is moved by the next one *)
Lemma fs_all_moved theta L z plus epsilon i j : i != j -> fs_nonzero (fs_step theta L z plus epsilon) i j.
Proof.
move=> ij; rewrite fs_stepE /fs_nonzero; set M := fs_mid _ _ _ _.
have Mij : M i j = M j i by exact: (proj1 (symP _) (fs_mid_sym theta z plus epsilon)).
rewrite [X in X - _]mxE [X in _ - X]mxE eqxx (negbTE ij) subr_eq0 lt_eqF // Mij (bigD1 i) //=.
have L0 : 0 <= \sum_k `|L j k| by apply: sumr_ge0.
have M0 : 0 <= \sum_(k | k != i) `|M j k| by apply: sumr_ge0.
have := ler_norm (M j i); move: (M j i) (`|_|) (\sum_(k | k != i) _) (\sum_k _) M0 L0 => a b c e M0 L0 ab.
mclra.
Qed.
Lemma fs_run eigh h T degree epsilon ct (K0 : 'M[R]_(h, p)) choice (z : nat -> 'M[R]_p) st : eighs_ok eigh ->
  make_starting chol eigh degree false c001 K0 choice = IOk st ->
  exists thetas L, [/\ make_fixed_sparsity chol eigh T degree epsilon ct K0 choice z = IOk (thetas, L), size thetas = maxn 1 T,
    L = st.1.2, nth 0 thetas 0 = map_mx (fun x : R => `|x|) st.1.1
    & forall t, (0 < t < maxn 1 T)%N -> [/\ sym (nth 0 thetas t), pd (nth 0 thetas t) & pd (nth 0 thetas t - L)]].
Proof.
move=> eok; rewrite /make_fixed_sparsity => E; rewrite E.
have E' := E; move: E'; rewrite /make_starting; case EL: (make_ell eigh K0) => [[L' K']|] //.
have [_ [sL' _] _ _] := ell_spec eok EL.
case: st E => [[theta L] K] E; case: ifP => // _ [_ e _]; rewrite e in sL' => {E EL}.
set f := (X in foldl X _ _).
have H : forall ts l0, (0 < size l0)%N -> (forall t, (0 < t < size l0)%N -> [/\ sym (nth 0 l0 t), pd (nth 0 l0 t) & pd (nth 0 l0 t - L)]) ->
    exists l, [/\ foldl f (IOk l0) ts = IOk l, size l = (size l0 + size ts)%N, nth 0 l 0 = nth 0 l0 0 &
      forall t, (0 < t < size l)%N -> [/\ sym (nth 0 l t), pd (nth 0 l t) & pd (nth 0 l t - L)]].
  elim=> [|k ts IH] l0 s0 h0 /=; first by exists l0; rewrite addn0.
  set B := fs_step _ _ _ _ _; have [s1 d1 d2] : [/\ sym B, pd B & pd (B - L)] by exact: fs_step_ok.
  rewrite cholE //; have [||l [el sl nl hl]] := IH (rcons l0 B).
  - by rewrite size_rcons.
  - move=> t; rewrite size_rcons ltnS nth_rcons => /andP [t0]; rewrite leq_eqVlt => /orP [/eqP ->|ts0]; first by rewrite ltnn eqxx.
    by rewrite ts0; apply: h0; rewrite t0.
  - by exists l; split=> //; [rewrite sl size_rcons addSnnS | rewrite nl nth_rcons s0].
have [||l [el sl nl hl]] := H (iota 1 T.-1) [:: map_mx (fun x : R => `|x|) theta].
- by [].
- by move=> [|[|t]].
have m : size l = maxn 1 T by rewrite sl size_iota /= add1n maxnE subn1.
by exists l, L; rewrite el; split=> //; move: hl; rewrite m.
Qed.
End Fixed.
Lemma fs_witness chol eigh : chols_ok chol -> eighs_ok eigh -> exists A B L,
  [/\ make_fixed_sparsity (p := 2) (h := 0) chol eigh 2 0 c001 None 0 (@the_choice _) (fun=> const_mx 1) = IOk ([:: A; B], L),
      A 0 1 = 0, B 0 1 != 0 & A 0 1 = A 1 0 /\ B 0 1 = B 1 0].
Proof.
move=> cok eok.
have L0 : (0 : 'M[R]_(0, 2))^T *m (0 : 'M[R]_(0, 2)) = 0 by rewrite mulmx0.
have EL : make_ell eigh (0 : 'M[R]_(0, 2)) = IOk (0, 0).
  rewrite /make_ell; have -> : [exists i : 'I_0, \sum_j (0 : 'M[R]_(0, 2)) i j == 0] = false by apply/existsP => [[]] [].
  have -> : \matrix_(i, j) ((0 : 'M[R]_(0, 2)) i j / (\sum_k (0 : 'M[R]_(0, 2)) i k / 2%:R)) = 0 by apply/matrixP => [[]].
  by rewrite L0 psd_semidef ?mxrank0 //; exact: psd0.
have st : make_starting chol eigh 0 false c001 (0 : 'M[R]_(0, 2)) (@the_choice _) = IOk (1%:M, 0, 0).
  rewrite /make_starting EL plain0; last exact: the_choice_ok.
  have d1 : is_pos_def (@chol 2%N) 1%:M by apply: cholE => //; exact: pd1.
  by rewrite /repair_rowsum d1 /repair_ell !subr0 !d1.
rewrite /make_fixed_sparsity st /=.
set t := 2%:R / 2%:R < 2%:R; have -> : t = true by rewrite /t; apply/idP; mclra.
have m1 : map_mx (fun x : R => `|x|) 1%:M = 1%:M :> 'M[R]_2 by apply/matrixP => i j; rewrite !mxE normr_nat.
rewrite m1; set B := fs_step _ _ _ _ _; have [sB dB dB'] : [/\ sym B, pd B & pd (B - 0)] by apply: fs_step_ok; exact: sym0.
rewrite cholE //; exists 1%:M, B, 0; split=> //; first by rewrite mxE.
  rewrite /B /fs_step !mxE /fs_nonzero !mxE /= sub0r oppr_eq0 oner_eq0 /= !add0r !mul1r.
  have -> : `|(10%:R)^-1| = (10%:R)^-1 :> R by rewrite ger0_norm // invr_ge0 ler0n.
  have -> : (2%:R^-1 * ((10%:R)^-1 + (10%:R)^-1) < c001) = false by apply/negbTE; rewrite -leNgt /c001; mclra.
  by apply/eqP => q; mclra.
by split; [rewrite !mxE | exact: (proj1 (symP _) sB)].
Qed.

(** * sines *)
Section Sin.
Variable chol : chol_t.
Hypothesis cok : chols_ok chol.
Lemma squareform_sym p (y : 'I_p -> 'I_p -> R) : sym (squareform y).
Proof. by apply/symP => i j; rewrite !mxE; case: ltngtP. Qed.
Lemma sin_ok p T nrm (y : 'I_T -> 'I_p -> 'I_p -> R) t : let Y := make_sin chol nrm y t in
  pd Y /\ forall i j : 'I_p, (i < j)%N -> Y i j = Num.max (y t i j) 0 /\ Y j i = Num.max (y t i j) 0.
Proof.
rewrite /make_sin !ffunE; set s := squareform _; have ss : sym s by exact: squareform_sym.
set A := s + _; have sA : sym A by apply: symD => //; exact: sym_diag.
split; first exact: ensure_pd.
move=> i j ij; have nij : i != j by apply: contraTN ij => /eqP ->; rewrite ltnn.
have nji : j != i by rewrite eq_sym.
rewrite !ensure_off // !mxE ij (negbTE nij) (negbTE nji) !mulr0n !addr0 ltnNge (ltnW ij); split=> //=.
Qed.
Lemma sin_cos_ok p T (L : 'M[R]_p) theta r : make_sin_cos chol T L theta = IOk r ->
  [/\ (0 < T)%N, size r.1 = T, forall t, (t < T)%N -> is_pos_def (@chol p) (theta t) && is_pos_def (@chol p) (theta t - L)
    & r.2 = [:: theta T.-1 - L]].
Proof.
rewrite /make_sin_cos; set f := (X in foldl X _ _).
have H : forall n o, foldl f (IOk None) (iota 0 n) = IOk o ->
    (forall t, (t < n)%N -> is_pos_def (@chol p) (theta t) && is_pos_def (@chol p) (theta t - L)) /\
    o = (if n is m.+1 then Some [:: theta m - L] else None).
  elim=> [|n IH] o; first by case=> <-.
  rewrite -addn1 iotaD foldl_cat add0n /=; case: (foldl f _ _) IH => [o'|e] // IH; have [h _] := IH _ erefl.
  rewrite addn1 /f; case: ifP => // /negbFE a; case: ifP => // /negbFE b [<-]; split=> // t.
  by rewrite ltnS leq_eqVlt => /orP [/eqP ->|/h]; rewrite ?a ?b.
case E: (foldl _ _ _) => [[obs|]|] // [<-]; have [h] := H _ _ E; case: T h {E} => // T h [->].
by split=> //=; rewrite ?size_map ?size_iota.
Qed.
Lemma sin_cos_empty p (L : 'M[R]_p) theta : make_sin_cos chol 0 L theta = IRaise IUnboundLocalError.
Proof. by []. Qed.
End Sin.

(** * Schur complements *)
Section Schur.
Variables (a b : nat) (K : 'M[R]_(a + b)).
Hypothesis dK : pd K.
Lemma blocks_sym : [/\ sym (ulsubmx K), sym (drsubmx K) & dlsubmx K = (ursubmx K)^T].
Proof.
have [s _] := dK; split; [rewrite /sym trmx_ulsub s | rewrite /sym trmx_drsub s | rewrite trmx_ursub s]; done.
Qed.
Lemma ul_pd : pd (ulsubmx K).
Proof.
have [s1 s2 s3] := blocks_sym; split=> // x x0; have [_ q] := dK.
have -> : quad (ulsubmx K) x = quad K (col_mx x 0).
  rewrite /quad -{2}(submxK K) tr_col_mx trmx0 mul_row_block !mul0mx !addr0 mul_row_col mulmx0 addr0 //.
by apply: q; rewrite col_mx_eq0 negb_and x0.
Qed.
Lemma dr_pd : pd (drsubmx K).
Proof.
have [s1 s2 s3] := blocks_sym; split=> // x x0; have [_ q] := dK.
have -> : quad (drsubmx K) x = quad K (col_mx 0 x).
  by rewrite /quad -{2}(submxK K) tr_col_mx trmx0 mul_row_block !mul0mx !add0r mul_row_col mulmx0 add0r.
by apply: q; rewrite col_mx_eq0 negb_and x0 orbT.
Qed.
Lemma schur_ul : pd (ulsubmx K - ursubmx K *m invmx (drsubmx K) *m dlsubmx K).
Proof.
have [s1 s2 s3] := blocks_sym; have uD := pd_unit dr_pd; split.
  by apply: symB => //; rewrite /sym s3 !trmx_mul trmxK (sym_inv s2) mulmxA.
move=> x x0; have [_ q] := dK.
have -> : quad (ulsubmx K - ursubmx K *m invmx (drsubmx K) *m dlsubmx K) x =
    quad K (col_mx x (- (invmx (drsubmx K) *m dlsubmx K *m x))).
  have Kv : K *m col_mx x (- (invmx (drsubmx K) *m dlsubmx K *m x)) =
      col_mx ((ulsubmx K - ursubmx K *m invmx (drsubmx K) *m dlsubmx K) *m x) 0.
    by rewrite -[K in K *m _]submxK mul_block_col !mulmxN !mulmxA mulmxV // mul1mx subrr mulmxBl //.
  by rewrite /quad -[in RHS]mulmxA Kv tr_col_mx mul_row_col mulmx0 addr0 mulmxA.
by apply: q; rewrite col_mx_eq0 negb_and x0.
Qed.
Lemma schur_dr : pd (drsubmx K - dlsubmx K *m invmx (ulsubmx K) *m ursubmx K).
Proof.
have [s1 s2 s3] := blocks_sym; have uD := pd_unit ul_pd; split.
  by apply: symB => //; rewrite /sym s3 !trmx_mul trmxK (sym_inv s1) mulmxA.
move=> x x0; have [_ q] := dK.
have -> : quad (drsubmx K - dlsubmx K *m invmx (ulsubmx K) *m ursubmx K) x =
    quad K (col_mx (- (invmx (ulsubmx K) *m ursubmx K *m x)) x).
  have Kv : K *m col_mx (- (invmx (ulsubmx K) *m ursubmx K *m x)) x =
      col_mx 0 ((drsubmx K - dlsubmx K *m invmx (ulsubmx K) *m ursubmx K) *m x).
    by rewrite -[K in K *m _]submxK mul_block_col !mulmxN !mulmxA mulmxV // mul1mx addNr mulmxBl addrC //.
  by rewrite /quad -[in RHS]mulmxA Kv tr_col_mx mul_row_col mulmx0 add0r mulmxA.
by apply: q; rewrite col_mx_eq0 negb_and x0 orbT.
Qed.
Lemma schur_psd : psd (ursubmx K *m invmx (drsubmx K) *m dlsubmx K).
Proof.
have [s1 s2 s3] := blocks_sym; have [si di] := pd_inv dr_pd; split.
  by rewrite /sym s3 !trmx_mul trmxK (sym_inv s2) mulmxA.
move=> x; have -> : quad (ursubmx K *m invmx (drsubmx K) *m dlsubmx K) x = quad (invmx (drsubmx K)) (dlsubmx K *m x).
  by rewrite /quad s3 trmx_mul trmxK !mulmxA.
by have [_ ] := pd_psd (pd_inv dr_pd).
Qed.
End Schur.

(** * shifting by the least eigenvalue *)
Section MinEig.
Variable eigh : eigh_t.
Hypothesis eok : eighs_ok eigh.
Lemma min_eig_le n (A : 'M[R]_n.+1) i : min_eig eigh A <= (eigh A).1 0 i.
Proof.
rewrite /min_eig; move: ((eigh A).1) => e.
have H : forall (r : seq 'I_n.+1) x0, i \in r -> \big[Num.min/x0]_(j <- r) e 0 j <= e 0 i.
  move=> r x0; elim: r => //= j r IH; rewrite inE big_cons => /orP [/eqP <-|/IH le]; first by rewrite le_minl lexx.
  by rewrite le_minl le orbT.
by apply: H; rewrite mem_index_enum.
Qed.
Lemma shift_pd n (A : 'M[R]_n.+1) (c : R) : sym A -> 0 < min_eig eigh A + c -> pd (A + c%:M).
Proof.
move=> s h; have lo := min_eig_le A; have := eok s; move: lo; case: (eigh A) => es Q /= lo [o AE].
have oQ : orthogonal Q by rewrite -(trmxK Q); apply: orthogonal_tr; rewrite /orthogonal trmxK.
have -> : A + c%:M = sconj Q (es + c *: const_mx 1).
  by rewrite sconjD sconjZ sconj1 // {1}AE scalemx1.
apply: pd_sconj => // i; rewrite !mxE mulr1; apply: lt_le_trans h _; by rewrite ler_add2r.
Qed.
End MinEig.
