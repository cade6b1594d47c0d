(** Generators of precision matrices: Ma-Xue-Zou, and the generators of kernels.py. *)
From Coq Require Import Reals String.
From mathcomp Require Import all_ssreflect all_algebra.
From Verif Require Import RStruct RTac NP Str S_Mat RMx Spectral S_Utils M_Utils P_Utils2 M_Ising P_Ising7 M_Gauss P_Gauss P_Gauss2 P_Gauss3 P_Gauss4 P_Gauss5 P_Gauss6.
Import Order.TTheory GRing.Theory Num.Theory.

Set Implicit Arguments.
Unset Strict Implicit.
Unset Printing Implicit Defensive.
Local Open Scope ring_scope.

Section Ma.
Variables (chol : chol_t) (eigh : eigh_t).
Hypothesis cok : chols_ok chol.
Hypothesis eok : eighs_ok eigh.
Lemma ma_K_pd po ph (W : 'M[R]_(po.+1 + ph)) noise : pd (ma_K eigh W noise).
Proof.
rewrite /ma_K; set C0 := 2%:R^-1 *: _; set C := map_mx _ _.
have sC : sym C.
  have s0 : sym C0 by exact: sym_halfsum.
  have s1 : sym (C0 - diag_mx (\row_i C0 i i)) by apply: symB => //; exact: sym_diag.
  by rewrite /sym map_trmx s1.
apply: (@shift_pd eigh eok (po + ph)) => //.
set m := min_eig _ _; case: (ltP m 0) => m0.
  have : - (12%:R / 10%:R) * m <= Num.max (- (12%:R / 10%:R) * m) (1 / 1000%:R) by rewrite le_maxr lexx.
  move: (Num.max _ _) => z; clearbody m => hz; mclra.
have : 1 / 1000%:R <= Num.max (- (12%:R / 10%:R) * m) (1 / 1000%:R) :> R by rewrite le_maxr lexx orbT.
have : 0 < 1 / 1000%:R :> R by apply: divr_gt0; rewrite ?ltr01 ?ltr0n.
set z := Num.max _ _; set e := 1 / 1000%:R => e0 hz; clearbody z e m; mclra.
Qed.
Lemma ma_split_ok po ph (K : 'M[R]_(po + ph)) : pd K ->
  let L := ursubmx K *m invmx (drsubmx K) *m dlsubmx K in
  ma_split chol eigh K = if \rank L == ph then IOk (ulsubmx K, ulsubmx K - L, L) else IRaise IAssertionError.
Proof.
move=> d L; have [_ _ s3] := blocks_sym d.
rewrite /ma_split s3 trmxK eqxx /= -s3 cholE //; last exact: schur_ul.
rewrite psd_semidef //=; last by apply: pd_psd; exact: dr_pd.
by case: eqP.
Qed.
End Ma.

(** the graph on two observed variables with one edge of weight 1 *)
Lemma rand_k_singular : exists sgn : 'I_(2 + 0) -> 'I_(2 + 0) -> R,
  [/\ forall i j, [\/ sgn i j = 1, sgn i j = 0 | sgn i j = - 1],
      (make_ma_xue_zou_rand_k sgn).1.2 = (make_ma_xue_zou_rand_k sgn).1.1
    & \det (make_ma_xue_zou_rand_k sgn).1.1 = 0].
Proof.
exists (fun _ _ => 1); split; first by move=> i j; apply: Or31.
  by rewrite /make_ma_xue_zou_rand_k /= thinmx0 !mul0mx subr0.
set K := (make_ma_xue_zou_rand_k _).1.1.
have KE : K = const_mx 1.
  apply/matrixP => i j; rewrite !mxE; case: (eqVneq i j) => [->|ij]; first by rewrite eqxx.
  rewrite (inj_eq (@lshift_inj _ _)) (negbTE ij) /=; case: ltngtP => // /val_inj e; by rewrite e eqxx in ij.
rewrite KE; apply/eqP/det0P; exists (\row_(j < 2) (if j == 0 then 1 else - 1)).
  by apply/eqP => /matrixP /(_ 0 0); rewrite !mxE eqxx => /eqP; rewrite oner_eq0.
by apply/matrixP => i j; rewrite !mxE !big_ord_recl big_ord0 !mxE /= !mulr1 addr0 subrr.
Qed.

(** * kernels.py *)
Section Kernels.
Variable chol : chol_t.
Hypothesis cok : chols_ok chol.
Lemma add_dominant_pd p (A : 'M[R]_p) : sym A -> pd (add_dominant A).
Proof.
move=> s; apply: diag_dom_pd => [|i]; first by apply: symD => //; exact: sym_diag.
rewrite (eq_bigr (fun j => `|A i j|)); last by move=> j ji; rewrite !mxE eq_sym (negbTE ji) mulr0n addr0.
rewrite !mxE eqxx mulr1n [X in _ < _ + (X + _)](bigD1 i) //=.
have := ler_norm (- A i i); rewrite normrN; have := c001_gt0.
move: (A i i) (`|A i i|) (\sum_(j | j != i) _) (c001) => a b c e h1 h2; mclra.
Qed.
Lemma add_dominant_off p (A : 'M[R]_p) i j : i != j -> add_dominant A i j = A i j.
Proof. by move=> ij; rewrite !mxE (negbTE ij) mulr0n addr0. Qed.
Lemma sparsify_sym p (A : 'M[R]_p) (e : R) : sym A -> sym (sparsify A (fun _ _ => e)).
Proof. by move/symP => s; apply/symP => i j; rewrite !mxE s. Qed.
(** exp-sine-squared: only the observed matrix can fail *)
Lemma ess_ok p (L : 'M[R]_p) sparse epsilon T u l : make_exp_sine_squared chol L sparse epsilon T u = IOk l -> sym L ->
  size l = T /\ forall t, (t < T)%N ->
    [/\ pd (nth (0, 0) l t).1, pd (nth (0, 0) l t).2, (nth (0, 0) l t).2 = (nth (0, 0) l t).1 - L &
      forall i j : 'I_p, (i < j)%N -> (nth (0, 0) l t).1 i j = if sparse && (`|u t i j| < epsilon) then 0 else u t i j].
Proof.
move=> run sL; move: run; rewrite /make_exp_sine_squared; set f := (X in foldl X _ _).
elim: T l => [|T IH] l; first by case=> <-.
rewrite -addn1 iotaD foldl_cat add0n /=; case: (foldl f _ _) IH => [l'|e] // IH; have [sz h] := IH _ erefl.
rewrite {1}/f; set A := (if sparse then _ else _).
have sA : sym A by rewrite /A; case: (sparse); [apply: sparsify_sym|]; exact: squareform_sym.
have dA := add_dominant_pd sA.
case: ifP => // _; case: ifP => // /negbFE dB [<-]; rewrite size_rcons sz addn1; split=> // t.
rewrite ltnS leq_eqVlt nth_rcons sz => /orP [/eqP ->|tT]; last by rewrite tT; exact: h.
rewrite ltnn eqxx; split=> //; first by apply: (cholP cok) dB; apply: symB => //; case: dA.
move=> i j ij; rewrite add_dominant_off; last by apply: contraTN ij => /eqP ->; rewrite ltnn.
by rewrite /A; case: (sparse); rewrite !mxE ij.
Qed.
Lemma ess_raises p (L : 'M[R]_p) sparse epsilon T u e : make_exp_sine_squared chol L sparse epsilon T u = IRaise e -> sym L ->
  exists2 t, (t < T)%N & exists2 A : 'M[R]_p, pd A & ~ pd (A - L).
Proof.
move=> run sL; move: run; rewrite /make_exp_sine_squared; set f := (X in foldl X _ _).
elim: T => [|T IH] //; rewrite -addn1 iotaD foldl_cat add0n /=; case: (foldl f _ _) IH => [l'|e'] IH.
  rewrite /f; set A := (if sparse then _ else _).
  have sA : sym A by rewrite /A; case: (sparse); [apply: sparsify_sym|]; exact: squareform_sym.
  have dA := add_dominant_pd sA; rewrite cholE //=; case: ifP => // dB _.
  by exists T; rewrite ?addn1 //; exists (add_dominant A) => // d; move: dB; rewrite cholE.
by move=> [ee]; case: (IH _); [rewrite ee | move=> t tT h; exists t => //; rewrite addn1 ltnW].
Qed.
(** RBF *)
Lemma rbf_sym h p (A : 'M[R]_(h + p)) sparse epsilon : sym A -> sym (rbf_sparse A sparse epsilon).
Proof.
move=> s; rewrite /rbf_sparse; case: sparse => //.
by rewrite /sym tr_block_mx trmxK !map_trmx trmx_ulsub trmx_drsub s.
Qed.
Lemma rbf_blocks_sym h p sparse epsilon (u : nat -> 'I_(h + p) -> 'I_(h + p) -> R) t :
  sym (block_mx (ulsubmx (rbf_sparse (squareform (u t)) sparse epsilon)) (dlsubmx (rbf_sparse (squareform (u 0%N)) sparse epsilon))^T
         (dlsubmx (rbf_sparse (squareform (u 0%N)) sparse epsilon)) (drsubmx (rbf_sparse (squareform (u t)) sparse epsilon))).
Proof.
have s k : sym (rbf_sparse (squareform (u k)) sparse epsilon) by apply: rbf_sym; exact: squareform_sym.
by rewrite /sym tr_block_mx trmxK trmx_ulsub trmx_drsub !s.
Qed.
Lemma rbf_pd h p sparse epsilon (u : nat -> 'I_(h + p) -> 'I_(h + p) -> R) t : pd (rbf_theta sparse epsilon u t).
Proof. by apply: add_dominant_pd; exact: rbf_blocks_sym. Qed.
(** the links between latent and observed variables are those of the first time *)
Lemma rbf_links h p sparse epsilon (u : nat -> 'I_(h + p) -> 'I_(h + p) -> R) t t' :
  dlsubmx (rbf_theta sparse epsilon u t) = dlsubmx (rbf_theta sparse epsilon u t') /\
  ursubmx (rbf_theta sparse epsilon u t) = ursubmx (rbf_theta sparse epsilon u t').
Proof.
have dl k : dlsubmx (rbf_theta sparse epsilon u k) = dlsubmx (rbf_sparse (squareform (u 0%N)) sparse epsilon).
  apply/matrixP => i j; rewrite mxE [dsubmx _ _ _]mxE add_dominant_off; last by rewrite eq_rlshift.
  by rewrite block_mxEdl.
have ur k : ursubmx (rbf_theta sparse epsilon u k) = (dlsubmx (rbf_theta sparse epsilon u k))^T.
  by rewrite trmx_dlsub; have [-> _] := rbf_pd sparse epsilon u k.
by split; [rewrite dl [RHS]dl | rewrite ur [RHS]ur dl [X in _ = X^T]dl].
Qed.
Lemma rbf_ok h p sparse epsilon T (u : nat -> 'I_(h + p) -> 'I_(h + p) -> R) :
  exists thetas obs, [/\ make_RBF chol sparse epsilon T u = IOk (thetas, obs), size thetas = T, size obs = T &
    forall t, (t < T)%N -> [/\ pd (nth 0 thetas t), pd (nth (0, 0) obs t).1, psd (nth (0, 0) obs t).2 &
      (nth (0, 0) obs t).1 = drsubmx (nth 0 thetas t) - (nth (0, 0) obs t).2 /\
      (nth (0, 0) obs t).1 = drsubmx (nth 0 thetas t) -
         dlsubmx (nth 0 thetas t) *m invmx (ulsubmx (nth 0 thetas t)) *m ursubmx (nth 0 thetas t)]].
Proof.
rewrite /make_RBF; set ths := [seq _ | t <- _].
have al : all (fun th => is_pos_def (@chol (h + p)%N) th) ths.
  by rewrite all_map; apply/allP => t _ /=; apply: cholE => //; exact: rbf_pd.
rewrite al /=; eexists; eexists; split; first reflexivity.
- by rewrite size_map size_iota.
- by rewrite size_map size_map size_iota.
move=> t tT; have th_t : nth 0 ths t = rbf_theta sparse epsilon u t by rewrite (nth_map 0%N) ?size_iota // nth_iota.
have d := rbf_pd sparse epsilon u t.
rewrite (nth_map 0) ?size_map ?size_iota // th_t /=.
have ls : last 0 ths = rbf_theta sparse epsilon u T.-1.
  by rewrite -nth_last size_map size_iota (nth_map 0%N) ?size_iota ?nth_iota // prednK // (leq_ltn_trans _ tT).
have [e5 e6] := rbf_links sparse epsilon u T.-1 t.
rewrite ls e5 e6; move: (rbf_theta sparse epsilon u t) d => A d {e5 e6 th_t ls}.
split; [exact: d | exact: schur_dr | | by split].
have [s1 s2 s3] := blocks_sym d; have [si di] := pd_psd (pd_inv (ul_pd d)); split.
  by rewrite /sym s3 !trmx_mul trmxK (sym_inv s1) mulmxA.
move=> x; have := di (ursubmx A *m x).
by rewrite /quad s3 trmx_mul !mulmxA.
Qed.
(** TICC *)
Lemma ticc_sym nb n (blocks : nat -> 'M[R]_n.+1) : sym (blocks 0%N) -> sym (ticc_blocks nb blocks).
Proof.
move/symP => s; apply/symP => a b; rewrite !mxE /=; case: ltngtP => [||e] //.
by rewrite e subnn s.
Qed.
Lemma ticc_ok eigh nb n (blocks : nat -> 'M[R]_n.+1) : eighs_ok eigh -> sym (blocks 0%N) ->
  pd (make_ticc eigh nb blocks) /\
  forall a b : 'I_(nb.+1 * n.+1), a != b -> make_ticc eigh nb blocks a b = ticc_blocks nb.+1 blocks a b.
Proof.
move=> eok s; have sT := ticc_sym nb.+1 s; rewrite /make_ticc; split.
  apply: (@shift_pd eigh eok (n + nb * n.+1)) => //.
  set m := min_eig _ _; have := ler_norm (- m); rewrite normrN; move: (`|m|) => z; clearbody m => h; mclra.
by move=> a b ab; rewrite mxE [(_%:M) a b]mxE (negbTE ab) mulr0n addr0.
Qed.
End Kernels.
