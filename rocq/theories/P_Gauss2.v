(** Generators of precision matrices: the Meinshausen-Yuan data, the starting matrices and their evolution. *)
From Coq Require Import Reals String.
From mathcomp Require Import all_ssreflect all_algebra.
From Verif Require Import RStruct RTac NP Str S_Mat RMx S_Utils M_Utils P_Utils2 M_Ising M_Gauss P_Gauss.
Import Order.TTheory GRing.Theory Num.Theory.

Set Implicit Arguments.
Unset Strict Implicit.
Unset Printing Implicit Defensive.
Local Open Scope ring_scope.

Definition chols_ok (chol : chol_t) : Prop := forall n, chol_ok (chol n).
Definition eighs_ok (eigh : eigh_t) : Prop := forall n, eigh_ok (eigh n).

(** * Meinshausen-Yuan *)
Section MYData.
Variable chol : chol_t.
Hypothesis cok : chols_ok chol.
Variables (p h : nat) (latent : 'M[R]_(h, p)).
Lemma theta_my_ok ix shuffle : (forall t l, perm_eq (shuffle t l) l) ->
  exists2 theta : 'M[R]_p, theta_my chol ix shuffle = IOk theta & my_shape theta /\ pd theta.
Proof.
move=> sh; have s := my_theta_shape ix sh; have d := my_shape_pd s.
rewrite /theta_my; set th := fill_diag _ _ in s d *; exists th => //.
by rewrite /is_pos_def; move/(cok (pd_sym d)): d => ->.
Qed.
Definition my_good (x : 'M[R]_p * 'M[R]_p * 'M[R]_p) : Prop :=
  [/\ my_shape x.1.1, pd x.1.1, x.1.2 = x.1.1 - latent^T *m latent, pd x.1.2 & x.2 *m x.1.2 = 1%:M /\ pd x.2].
Lemma my_step_ok ix shuffle : (forall i j, 0 <= latent i j < c001) -> (p * h <= 396)%N -> (forall t l, perm_eq (shuffle t l) l) ->
  exists2 x, my_step chol latent ix shuffle = IOk x & my_good x.
Proof.
move=> lr ph sh; have [th e [s d]] := theta_my_ok ix sh; rewrite /my_step e.
have d2 := my_latent_pd s lr ph; have d3 := pd_inv d2.
rewrite /is_pos_def (introT idP (proj2 (cok (pd_sym d2)) d2)) (introT idP (proj2 (cok (pd_sym d3)) d3)) /=.
by eexists; first reflexivity; split=> //=; split=> //; rewrite mulVmx // pd_unit.
Qed.
Lemma my_data_ok T ix shuffle : (forall i j, 0 <= latent i j < c001) -> (p * h <= 396)%N -> (forall k t l, perm_eq (shuffle k t l) l) ->
  exists l, [/\ data_my chol latent T ix shuffle = IOk l, size l = maxn 1 T & forall x, List.In x l -> my_good x].
Proof.
move=> lr ph sh; rewrite /data_my; set f := (X in foldl X _ _).
have H : forall ts l0, (forall x, List.In x l0 -> my_good x) ->
    exists l, [/\ foldl f (IOk l0) ts = IOk l, size l = (size l0 + size ts)%N & forall x, List.In x l -> my_good x].
  elim=> [|t ts IH] l0 h0 /=; first by exists l0; rewrite addn0.
  have [x e g] := my_step_ok (ix t) lr ph (sh t); rewrite /f e -/f.
  have h1 : forall y, List.In y (rcons l0 x) -> my_good y.
    by move=> y; rewrite -cats1 => hy; case: (List.in_app_or _ _ _ hy) => [/h0|[<-|]].
  by have [l [el sl hl]] := IH (rcons l0 x) h1; exists l; split=> //; rewrite sl size_rcons addSnnS.
by have [l [el sl hl]] := H (iota 0 (maxn 1 T)) [::] (fun x (k : List.In x [::]) => match k with end); exists l; split=> //; rewrite sl size_iota.
Qed.
End MYData.

(** enough latent variables with large loadings defeat the generator *)
Lemma my_shape_sum p (theta : 'M[R]_p) : my_shape theta -> quad theta (const_mx 1) <= 198%:R / 100%:R * p%:R.
Proof.
move=> sh; rewrite quadE.
have -> : 198%:R / 100%:R * p%:R = \sum_(i < p) (1 + 98%:R / 100%:R) :> R.
  by rewrite sumr_const card_ord -[RHS](mulr_natl _ p) [RHS]mulrC; move: (p%:R : R) => q; mclra.
apply: ler_sum => i _; rewrite (bigD1 i) //=; have [_ d _ _] := sh; rewrite d !mxE !mulr1 ler_add2l.
by apply: le_trans (my_row i sh); apply: ler_sum => j _; rewrite !mxE !mulr1 ler_norm.
Qed.
Definition heavy p h : 'M[R]_(h, p) := const_mx (101%:R)^-1.
Lemma heavy_range p h i j : 0 <= heavy p h i j < c001.
Proof. by rewrite mxE /c001; apply/andP; split; [rewrite invr_ge0 ler0n | mclra]. Qed.
Lemma heavy_fails chol p h ix shuffle : chols_ok chol -> (forall t l, perm_eq (shuffle t l) l) -> (0 < p)%N ->
  (2 * 101 * 101 <= p * h)%N -> my_step chol (heavy p h) ix shuffle = IRaise IAssertionError.
Proof.
move=> cok sh p0 ph; have [th e [s d]] := theta_my_ok cok ix sh; rewrite /my_step e.
rewrite /is_pos_def; case: ifP => // /negbFE /cok [].
  by apply: symB; [exact: pd_sym | rewrite /sym trmx_mul trmxK].
move=> _ /(_ (const_mx 1)); have n0 : (const_mx 1 : 'cV[R]_p) != 0.
  by apply/eqP => /matrixP /(_ (Ordinal p0) 0); rewrite !mxE => /eqP; rewrite oner_eq0.
move=> /(_ n0); rewrite quadD.
have -> : quad (- ((heavy p h)^T *m heavy p h)) (const_mx 1) = - (h%:R * (p%:R / 101%:R) ^+ 2).
  rewrite /quad mulmxN mulNmx mxE; congr (- _).
  rewrite mulmxA -mulmxA -trmx_mul mxE (eq_bigr (fun=> (p%:R / 101%:R) ^+ 2)).
    by rewrite sumr_const card_ord -[LHS](mulr_natl _ h).
  move=> k _; rewrite mxE -expr2; congr (_ ^+ 2); rewrite mxE (eq_bigr (fun=> (101%:R)^-1)); last by move=> i _; rewrite !mxE mulr1.
  by rewrite sumr_const card_ord -[LHS](mulr_natl _ p).
have := my_shape_sum s.
have : (2 * 101 * 101)%:R <= (p * h)%:R :> R by rewrite ler_nat.
have : 0 < (p%:R : R) by rewrite ltr0n.
rewrite !natrM; move: (quad th _) (p%:R : R) (h%:R : R) => q a b a0 h1 h2 h3.
have : 2%:R * a <= b * (a / 101%:R) ^+ 2.
  have -> : b * (a / 101%:R) ^+ 2 = a * b / (101%:R * 101%:R) * a by mcfield.
  by apply: ler_wpmul2r; [exact: ltW | rewrite ler_pdivl_mulr ?mulr_gt0 ?ltr0n // mulrA].
by move: h2 h3 a0; move: (b * _) => z h2 h3 a0 h4; exfalso; mclra.
Qed.
