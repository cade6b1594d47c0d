(** Proofs about the TICC data sets: the window gives the distribution given the whole past; precisions of the three generators. *)
From Coq Require Import Reals.
From mathcomp Require Import all_ssreflect all_algebra.
From Verif Require Import RStruct RTac RMx NP S_Mat P_Utils2 M_Utils M_Ising M_Gauss P_Gauss6 P_Gauss7 M_Ticc P_Ticc P_Ticc2.
Import Order.TTheory GRing.Theory Num.Theory.

Set Implicit Arguments.
Unset Strict Implicit.
Unset Printing Implicit Defensive.
Local Open Scope ring_scope.

Lemma ent N (C : 'M[R]_N.+1) m m' (x y : 'I_m) (x' y' : 'I_m') : m = m' -> x = x' :> nat -> y = y' :> nat ->
  invmx (sub C 0 m) x y = invmx (sub C 0 m') x' y'.
Proof. by move=> e; move: x' y'; case: _ / e => x' y' /val_inj -> /val_inj ->. Qed.

Section Markov.
Variables (n N : nat) (Th : 'M[R]_N.+1).
Notation d := n.+1.
Hypothesis dT : pd Th.
Variables (band i r : nat).
Hypothesis bandP : forall x y : 'I_N.+1, (y %/ d + band < x %/ d)%N -> Th x y = 0.
Hypotheses (ri : (r <= i)%N) (br : (band <= r)%N \/ r = i) (iN : (i.+1 * d <= N.+1)%N).
Let C := invmx Th.
Let G := sub C ((i - r) * d) (r * d + d).
Let Gi := sub C 0 (i * d + d).
Let Q := drsubmx (invmx Gi).
Lemma Gi_cond : cond_coef Gi = - (invmx Q *m dlsubmx (invmx Gi)) /\ cond_cov Gi = invmx Q.
Proof.
have dG : pd Gi by apply: sub_pd; [rewrite add0n addnC -mulSn | exact: pd_inv].
by have := cond_last (pd_inv dG); rewrite invmxK.
Qed.
Let Lam := invmx (sub C 0 ((i - r) * d + (r * d + d))).
Let idE : ((i - r) * d + (r * d + d) = i * d + d)%N. Proof. by rewrite addnA -mulnDl subnK. Qed.
Lemma QE : drsubmx (drsubmx Lam) = Q.
Proof.
apply/matrixP => u v; rewrite /Q /Gi; do 2! rewrite [LHS]mxE; rewrite [LHS]mxE [LHS]mxE; do 2! rewrite [RHS]mxE.
by apply: ent => //=; rewrite addnA -mulnDl subnK.
Qed.
Lemma window_cov : cond_cov G = cond_cov Gi.
Proof. by have [_ ->] := G_cond dT bandP ri br iN; have [_ ->] := Gi_cond; rewrite -QE. Qed.
Lemma window_mean (X : seq 'cV[R]_d) : cond_coef G *m flat X (i - r) r = cond_coef Gi *m flat X 0 i.
Proof.
have [-> _] := G_cond dT bandP ri br iN; have [-> _] := Gi_cond; rewrite -/C -/Lam QE !mulNmx -!mulmxA; congr (- (_ *m _)).
apply/colP => u; rewrite !mxE.
have e : ((i - r) * d + r * d = i * d)%N by rewrite -mulnDl subnK.
rewrite [RHS](reindex (cast_ord e)) /=; last first.
  by exists (cast_ord (esym e)) => z _; rewrite ?cast_ordK ?cast_ordKV.
rewrite big_split_ord /= [X in _ = X + _]big1 ?add0r.
  apply: eq_bigr => z _; congr (_ * _).
    do 4! rewrite [LHS]mxE; do 2! rewrite [RHS]mxE.
    by apply: ent => //=; rewrite addnA -mulnDl subnK.
  rewrite !mxE /= divnDl ?dvdn_mull // mulnK // add0n.
  by rewrite -modnDml modnMl add0n.
move=> z _; suff -> : dlsubmx (invmx Gi) u (cast_ord e (lshift (r * d) z)) = 0 by rewrite mul0r.
have := congr1 (fun M : 'M[R]_(d, _) => M u z) (Lam_far dT bandP ri br iN); rewrite -/C.
do 3! rewrite [X in X = _ -> _]mxE; rewrite [X in _ = X -> _]mxE => <-; do 2! rewrite [LHS]mxE.
by apply: ent => //=; rewrite addnA -mulnDl subnK.
Qed.
End Markov.

(** * a block diagonal precision *)
Section Diagonal.
Variables (n N : nat) (Th : 'M[R]_N.+1).
Notation d := n.+1.
Hypothesis dT : pd Th.
Variables (i r : nat).
Hypothesis bandP : forall x y : 'I_N.+1, (y %/ d < x %/ d)%N -> Th x y = 0.
Hypotheses (ri : (r <= i)%N) (iN : (i.+1 * d <= N.+1)%N).
Let band0 (x y : 'I_N.+1) : (y %/ d + 0 < x %/ d)%N -> Th x y = 0.
Proof. by rewrite addn0; exact: bandP. Qed.
Let C := invmx Th.
Let G := sub C ((i - r) * d) (r * d + d).
Lemma diag_cond : cond_coef G = 0 /\ cond_cov G = invmx (sub Th (i * d) d).
Proof.
have [-> ->] := G_cond dT band0 ri (or_introl (leq0n r)) iN.
have z := Lam_far dT band0 (leq0n i) (or_introl (leqnn 0)) iN; rewrite -/C in z *.
set Lam := invmx (sub C 0 ((i - r) * d + (r * d + d))).
split.
  suff -> : dlsubmx (drsubmx Lam) = 0 by rewrite mulmx0 oppr0.
  apply/matrixP => u v; do 4! rewrite [LHS]mxE; rewrite [RHS]mxE.
  have vl : ((i - r) * d + v < (i - 0) * d)%N.
    by rewrite subn0 -{2}(subnK ri) mulnDl ltn_add2l.
  have := congr1 (fun M : 'M[R]_(d, _) => M u (Ordinal vl)) z.
  do 3! rewrite [X in X = _ -> _]mxE; rewrite [X in _ = X -> _]mxE => <-.
  by apply: ent => /=; rewrite ?subn0 ?mul0n ?add0n // addnA -mulnDl subnK.
congr invmx; apply/matrixP => u v; do 4! rewrite [LHS]mxE.
have e0 : ((i - r) * d + (r * d + d) = (i - 0) * d + (0 * d + d))%N by rewrite addnA -mulnDl subnK // subn0 mul0n add0n.
rewrite (@ent _ C _ _ _ _ (rshift ((i - 0) * d) (rshift (0 * d) u)) (rshift ((i - 0) * d) (rshift (0 * d) v)) e0) /=;
  try by rewrite addnA -mulnDl subnK // subn0 mul0n add0n.
rewrite (LamE dT (leq0n i) iN).
set L1 := ((i - 0) * d + (0 * d + d))%N; set F := (N.+1 - L1)%N.
have L1E' : L1 = (i.+1 * d)%N by rewrite /L1 subn0 mul0n add0n mulSn addnC.
have L1F' : (L1 + F = N.+1)%N by rewrite /F subnKC // L1E'.
rewrite [LHS]mxE [X in _ + X]mxE [X in _ - X]mxE big1 ?subr0.
  by rewrite !mxE /=; congr (Th (inord _) (inord _)); rewrite subn0 mul0n.
move=> y _; suff -> : dlsubmx (sub Th 0 (L1 + F)) y (rshift ((i - 0) * d) (rshift (0 * d) v)) = 0 by rewrite mulr0.
rewrite !mxE; apply: bandP; rewrite !inordK /= ?add0n ?subn0 ?mul0n ?add0n.
- have h1 : (i.+1 <= (L1 + y) %/ d)%N by rewrite leq_divRL // -L1E' leq_addr.
  by apply: leq_trans h1; rewrite ltnS divnMDl // divn_small ?addn0.
- by rewrite -L1F' ltn_add2l.
- by rewrite (leq_trans _ iN) // mulSn addnC ltn_add2r.
Qed.
End Diagonal.

(** * the matrix of make_ticc_dataset_new and make_ticc_dataset_v3 *)
Section Inv.
Variables (n : nat) (eigh : eigh_t) (K nb w : nat) (blk : nat -> nat -> 'M[R]_n.+1) (clusters : seq nat).
Notation d := n.+1.
Hypotheses (eok : forall m, eigh_ok (@eigh m)) (nb0 : (0 < nb)%N) (s0 : forall c, sym (blk c 0%N)).
Lemma bmc_sym0 c : (bmc nb w (blk c) 0)^T = bmc nb w (blk c) 0.
Proof. by rewrite /bmc; case: ifP => _; [exact: s0 | rewrite trmx0]. Qed.
Lemma inv_block_tr g h : (inv_block nb w blk clusters g h)^T = inv_block nb w blk clusters h g.
Proof.
rewrite /inv_block (eq_sym (g %/ nb)%N (h %/ nb)%N); case: eqP => [e|ne].
  rewrite /diag e; case: (ltngtP (g %% nb)%N (h %% nb)%N) => // [_|e']; first by rewrite trmxK.
  by rewrite e' subnn trmxK bmc_sym0.
case: ((h %/ nb)%N =P _) => e1.
  by rewrite e1 ifF //; apply: ltn_eqF; rewrite ltnS leqnSn.
case: ((g %/ nb)%N =P _) => e2; first by rewrite trmxK.
by rewrite trmx0.
Qed.
Lemma bmc_far c m : (w < m)%N -> bmc nb w (blk c) m = 0.
Proof. by move=> wm; rewrite /bmc [(m < w.+1)%N]ltnNge wm andbF. Qed.
Lemma inv_block_band g h : (h + w < g)%N -> inv_block nb w blk clusters g h = 0.
Proof.
move=> hg; have eg := divn_eq g nb; have eh := divn_eq h nb; rewrite /inv_block; case: eqP => [e|ne].
  rewrite /diag.
  have ab : (h %% nb + w < g %% nb)%N.
    by move: hg; rewrite {1}eg {1}eh e -addnA ltn_add2l.
  have -> : (g %% nb < h %% nb)%N = false by apply/negbTE; rewrite -leqNgt ltnW // (leq_ltn_trans _ ab) // leq_addr.
  by rewrite bmc_far ?trmx0 // ltn_subRL.
case: eqP => e1.
  have : (g <= h)%N by rewrite [g in (g <= _)%N]eg [h in (_ <= h)%N]eh e1 mulSn (leq_trans _ (leq_addr _ _)) // addnC leq_add2r ltnW // ltn_mod.
  by rewrite leqNgt (leq_ltn_trans _ hg) // leq_addr.
case: eqP => e2 //; rewrite /out_diag bmc_far ?trmx0 ?if_same ?trmx0 //.
have hm : (h %% nb < nb)%N by rewrite ltn_mod.
have : (h %% nb + w < nb + g %% nb)%N.
  by rewrite -(ltn_add2l (h %/ nb * nb)) addnA -eh addnCA addnA -mulSn -e2 -eg.
rewrite -(ltn_add2l (h %% nb) w) addnA subnKC //; exact: ltnW.
Qed.
Let raw := inv_raw K nb w blk clusters.
Let inv := inv_shifted eigh K nb w blk clusters.
Lemma raw_sym : sym raw.
Proof. by apply/matrixP => x y; rewrite !mxE -inv_block_tr mxE. Qed.
Lemma inv_pd : pd inv.
Proof.
apply: (@shift_pd eigh eok (n + K * d)); first exact: raw_sym.
set m := min_eig _ _; have := ler_norm (- m); rewrite normrN; move: (`|m|) => z; clearbody m => h; mclra.
Qed.
Lemma inv_off x y : x != y -> inv x y = raw x y.
Proof. by move=> xy; rewrite mxE [(_%:M) x y]mxE (negbTE xy) mulr0n addr0. Qed.
Lemma inv_band (x y : 'I_(n + K * d).+1) : (y %/ d + w < x %/ d)%N -> inv x y = 0.
Proof.
move=> h; rewrite inv_off; first by rewrite mxE inv_block_band // mxE.
by apply: contraTneq h => ->; rewrite -leqNgt leq_addr.
Qed.
(** with one block per cluster *)
Lemma inv_band1 (x y : 'I_(n + K * d).+1) : nb = 1%N -> (y %/ d < x %/ d)%N -> inv x y = 0.
Proof.
move=> n1 h; rewrite inv_off; last by apply: contraTneq h => ->; rewrite ltnn.
rewrite mxE /inv_block n1 !divn1 !modn1 (ltn_eqF h) ifF; last by rewrite ltn_eqF // ltnW.
case: eqP => _; last by rewrite mxE.
by rewrite /out_diag /bmc /= !mxE.
Qed.
Lemma inv_diag1 i : nb = 1%N -> (i <= K)%N ->
  sub inv (i * d) d = blk (nth 0%N clusters i) 0%N + (1 / 10%:R + `|min_eig eigh raw|)%:M.
Proof.
move=> n1 iK; apply/matrixP => u v.
have lt' (z : 'I_d) : (i * d + z < (n + K * d).+1)%N.
  have -> : ((n + K * d).+1 = K.+1 * d)%N by rewrite mulSn addSn.
  by apply: (@leq_trans (i.+1 * d)%N); [rewrite mulSn addnC ltn_add2r | rewrite leq_mul2r ltnS iK orbT].
rewrite mxE [LHS]mxE mxE [RHS]mxE; congr (_ + _).
  rewrite !inordK ?lt' // !divnMDl // !divn_small // !addn0 !modnMDl !modn_small // !inord_val.
  rewrite /inv_block n1 !divn1 !modn1 eqxx /diag /bmc /=.
  by rewrite mxE; have := congr1 (fun M : 'M[R]_d => M u v) (s0 (nth 0%N clusters i)); rewrite mxE.
rewrite !mxE; congr (_ *+ nat_of_bool _); apply/eqP/eqP => [/(congr1 val)|->] //.
by rewrite /= !inordK ?lt' // => /addnI /val_inj.
Qed.
End Inv.

(** * the series *)
Section SeriesP.
Variables (n N : nat) (mvn : nat -> 'cV[R]_n.+1 -> 'M[R]_n.+1 -> 'cV[R]_n.+1) (w : nat).
Notation d := n.+1.
Lemma new_seriesP (C : 'M[R]_N.+1) X m i : (i < m)%N -> let s := new_series mvn w C X m in
  nth (0, 0) s i = new_sample mvn w C (X ++ unzip1 (take i s)).
Proof.
elim: m X i => [|m IH] X [|i] //= im; first by rewrite cats0.
by rewrite IH // -cats1 -catA.
Qed.
Lemma size_new_series (C : 'M[R]_N.+1) X m : size (new_series mvn w C X m) = m.
Proof. by elim: m X => [|m IH] X //=; rewrite IH. Qed.
Lemma ticc_seriesP (cov : nat -> 'M[R]_N.+1) X id i : (i < size id)%N -> let s := ticc_series mvn w cov X id in
  nth (0, 0) s i = ticc_sample mvn w cov (X ++ unzip1 (take i s)) (nth 0%N id i).
Proof.
elim: id X i => [|l id IH] X [|i] //= im; first by rewrite cats0.
by rewrite IH // -cats1 -catA.
Qed.
Lemma size_ticc_series (cov : nat -> 'M[R]_N.+1) X id : size (ticc_series mvn w cov X id) = size id.
Proof. by elim: id X => [|l id IH] X //=; rewrite IH. Qed.
End SeriesP.
