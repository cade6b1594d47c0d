(** Property theorems C145-C148: the similarity of precision matrices, the estimators that learn it, the temporal Ising and Poisson models. *)
From Coq Require Import Reals Lra String.
From mathcomp Require Import all_ssreflect all_algebra.
From Verif Require Import RStruct RTac S_Mat NP M_Prox M_Loop M_GL M_LGL M_TGL M_KTGL M_Utils M_Missing M_KernelFit.
From Verif Require Import RMx P_Prox P_Missing P_KernelFit.
Import Order.TTheory GRing.Theory Num.Theory.

Set Implicit Arguments.
Unset Strict Implicit.
Unset Printing Implicit Defensive.
Local Open Scope ring_scope.

(** * C145: precision_similarity *)

(** one minus the distance over the largest one *)
Theorem C145_formula : forall n T (psi : 'M[R]_n -> R) (K : stack n T.+1) S, (forall X, 0 <= psi X) -> precision_similarity psi K = Some S ->
  exists2 top : R, 0 < top &
    [/\ (forall s t : 'I_T.+1, (s < t)%N -> psi (K t - K s) <= top),
        (exists s t : 'I_T.+1, (s < t)%N /\ psi (K t - K s) = top) &
        forall s t : 'I_T.+1, (s < t)%N -> S s t = 1 - psi (K t - K s) / top /\ S t s = S s t].
Proof.
move=> n T psi K S p0; rewrite precision_similarityE //=; case: ifP => // /negbT m0 [<-].
set d := psi_distances psi K in m0 *; set m := np_amax d in m0 *.
have dE (s t : 'I_T.+1) : (s < t)%N -> d s t = psi (K t - K s) by move=> st; rewrite mxE st.
have mp : 0 < m by rewrite lt_neqAle eq_sym m0 -(psi_distances_diag psi K 0) np_amax_ge.
exists m => //; split=> [s t st||s t st]; first by rewrite -dE // np_amax_ge.
  have [s [t e]] := np_amax_in d; rewrite -/m in e.
  case: (ltngtP s t) => st; first by exists s, t; rewrite -dE // -e.
    by exists t, s; rewrite -dE // -psi_distances_sym -e.
  by move: m0; rewrite e (val_inj st) psi_distances_diag eqxx.
by rewrite mxE -(dE s t st) /d; split=> //; rewrite mxE psi_distances_sym.
Qed.
Print Assumptions C145_formula.
Theorem C145_similarity : forall n T (psi : 'M[R]_n -> R) (K : stack n T.+1) S, (forall X, 0 <= psi X) -> precision_similarity psi K = Some S ->
  [/\ (forall s t, S s t = S t s), (forall t, S t t = 1), (forall s t, 0 <= S s t <= 1) & exists s t, S s t = 0].
Proof.
move=> n T psi K S p0; rewrite precision_similarityE //=; case: ifP => // /negbT m0 [<-].
set d := psi_distances psi K in m0 *; set m := np_amax d in m0 *.
have mp : 0 < m by rewrite lt_neqAle eq_sym m0 -(psi_distances_diag psi K 0) np_amax_ge.
split=> [s t|t|s t|].
- by rewrite mxE [RHS]mxE psi_distances_sym.
- by rewrite mxE psi_distances_diag mul0r subr0.
- by rewrite mxE subr_ge0 ler_pdivr_mulr // mul1r np_amax_ge ler_subl_addr ler_addl divr_ge0 ?psi_distances_ge0 // ltW.
- by have [s [t e]] := np_amax_in d; exists s, t; rewrite mxE -/d -e -/m divff // subrr.
Qed.
Print Assumptions C145_similarity.
(** it is all nan (the clustering then raises) exactly when no two matrices are apart *)
Theorem C145_nan : forall n T (psi : 'M[R]_n -> R) (K : stack n T.+1), (forall X, 0 <= psi X) ->
  precision_similarity psi K = None <-> forall s t : 'I_T.+1, (s < t)%N -> psi (K t - K s) = 0.
Proof.
move=> n T psi K p0; rewrite precision_similarityE //=; split.
  case: ifP => // /eqP m0 _ s t st; apply/eqP; rewrite eq_le p0 andbT -m0.
  by have := np_amax_ge (psi_distances psi K) s t; rewrite [X in X <= _]mxE st.
move=> h; case: eqP => // m0; case: m0; have [s [t ->]] := np_amax_in (psi_distances psi K).
by rewrite mxE; case: ifP => [/h //|_]; case: ifP => [/h //|_].
Qed.
Print Assumptions C145_nan.
Theorem C145_nan_single : forall n (psi : 'M[R]_n -> R) (K : stack n 1), (forall X, 0 <= psi X) -> precision_similarity psi K = None.
Proof. by move=> n psi K p0; apply/C145_nan => // s t; rewrite [s]ord1 [t]ord1. Qed.
Print Assumptions C145_nan_single.
(** the Ising models use the off-diagonal l1 distance, whatever psi is *)
Theorem C145_ising : forall n T (K : stack n T.+1), precision_similarity_ising K = precision_similarity (@l1od n) K.
Proof.
move=> n T K; rewrite precision_similarityE; last by move=> X; apply: sumr_ge0 => i _; apply: sumr_ge0 => j _; exact: normr_ge0.
rewrite /precision_similarity_ising.
suff -> : \matrix_(s, t) (if (s < t)%N then l1_od_norm (K s - K t) else if (t < s)%N then l1_od_norm (K t - K s) else 0) =
    psi_distances (@l1od n) K by [].
have odN (X : 'M[R]_n) : l1od (- X) = l1od X by apply: eq_bigr => i _; apply: eq_bigr => j _; rewrite mxE normrN.
by apply/matrixP => s t; rewrite !mxE !l1_od_normE; case: ltngtP => // _; rewrite -opprB odN.
Qed.
Print Assumptions C145_ising.

(** three times with the matrices 0, 1, 3 *)
Definition three : stack 1 3 := [ffun t : 'I_3 => (if (t : nat) == 0%N then 0 else if (t : nat) == 1%N then 1 else 3%:R)%:M].
Lemma l1_ge0 n (X : 'M[R]_n) : 0 <= l1 X.
Proof. by apply: sumr_ge0 => i _; apply: sumr_ge0 => j _; exact: normr_ge0. Qed.
Lemma three_dist (s t : 'I_3) : l1 (three t - three s) = `|three t 0 0 - three s 0 0|.
Proof. by rewrite /l1 !big_ord1 !mxE. Qed.
Definition i0 : 'I_3 := 0.
Definition i1 : 'I_3 := lift 0 0.
Definition i2 : 'I_3 := lift 0 (lift 0 0).
Lemma three_01 : l1 (three i1 - three i0) = 1.
Proof. by rewrite three_dist !ffunE !mxE /= subr0 normr1. Qed.
Lemma three_12 : l1 (three i2 - three i1) = 2%:R.
Proof. rewrite three_dist !ffunE !mxE /= !mulr1n; have -> : 3%:R - 1 = 2%:R :> R by mclra. exact: (normr_nat _ 2). Qed.
Lemma three_02 : l1 (three i2 - three i0) = 3%:R.
Proof. by rewrite three_dist !ffunE !mxE /= ?mulr1n subr0 (normr_nat _ 3). Qed.
Example C145_case : exists S, precision_similarity (@l1 1 1) three = Some S /\ S i0 i2 < S i1 i2 < S i0 i1.
Proof.
case e: (precision_similarity (@l1 1 1) three) => [S|]; last first.
  have := proj1 (C145_nan three (@l1_ge0 1)) e i0 i1 erefl; rewrite three_01 => /eqP; by rewrite oner_eq0.
exists S; split=> //; have [top t0 [h1 h2 h3]] := C145_formula (@l1_ge0 1) e.
have [-> _] := h3 i0 i2 erefl; have [-> _] := h3 i1 i2 erefl; have [-> _] := h3 i0 i1 erefl.
rewrite three_01 three_12 three_02 !ltr_add2l !ltr_opp2 !ltr_pmul2r ?invr_gt0 // ltr_nat.
by rewrite (ltr_nat _ 1 2).
Qed.

(** * C146: the estimators that learn the similarity *)

(** the loop stopped by itself: similarity_matrix_ is the similarity of the returned matrices, and these are the solver's result for the
    kernel made from their own clusters (with eps at most 1 / n_times, as by default up to 1e6 times) *)
Theorem C146_converged : forall n T Out (prec : Out -> stack n T.+1) solver similarity cluster n_clusters beta eps m K0 f,
  eps <= T.+1%:R^-1 ->
  (similarity_fit prec solver similarity cluster n_clusters beta eps m K0).1 = Val f -> sf_warned f = false ->
  similarity (sf_precision f) = Some (sf_similarity f) /\
  exists r init labels labels', [/\ sf_out f = Some r, sf_precision f = prec r, cluster (odflt T.+1 n_clusters) (sf_similarity f) = Some labels,
    labels' =1 labels & solver (cluster_kernel beta labels') init = Val r].
Proof.
move=> n T Out prec solver similarity cluster k beta eps m K0 f he /= h w.
have [|h1 _] := sim_loop_spec _ h => //.
have [h2 [lab [lo [h3 h4 [r [init [h5 h6 h7]]]]]]] := h1 w; split=> //.
exists r, init, lab, lo; split=> // t; exact/esym/(labels_close_eq he h4).
Qed.
Print Assumptions C146_converged.
Theorem C146_ising_converged : forall n T Out (prec : Out -> stack n T.+1) solver similarity cluster n_clusters beta eps m K0 f,
  eps <= T.+1%:R^-1 ->
  (similarity_ising_fit prec solver similarity cluster n_clusters beta eps m K0).1 = Val f -> sf_warned f = false ->
  similarity (sf_precision f) = Some (sf_similarity f) /\
  exists r init labels labels', [/\ sf_out f = Some r, sf_precision f = prec r, cluster (odflt T.+1 n_clusters) (sf_similarity f) = Some labels,
    labels' =1 labels & solver (cluster_kernel beta labels') init = Val r].
Proof.
move=> n T Out prec solver similarity cluster k beta eps m K0 f he /= h w.
have [|h1 _] := sim_ising_loop_spec _ h => //.
have [h2 [lab [lo [h3 h4 [r [init [h5 h6 h7]]]]]]] := h1 w; split=> //.
exists r, init, lab, lo; split=> // t; exact/esym/(labels_close_eq he h4).
Qed.
Print Assumptions C146_ising_converged.
(** after the warning "theta did not converge" it is not a similarity at all: it is the last kernel, 2 on the diagonal *)
Theorem C146_warned_refuted : forall n T Out (prec : Out -> stack n T.+1) solver similarity cluster n_clusters beta eps m K0 f, (0 < m)%N ->
  ((similarity_fit prec solver similarity cluster n_clusters beta eps m K0).1 = Val f \/
   (similarity_ising_fit prec solver similarity cluster n_clusters beta eps m K0).1 = Val f) -> sf_warned f ->
  forall t, sf_similarity f t t = 2%:R.
Proof.
move=> n T Out prec solver similarity cluster k beta eps m K0 f m0 [] /= h w t.
  by have [|_ h2] := sim_loop_spec _ h => //; have [|lo [-> _]] := h2 w; rewrite ?addn0 ?cluster_kernel_diag.
by have [|_ h2] := sim_ising_loop_spec _ h => //; have [|lo ->] := h2 w; rewrite ?addn0 ?cluster_kernel_diag.
Qed.
Print Assumptions C146_warned_refuted.

(** agglomerative clustering into one cluster less than the number of times merges the closest pair, and nothing else *)
Definition merges_closest T (cluster : nat -> 'M[R]_T.+1 -> option ('I_T.+1 -> nat)) : Prop :=
  forall (D : 'M[R]_T.+1) (s t : 'I_T.+1), s != t ->
    (forall s' t', s' != t' -> (s', t') <> (s, t) -> (s', t') <> (t, s) -> D s t < D s' t') ->
    exists labels, cluster T D = Some labels /\
      forall s' t', s' != t' -> (labels s' = labels t' <-> (s', t') = (s, t) \/ (s', t') = (t, s)).
(** similar matrices together: the opposite. The pair that is merged is the one whose matrices differ most, since the similarity is passed
    to the clustering as if it were a distance. *)
Theorem C146_clusters_refuted : forall n T (psi : 'M[R]_n -> R) (K : stack n T.+1) cluster (s t : 'I_T.+1),
  (forall X, 0 <= psi X) -> merges_closest cluster -> (s < t)%N ->
  (forall s' t' : 'I_T.+1, (s' < t')%N -> (s', t') <> (s, t) -> psi (K t' - K s') < psi (K t - K s)) ->
  0 < psi (K t - K s) ->
  exists S labels, [/\ precision_similarity psi K = Some S, cluster T S = Some labels, labels s = labels t &
    forall s' t' : 'I_T.+1, (s' < t')%N -> (s', t') <> (s, t) -> labels s' <> labels t'].
Proof.
move=> n T psi K cluster s t p0 hc st far pst; case e: (precision_similarity psi K) => [S|]; last first.
  by have := proj1 (C145_nan K p0) e s t st => e0; rewrite e0 ltxx in pst.
have [top t0 [h1 h2 h3]] := C145_formula p0 e; exists S.
have nst : s != t by rewrite -(inj_eq val_inj) /= neq_ltn st.
have [|labels [hl1 hl2]] := hc S s t nst.
  move=> s' t' n1 n2 n3; have [-> _] := h3 _ _ st.
  case: (ltngtP s' t') => st'; last by rewrite (val_inj st') eqxx in n1.
    by have [-> _] := h3 _ _ st'; rewrite ltr_add2l ltr_opp2 ltr_pmul2r ?invr_gt0 // far.
  have [e1 ->] := h3 _ _ st'; rewrite e1 ltr_add2l ltr_opp2 ltr_pmul2r ?invr_gt0 // far //.
  by case=> e2 e3; apply: n3; rewrite e2 e3.
exists labels; split=> //; first by apply/hl2 => //; left.
move=> s' t' st' ne /hl2; case; first by rewrite -(inj_eq val_inj) /= neq_ltn st'.
  by [].
by case=> e2 e3; move: st'; rewrite e2 e3 ltnNge ltnW.
Qed.
Print Assumptions C146_clusters_refuted.
(** of the times with the matrices 0, 1 and 3 the first and the last end up in one cluster *)
Example C146_clusters_case : forall cluster, merges_closest cluster ->
  exists S labels, [/\ precision_similarity (@l1 1 1) three = Some S, cluster 2%N S = Some labels, labels i0 = labels i2 & labels i0 <> labels i1].
Proof.
move=> cluster hc; have [||S [labels [h1 h2 h3 h4]]] := @C146_clusters_refuted 1 2 _ three cluster i0 i2 (@l1_ge0 1) hc erefl.
- rewrite three_02; have e3 (t : 'I_3) : t = i0 \/ t = i1 \/ t = i2.
    by case: t => [[|[|[|//]]]] l; [left|right; left|right; right]; apply: val_inj.
  have l13 : 1 < 3%:R :> R by rewrite (ltr_nat _ 1 3).
  have l23 : 2%:R < 3%:R :> R by rewrite ltr_nat.
  move=> s t; case: (e3 s) => [->|[->|->]]; case: (e3 t) => [->|[->|->]] // _ ne; by rewrite ?three_01 ?three_12 //; case: ne.
- by rewrite three_02 ltr0n.
by exists S, labels; split=> //; apply: h4.
Qed.
(** and such a clustering exists, for any number of times *)
Example C146_merges_case : forall T, exists cluster, @merges_closest T cluster.
Proof.
move=> T; pose closest (D : 'M[R]_T.+1) (p : 'I_T.+1 * 'I_T.+1) := (p.1 != p.2) &&
  [forall q : 'I_T.+1 * 'I_T.+1, (q.1 != q.2) ==> (q != p) ==> (q != (p.2, p.1)) ==> (D p.1 p.2 < D q.1 q.2)].
exists (fun _ D => Some (if [pick p | closest D p] is Some p then fun t => if t == p.2 then p.1 : nat else t else fun t => t)) => D s t st h.
have hst : closest D (s, t).
  rewrite /closest /= st; apply/forallP => -[s' t'] /=.
  by apply/implyP => n1; apply/implyP => /eqP n2; apply/implyP => /eqP n3; apply: h.
eexists; split; first by []; case: pickP => [p|/(_ (s, t))]; last by rewrite hst.
move=> /andP[np /forallP hp].
have ep : p = (s, t) \/ p = (t, s).
  case: (altP (p =P (s, t))) => [->|n1]; first by left.
  case: (altP (p =P (t, s))) => [->|n2]; first by right.
  have := h p.1 p.2 np; rewrite -surjective_pairing => /(_ (elimN eqP n1) (elimN eqP n2)) l1.
  have := hp (s, t); rewrite /= st eq_sym n1 /= => /implyP h'.
  have /h' l2 : (s, t) != (p.2, p.1) by apply: contra n2 => /eqP[-> ->]; rewrite -surjective_pairing.
  by have := lt_trans l1 l2; rewrite ltxx.
move=> s' t' n'; have inj (x y : 'I_T.+1) : (x : nat) = y -> x = y by apply: val_inj.
case: ep => -> /=; case: eqP => [e1|/eqP e1]; case: eqP => [e2|/eqP e2].
- by rewrite e1 e2 eqxx in n'.
- split=> [/inj <-|[[h1 h2]|[h1 h2]]]; [by right; rewrite e1 | by rewrite h2 eqxx in e2 | by rewrite h2].
- split=> [/inj ->|[[h1 h2]|[h1 h2]]]; [by left; rewrite e2 | by rewrite h1 | by rewrite h1 eqxx in e1].
- split=> [/inj e|[[h1 h2]|[h1 h2]]]; [by rewrite e eqxx in n' | by rewrite h2 eqxx in e2 | by rewrite h1 eqxx in e1].
- by rewrite e1 e2 eqxx in n'.
- split=> [/inj <-|[[h1 h2]|[h1 h2]]]; [by left; rewrite e1 | by rewrite h2 | by rewrite h2 eqxx in e2].
- split=> [/inj ->|[[h1 h2]|[h1 h2]]]; [by right; rewrite e2 | by rewrite h1 eqxx in e1 | by rewrite h1].
- split=> [/inj e|[[h1 h2]|[h1 h2]]]; [by rewrite e eqxx in n' | by rewrite h1 eqxx in e1 | by rewrite h2 eqxx in e2].
Qed.

(** n_clusters=None stands for "all the times" in the first fit only: the fit stores its number of times, and a later fit with fewer raises *)
Theorem C146_refit_refuted : forall n T T' Out (prec : Out -> stack n T.+1) solver similarity cluster beta eps m K0
    Out' (prec' : Out' -> stack n T'.+1) solver' similarity' (cluster' : nat -> 'M[R]_T'.+1 -> option ('I_T'.+1 -> nat)) m' K0',
  (T' < T)%N -> (forall k D, (T'.+1 < k)%N -> cluster' k D = None) -> (0 < m')%N ->
  let stored := (similarity_fit prec solver similarity cluster None beta eps m K0).2 in
  (similarity_fit prec' solver' similarity' cluster' stored beta eps m' K0').1 = Raise ValueError.
Proof.
move=> n T T' Out prec solver similarity cluster beta eps m K0 Out' prec' solver' similarity' cluster' [//|m'] K0' TT hc _ /=.
by case: (similarity' K0') => // theta; rewrite hc.
Qed.
Print Assumptions C146_refit_refuted.
(** a single time always raises *)
Theorem C146_single_refuted : forall n Out (prec : Out -> stack n 1) solver (psi : 'M[R]_n -> R) cluster k beta eps m K0,
  (forall X, 0 <= psi X) -> (0 < m)%N ->
  (similarity_fit prec solver (precision_similarity psi) cluster k beta eps m K0).1 = Raise ValueError.
Proof. by move=> n Out prec solver psi cluster k beta eps [//|m] K0 p0 _ /=; rewrite C145_nan_single. Qed.
Print Assumptions C146_single_refuted.
(** a fit that stops by itself: the solver returns its initial value, each time is its own cluster *)
Example C146_case : exists f, (similarity_fit id (fun _ i => if i is Init3Array K then Val K else Raise ValueError) (precision_similarity (@l1 1 1))
    (fun _ _ => Some (fun t : 'I_3 => t : nat)) None 1 (10%:R^-1) 3 three).1 = Val f /\ sf_warned f = false /\ sf_precision f = three /\
    10%:R^-1 <= 3%:R^-1 :> R.
Proof.
have [S [hS _]] := C145_case; rewrite /similarity_fit /sim_loop /= hS /labels_close.
have -> : \sum_(t < 3) ((t : nat)%:R - (t : nat)%:R) ^+ 2 = 0 :> R by rewrite big1 // => t _; rewrite subrr expr0n.
rewrite (sqrt_0 : sqrt 0 = 0 :> R) mul0r invr_gt0 ltr0n /=; eexists; split; first by []; split=> //; split=> //.
by rewrite lef_pinv ?posrE ?ltr0n // ler_nat.
Qed.
(** and one that does not: one iteration *)
Example C146_warned_case : exists f, (similarity_fit id (fun _ i => if i is Init3Array K then Val K else Raise ValueError)
    (precision_similarity (@l1 1 1)) (fun _ _ => Some (fun t : 'I_3 => t : nat)) None 1 (10%:R^-1) 1 three).1 = Val f /\ sf_warned f.
Proof. by have [S [hS _]] := C145_case; rewrite /similarity_fit /sim_loop /= hS /=; eexists. Qed.

(** * C147: SimilarityLatentTimeGraphicalLasso *)

(** eta (the weight of the latent variables of consecutive times) has no effect: without kernel_phi the latent part is decoupled *)
Theorem C147_eta_refuted : forall n T Out (prec : Out -> stack n T.+1) solver_phi similarity cluster eta k beta eps m K0,
  latent_similarity_fit prec solver_phi similarity cluster KNone eta k beta eps m K0 =
  similarity_fit prec (fun kernel init => solver_phi 1%:M kernel init) similarity cluster k beta eps m K0.
Proof. by []. Qed.
Print Assumptions C147_eta_refuted.
(** a callable kernel_phi, accepted by the estimator it extends, raises *)
Theorem C147_callable_refuted : forall n T Out (prec : Out -> stack n T.+1) solver_phi (psi : 'M[R]_n -> R) cluster c eta k beta eps m K0,
  (forall X, 0 <= psi X) -> (forall j D, cluster j D <> None) -> (0 < m)%N ->
  (latent_similarity_fit prec solver_phi (precision_similarity psi) cluster (KClass c) eta k beta eps m K0).1 = Raise ValueError.
Proof.
move=> n T Out prec solver_phi psi cluster c eta k beta eps [//|m] K0 p0 hc _ /=.
by case: (precision_similarity psi K0) => // theta; case: (cluster _ _).
Qed.
Print Assumptions C147_callable_refuted.
(** an array kernel_phi is used as it is; with kernel_psi given, a kernel_phi that is left to its default raises *)
Theorem C147_array : forall n T Out (prec : Out -> stack n T.+1) solver_phi similarity cluster (A : 'M[R]_T.+1) eta k beta eps m K0,
  latent_similarity_fit prec solver_phi similarity cluster (KArray A) eta k beta eps m K0 =
  similarity_fit prec (fun kernel init => solver_phi A kernel init) similarity cluster k beta eps m K0.
Proof.
move=> n T Out prec solver_phi similarity cluster A eta k beta eps m K0; rewrite /latent_similarity_fit /raw_kernel.
suff -> : given_kernel T.+1 (KArray A) = Val A by [].
by rewrite /given_kernel; case: eqP => // e; rewrite castmx_id.
Qed.
Print Assumptions C147_array.
Theorem C147_default_refuted : forall T (times : 'I_T -> R) theta, latent_given_kernel times KNone theta = Raise AttributeError.
Proof. by []. Qed.
Print Assumptions C147_default_refuted.
Example C147_case : exists f, (latent_similarity_fit id (fun _ _ i => if i is Init3Array K then Val K else Raise ValueError)
    (precision_similarity (@l1 1 1)) (fun _ _ => Some (fun t : 'I_3 => t : nat)) KNone 5%:R None 1 (10%:R^-1) 3 three).1 = Val f.
Proof. by have [f [h _]] := C146_case; exists f; rewrite C147_eta_refuted. Qed.

(** * C148: the temporal Ising and Poisson models *)

(** any two values pass for binary data *)
Theorem C148_ising_values_refuted : forall T (times : 'I_T -> R) Out (solver : 'M[R]_T -> res Out) values values' counts kernel ker_param,
  size (undup values) = 2%N -> size (undup values') = 2%N ->
  temporal_ising_fit times solver values counts kernel ker_param = temporal_ising_fit times solver values' counts kernel ker_param.
Proof. by move=> T times Out solver v v' counts kernel kp h h'; rewrite /temporal_ising_fit h h'. Qed.
Print Assumptions C148_ising_values_refuted.
(** and everything else is rejected *)
Theorem C148_ising_rejects : forall T (times : 'I_T -> R) Out (solver : 'M[R]_T -> res Out) values counts kernel ker_param,
  size (undup values) <> 2%N -> temporal_ising_fit times solver values counts kernel ker_param = Raise ValueError.
Proof. by move=> T times Out solver v counts kernel kp /eqP h; rewrite /temporal_ising_fit h. Qed.
Print Assumptions C148_ising_rejects.
(** negative counts are never rejected: the check has no effect *)
Theorem C148_negative_refuted : forall n T (times : 'I_T -> R) Out (prec : Out -> stack n T) solver values counts kernel ker_param minimise m previous,
  temporal_poisson_fit times prec solver values counts kernel ker_param minimise m previous =
  temporal_poisson_fit times prec solver [::] counts kernel ker_param minimise m previous.
Proof. by move=> n T times Out prec solver v counts kernel kp minimise m previous; rewrite /temporal_poisson_fit !ltrn0. Qed.
Print Assumptions C148_negative_refuted.
(** the automatic parameter: no Ising model can be fitted with it, and no fresh Poisson model *)
Theorem C148_auto_refuted : forall n T (times : 'I_T -> R) Out (prec : Out -> stack n T) solver values counts kernel,
  (forall r, temporal_ising_fit times solver values counts kernel None <> Val r) /\
  (forall minimise m r, (0 < m)%N -> temporal_poisson_fit times prec solver values counts kernel None minimise m None <> Val r).
Proof.
move=> n T times Out prec solver values counts kernel; split.
  by rewrite /temporal_ising_fit => r; case: ifP => // _; case: ifP => // _; case: kernel.
by move=> minimise [//|m] r _; rewrite /temporal_poisson_fit; case: ifP => // _; case: ifP => // _; case: kernel.
Qed.
Print Assumptions C148_auto_refuted.
(** with a number, and classes of the same size, the model is the solver's for the chosen kernel; classes of different sizes raise *)
Theorem C148_fit : forall n T (times : 'I_T -> R) Out (prec : Out -> stack n T) solver values counts kernel theta minimise m previous k r,
  choose_kernel times kernel theta = Val k -> solver k = Val r -> (forall c c', c \in counts -> c' \in counts -> c = c') ->
  (size (undup values) = 2%N -> temporal_ising_fit times solver values counts kernel (Some theta) = Val r) /\
  temporal_poisson_fit times prec solver values counts kernel (Some theta) minimise m previous = Val (Some (prec r)).
Proof.
move=> n T times Out prec solver values counts kernel theta minimise m previous k r hk hr hc.
have cc : constant counts.
  by case: counts hc => // c counts hc; apply/allP => c' c'in /=; rewrite (hc c' c) ?inE ?eqxx ?c'in ?orbT.
by rewrite /temporal_ising_fit /temporal_poisson_fit cc ltrn0 hk hr /=; split=> // ->.
Qed.
Print Assumptions C148_fit.
Theorem C148_unequal_refuted : forall n T (times : 'I_T -> R) Out (prec : Out -> stack n T) solver values counts kernel ker_param minimise m previous c c',
  c \in counts -> c' \in counts -> c <> c' ->
  temporal_ising_fit times solver values counts kernel ker_param = Raise ValueError /\
  temporal_poisson_fit times prec solver values counts kernel ker_param minimise m previous = Raise ValueError.
Proof.
move=> n T times Out prec solver values counts kernel kp minimise m previous c c' h1 h2 h3.
have cc : constant counts = false.
  apply/negbTE/negP; case: counts h1 h2 => // d counts h1 h2 /allP h; apply: h3.
  have e x : x \in d :: counts -> x = d by rewrite inE => /orP[/eqP //|/h /eqP].
  by rewrite (e c) // (e c').
by rewrite /temporal_ising_fit /temporal_poisson_fit cc ltrn0 /=; split=> //; case: ifP.
Qed.
Print Assumptions C148_unequal_refuted.
(** the score says nothing: cross-validation cannot tell two models apart *)
Theorem C148_score_refuted : forall n T (K K' : stack n T) X y X' y', temporal_score K X y = temporal_score K' X' y'.
Proof. by []. Qed.
Print Assumptions C148_score_refuted.
(** SimilarityTemporalPoissonModel cannot be constructed *)
Theorem C148_constructor_refuted : similarity_poisson_init = Raise TypeError.
Proof. by []. Qed.
Print Assumptions C148_constructor_refuted.
Example C148_case : exists r : stack 1 2,
  temporal_ising_fit (fun t : 'I_2 => (t : nat)%:R) (fun k => Val k) [:: 3%:R; 7%:R; 3%:R] [:: 5; 5]%N KNone (Some 1) = Val 1%:M /\
  temporal_poisson_fit (fun t : 'I_2 => (t : nat)%:R) id (fun=> Val r) [:: - 1] [:: 5; 5]%N KNone (Some 1) (fun=> 0) 1 None = Val (Some r).
Proof.
exists 0; have s2 : size (undup [:: 3%:R; 7%:R; 3%:R : R]) = 2%N by rewrite /= !inE (eqr_nat _ 3 7) eqxx /= (eqr_nat _ 7 3).
have [h _] := @C148_fit 1 2 (fun t => (t : nat)%:R) _ (fun=> 0) (fun k => Val k) [:: 3%:R; 7%:R; 3%:R] [:: 5; 5]%N KNone 1 (fun=> 0) 0 None _ _
  erefl erefl (ltac:(by move=> c c'; rewrite !inE !orbb => /eqP -> /eqP ->)); rewrite h //; split=> //.
by rewrite C148_negative_refuted /temporal_poisson_fit ltrn0.
Qed.
