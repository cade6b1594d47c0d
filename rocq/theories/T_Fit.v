(** Property theorems C29, C30, C49, C74-C77: the estimator layer, covariance_, and penalty updates. *)
From Coq Require Import Reals.
From mathcomp Require Import all_ssreflect all_algebra.
From Verif Require Import RStruct RTac S_Mat NP M_Prox M_Loop M_GL M_LGL M_TGL M_KTGL M_Utils M_Fit S_Fit S_TGL S_KTGL.
From Verif Require Import RMx P_Eigh P_Prox P_Loop P_GL P_GL2 P_LGL P_TGL P_TGL3 P_TGL4 P_KTGL P_KTGL2 P_KTGL3 P_Fit P_Rescale.
From Verif Require Import T_GL T_LGL T_TGL T_KTGL.
Import Order.TTheory GRing.Theory Num.Theory.

Set Implicit Arguments.
Unset Strict Implicit.
Unset Printing Implicit Defensive.
Local Open Scope ring_scope.

(** concrete labelled data: five rows, labels 7 and 3 *)
Definition exRow (a b : nat) : 'rV[R]_2 := \row_(j < 2) if j == 0 then a%:R else b%:R.
Definition exD : seq ('rV[R]_2 * nat) :=
  [:: (exRow 1 2, 7); (exRow 0 1, 3); (exRow 4 2, 3); (exRow 2 2, 7); (exRow 0 5, 3)]%N.
Lemma exD_classes : np_unique (labels exD) = [:: 3; 7]%N.
Proof. by vm_compute. Qed.
(** a solver that returns what it is given *)
Definition echo n m (S : stack n m.+1) (ns : 'I_m.+1 -> R) : py_result (tgl_result n m) :=
  Ok (TGLResult S S None None false).

(** C29: [solver] is any function of the covariances and counts *)
Theorem C29_row_order : forall n d (L : orderType d)
    (solver : forall m, stack n m.+1 -> ('I_m.+1 -> R) -> py_result (tgl_result n m))
    centered (D D' : seq ('rV[R]_n * L)), perm_eq D D' ->
  time_fit solver centered D = time_fit solver centered D'.
Proof. exact fit_perm. Qed.
Print Assumptions C29_row_order.
Theorem C29_classes : forall n d (L : orderType d)
    (solver : forall m, stack n m.+1 -> ('I_m.+1 -> R) -> py_result (tgl_result n m))
    centered (D : seq ('rV[R]_n * L)) f, time_fit solver centered D = Val f ->
  [/\ sorted <%O (tf_classes f), (forall cl, (cl \in tf_classes f) = has (fun r => r.2 == cl) D),
      size (tf_location f) = size (tf_classes f), size (tf_precision f) = size (tf_classes f) &
      forall k x0 i, (k < size (tf_classes f))%N -> nth 0 (tf_location f) k 0 i =
        if centered then 0 else avg [seq r.1 | r <- D & r.2 == nth x0 (tf_classes f) k] (fun x => x 0 i)].
Proof.
move=> n d L solver c D f hf; have [e u h1 h2] := fit_shape hf; split=> //.
- by rewrite e; apply: npu_sorted.
- move=> cl; rewrite e npu_mem; apply/mapP/hasP => [[r rD ->]|[r rD /eqP <-]]; by exists r.
- move=> k x0 i kc; rewrite (fit_centered x0 hf kc); case: (c); first by rewrite mxE.
  by rewrite col_meanE.
Qed.
Print Assumptions C29_classes.
Theorem C29_solver_input : forall n d (L : orderType d)
    (solver : forall m, stack n m.+1 -> ('I_m.+1 -> R) -> py_result (tgl_result n m))
    centered (D : seq ('rV[R]_n * L)) f x0, time_fit solver centered D = Val f ->
  exists m (S : stack n m.+1) (ns : 'I_m.+1 -> R) r,
  [/\ solver m S ns = Ok r, tf_precision f = [seq tgl_precision r t | t <- enum 'I_m.+1],
      tf_covariance f = [seq tgl_covariance r t | t <- enum 'I_m.+1] & tf_warned f = tgl_warned r] /\
  [/\ size (tf_classes f) = m.+1,
      \sum_t ns t = (size D)%:R,
      forall t, 0 < ns t,
      forall t, ns t = (count (fun r => r.2 == nth x0 (tf_classes f) t) D)%:R &
      forall t i j, S t i j =
        cov_entry [seq r.1 | r <- D & r.2 == nth x0 (tf_classes f) t] centered i j].
Proof. by move=> n d L solver c D f x0; apply: fit_solver. Qed.
Print Assumptions C29_solver_input.
Theorem C29_relabelling : forall n d d' (L : orderType d) (L' : orderType d') (g : L -> L'),
  {mono g : x y / (x <= y)%O} ->
  forall solver centered (D : seq ('rV[R]_n * L)),
  time_fit solver centered [seq (r.1, g r.2) | r <- D] =
  match time_fit solver centered D with
  | Val f => Val (TimeFitted [seq g cl | cl <- tf_classes f] (tf_location f) (tf_precision f)
                    (tf_covariance f) (tf_history f) (tf_n_iter f) (tf_warned f))
  | Raise e => Raise e
  end.
Proof. by move=> n d d' L L' g h solver c D; apply: fit_relabel. Qed.
Print Assumptions C29_relabelling.
Example C29_case : (exists f, time_fit (@echo 2) false exD = Val f /\ tf_classes f = [:: 3; 7]%N) /\
  perm_eq exD (rev exD) /\ rev exD != exD /\ {mono (fun x : nat => x.*2) : x y / (x <= y)%O}.
Proof.
split.
  eexists; split; first by rewrite /time_fit /=; reflexivity.
  exact: exD_classes.
split; first by rewrite perm_sym perm_rev.
split; last by move=> x y; rewrite leEnat leq_double.
apply/eqP => -[e _]; have := congr1 (fun x : 'rV[R]_2 => x 0 0) e; rewrite !mxE /= => /eqP.
by rewrite eqr_nat.
Qed.

(** C30 *)
Theorem C30_entries : forall n (X : seq 'rV[R]_n) centered i j,
  empirical_covariance X centered i j = cov_entry X centered i j.
Proof. exact empcovE. Qed.
Print Assumptions C30_entries.
Theorem C30_psd : forall n (X : seq 'rV[R]_n) centered, psd (empirical_covariance X centered).
Proof. exact empcov_psd. Qed.
Print Assumptions C30_psd.
Theorem C30_row_order : forall n (X Y : seq 'rV[R]_n) centered, perm_eq X Y ->
  empirical_covariance X centered = empirical_covariance Y centered.
Proof. by move=> n X Y c; apply: empcov_perm. Qed.
Print Assumptions C30_row_order.
Theorem C30_translation : forall n (X : seq 'rV[R]_n) v, (0 < size X)%N ->
  empirical_covariance [seq x + v | x <- X] false = empirical_covariance X false.
Proof. by move=> n X v; apply: empcov_shift. Qed.
Print Assumptions C30_translation.
Theorem C30_centering : forall n (X : seq 'rV[R]_n) i j, (0 < size X)%N ->
  empirical_covariance X false i j = empirical_covariance X true i j -
    avg X (fun x => x 0 i) * avg X (fun x => x 0 j).
Proof.
by move=> n X i j X0; rewrite (empcov_moment X0) !mxE big_ord1 !mxE -!col_meanE !mxE.
Qed.
Print Assumptions C30_centering.
(** the covariance of the concrete data is not zero, and translation matters when assume_centered *)
Example C30_case : empirical_covariance [:: exRow 1 2; exRow 3 2] false 0 0 = 1 /\
  empirical_covariance [:: exRow 1 2; exRow 3 2] true <>
  empirical_covariance [seq x + exRow 1 0 | x <- [:: exRow 1 2; exRow 3 2]] true.
Proof.
split; first by rewrite empcovE /cov_entry /avg !big_cons !big_nil !mxE /=; mcfield.
move=> /matrixP /(_ 0 0); rewrite !empcovE /cov_entry /avg !big_cons !big_nil !mxE /=.
by mclra.
Qed.

(** C49 *)
Theorem C49_priors : forall n d (L : orderType d) (D : seq ('rV[R]_n * L)) classes priors Dn x0,
  da_prepare None D = Val (classes, priors, Dn) ->
  [/\ size priors = size classes,
      forall k, (k < size classes)%N -> 0 < nth 0 priors k,
      \sum_(q <- priors) q = 1 &
      forall k, (k < size classes)%N ->
        nth 0 priors k = (count (fun r => r.2 == nth x0 classes k) D)%:R / (size D)%:R].
Proof. by move=> n d L D cls pr Dn x0; apply: da_priors. Qed.
Print Assumptions C49_priors.
Theorem C49_row_order : forall n d (L : orderType d) priors (D E : seq ('rV[R]_n * L)), perm_eq D E ->
  match da_prepare priors D, da_prepare priors E with
  | Val (classes, pr, Dn), Val (classes', pr', En) => [/\ classes = classes', pr = pr' & perm_eq Dn En]
  | Raise e, Raise e' => e = e'
  | _, _ => False
  end.
Proof. by move=> n d L priors D E; apply: da_perm. Qed.
Print Assumptions C49_row_order.
(** the documented attribute "Class priors (sum to 1)" does not hold for priors given by the user:
    they are stored unchecked *)
Theorem C49_given_priors_refuted : forall n d (L : orderType d) (D : seq ('rV[R]_n * L)) q,
  (1 < size (np_unique (labels D)))%N -> (forall r, r \in D -> (1 < count (fun s => s.2 == r.2) D)%N) ->
  exists classes Dn, da_prepare (Some q) D = Val (classes, q, Dn).
Proof.
move=> n d L D q c2 h; have [|pr hp] := @da_ok n d L (Some q) D c2.
  move=> cl /mapP [r rD ->]; rewrite count_map; have := h r rD.
  by rewrite (eq_count (a2 := preim snd (pred1 r.2))).
by have [_ _ _ _ e] := da_val hp; exists (np_unique (labels D)), (da_inverse D); rewrite hp e.
Qed.
Print Assumptions C49_given_priors_refuted.
Example C49_case : (exists classes pr Dn, da_prepare None exD = Val (classes, pr, Dn)) /\
  (exists classes Dn, da_prepare (Some [:: -1; 5%:R]) exD = Val (classes, [:: -1; 5%:R], Dn)).
Proof.
have c2 : (1 < size (np_unique (labels exD)))%N by rewrite exD_classes.
split.
  have [|pr hp] := @da_ok _ _ _ None exD c2; first by apply/allP; vm_compute.
  by do 3 eexists; exact: hp.
have [|pr hp] := @da_ok _ _ _ (Some [:: -1; 5%:R]) exD c2; first by apply/allP; vm_compute.
by have [_ _ _ _ e] := da_val hp; do 2 eexists; rewrite hp e.
Qed.

(** C74: fit, from data to result *)
Theorem C74_graphical_lasso_fit : forall n (eigh : eigh_t n) pinvh p init centered X f,
  eigh_ok eigh -> 0 < gl_rho0 p -> 0 < tau_inc (gl_rho_options p) -> 0 < tau_dec (gl_rho_options p) ->
  (0 < gl_max_iter p)%N -> gl_over_relax p = 1 -> gl_fit eigh pinvh p init centered X = Val f ->
  sym (gf_precision f) /\ forall i, 0 < gf_precision f i i.
Proof. exact gl_fit_struct. Qed.
Print Assumptions C74_graphical_lasso_fit.
Theorem C74_time_graphical_lasso_fit : forall n d (L : orderType d) (eigh : eigh_t n) pinvh psi prox p init
    centered (D : seq ('rV[R]_n * L)) f,
  eigh_ok eigh -> (forall a lam, sym a -> sym (prox a lam)) -> 0 < tgl_rho0 p ->
  0 < tau_inc (tgl_rho_options p) -> 0 < tau_dec (tgl_rho_options p) -> (0 < tgl_max_iter p)%N ->
  tgl_fit eigh pinvh (PsiPlain psi prox) p init centered D = Val f ->
  size (tf_precision f) = size (tf_classes f) /\ forall K, K \in tf_precision f -> sym K.
Proof.
move=> n d L eigh pinvh psi prox p init c D f he hp r0 ti td m0 hf.
by split; [have [] := fit_shape hf | exact: (tgl_fit_struct he hp r0 ti td m0 hf)].
Qed.
Print Assumptions C74_time_graphical_lasso_fit.
(** fit raises exactly on an empty data set or a single column (max_iter >= 1) *)
Theorem C74_fit_total : forall n d (L : orderType d) (eigh : eigh_t n) pinvh px p init centered
    (D : seq ('rV[R]_n * L)), (0 < tgl_max_iter p)%N ->
  (exists f, tgl_fit eigh pinvh px p init centered D = Val f) <-> (1 < n)%N /\ (0 < size D)%N.
Proof.
move=> n d L eigh pinvh px p init c D m0; rewrite /tgl_fit /time_fit; case: ifP => [h|/negbT h].
  by split=> [[f]|[h1 h2]] //; move: h; rewrite ltnNge h1 -[size D == 0%N]negbK -lt0n h2.
rewrite negb_or -leqNgt -lt0n in h; split=> [_|_]; first by apply/andP.
match goal with |- context [time_graphical_lasso ?a ?b ?c ?d ?e ?f ?g] =>
  have [|r ->] := @tgl_call_ok _ _ a c b f d e g end; [by []|by eexists].
Qed.
Print Assumptions C74_fit_total.
Example C74_case : exists (eigh : eigh_t 2), eigh_ok eigh /\
  (exists f, gl_fit eigh id (exp 7) InitEmpirical false [:: exRow 1 2; exRow 3 2; exRow 0 5] = Val f) /\
  (exists f, tgl_fit eigh id (PsiPlain (@l1 2 2) (@soft_thresholding 2 2)) (exT 7) (fun=> Init3Empirical)
     false exD = Val f).
Proof.
have [eigh h] := eigh_exists 2; exists eigh; split=> //; split; last by apply/C74_fit_total.
rewrite /gl_fit -[_ || _]/false; match goal with |- context [graphical_lasso ?a ?b ?c ?d ?e] =>
  have [|r ->] := @gl_call_ok _ a b c d e end; [by []|by eexists].
Qed.

(** C75: score *)
Theorem C75_score_is_log_likelihood : forall n d (L : orderType d)
    (solver : forall m, stack n m.+1 -> ('I_m.+1 -> R) -> py_result (tgl_result n m))
    centered (D0 D : seq ('rV[R]_n * L)) f s, time_fit solver centered D0 = Val f ->
  (forall K, K \in tf_precision f -> pd K) -> tgl_score f D = Val s ->
  s = Fin (\sum_(r <- D | has (fun r0 => r0.2 == r.2) D0)
    (2%:R * gauss_logpdf (nth 0 (tf_precision f) (index r.2 (tf_classes f)))
              (nth 0 (tf_location f) (index r.2 (tf_classes f))) r.1 + n%:R * ln (2%:R * PI))).
Proof.
move=> n d L solver c D0 D f s hf hp hs; rewrite (fit_score hf hp hs); congr Fin.
apply: eq_bigl => r; apply/mapP/hasP => [[r0 rD e]|[r0 rD /eqP <-]]; last by exists r0.
by exists r0 => //; rewrite e.
Qed.
Print Assumptions C75_score_is_log_likelihood.
Theorem C75_row_order : forall n d (L : orderType d) (f : time_fitted n L) (D D' : seq ('rV[R]_n * L)),
  perm_eq D D' -> tgl_score f D = tgl_score f D'.
Proof. exact score_perm. Qed.
Print Assumptions C75_row_order.
Theorem C75_missing_class : forall n d (L : orderType d)
    (solver : forall m, stack n m.+1 -> ('I_m.+1 -> R) -> py_result (tgl_result n m))
    centered (D0 D : seq ('rV[R]_n * L)) f, time_fit solver centered D0 = Val f ->
  (exists s, tgl_score f D = Val s) <->
  (0 < size D)%N /\ (forall r0, r0 \in D0 -> has (fun r => r.2 == r0.2) D).
Proof.
move=> n d L solver c D0 D f hf; have [e _ _ _] := fit_shape hf.
have n2 : (n < 2)%N = false by move: hf; rewrite /time_fit; case: ltnP.
rewrite /tgl_score n2 /=; case: ifP => [h|/negbT h].
  split=> [[]|[D0' hD]] //; move: h; rewrite eqn0Ngt D0' /= => /hasP [cl].
  rewrite e npu_mem => /mapP [r0 r0D ->]; rewrite size_map size_filter => /eqP h0.
  by have := hD _ r0D; rewrite has_count h0.
rewrite negb_or -lt0n in h; move: h => /andP [h1 /hasPn h2]; split=> [_|_]; last by eexists.
split=> // r0 r0D; have := h2 r0.2; rewrite e npu_mem map_f // => /(_ isT).
by rewrite size_map size_filter -lt0n -has_count.
Qed.
Print Assumptions C75_missing_class.
Example C75_case : exists f s,
  [/\ time_fit (fun m (S : stack 2 m.+1) ns => Ok (TGLResult ([ffun=> 1%:M] : stack 2 m.+1) S None None false)) false exD = Val f,
      forall K, K \in tf_precision f -> pd K & tgl_score f exD = Val s].
Proof.
set sol := (fun m (S : stack 2 m.+1) ns => _).
case hf : (time_fit sol false exD) => [f|] //.
have [|s hs] := (proj2 (C75_missing_class exD hf)).
  by split=> // r0 r0D; apply/hasP; exists r0.
exists f, s; split=> // K.
have [m [S [ns [r [[[<-] -> _ _] _]]]]] := C29_solver_input 0%N hf.
by move=> /mapP [t _ ->]; rewrite ffunE; apply: pd1.
Qed.

(** C76: covariance_ against precision_ *)
Theorem C76_time_graphical_lasso : forall n m (eigh : eigh_t n) pinvh psi prox (S : stack n m.+1) ns p init r,
  pinvh_ok pinvh -> eigh_ok eigh -> slices (@sym n) S -> (forall t, 0 < odflt (fun=> 1) ns t) ->
  (forall a lam, sym a -> sym (prox a lam)) -> 0 < tgl_rho0 p ->
  0 < tau_inc (tgl_rho_options p) -> 0 < tau_dec (tgl_rho_options p) -> (0 < tgl_max_iter p)%N ->
  time_graphical_lasso eigh pinvh (PsiPlain psi prox) S ns p init = Ok r ->
  forall t, tgl_precision r t \in unitmx -> tgl_precision r t *m tgl_covariance r t = 1%:M.
Proof.
move=> n m eigh pinvh psi prox S ns p init r hp He sS ns0 ps r0 ti td m0 hr t ut.
have sK := C22_result He sS ns0 ps r0 ti td m0 hr t.
have -> : tgl_covariance r t = pinvh (tgl_precision r t).
  move: hr; rewrite /time_graphical_lasso; case: (tgl_return_n_iter p); last by case=> <-; rewrite ffunE.
  by case: (le_iter _) => // it [<-]; rewrite ffunE.
by rewrite hp // mulmxV.
Qed.
Print Assumptions C76_time_graphical_lasso.
Theorem C76_kernel_time_graphical_lasso : forall n T (eigh : eigh_t n) pinvh psi prox (S : stack n T) ns p init r,
  pinvh_ok pinvh ->
  kernel_time_graphical_lasso eigh pinvh psi prox S ns p init = Ok r ->
  forall t, sym (ktgl_precision r t) -> ktgl_precision r t \in unitmx ->
  ktgl_precision r t *m ktgl_covariance r t = 1%:M.
Proof.
move=> n T eigh pinvh psi prox S ns p init r hp hr t sK ut.
have -> : ktgl_covariance r t = pinvh (ktgl_precision r t).
  move: hr; rewrite /kernel_time_graphical_lasso; case: (ktgl_return_n_iter p); last by case=> <-; rewrite ffunE.
  by case: (le_iter _) => // it [<-]; rewrite ffunE.
by rewrite hp // mulmxV.
Qed.
Print Assumptions C76_kernel_time_graphical_lasso.
Theorem C76_latent_graphical_lasso : forall n (eigh : eigh_t n) nuc pinvh (S : 'M[R]_n) p init r,
  pinvh_ok pinvh -> eigh_ok eigh -> sym S -> 0 < lgl_rho0 p -> 0 <= lgl_tau p ->
  0 < tau_inc (lgl_rho_options p) -> 0 < tau_dec (lgl_rho_options p) -> (0 < lgl_max_iter p)%N ->
  latent_graphical_lasso eigh nuc pinvh S p init = Ok r ->
  lgl_precision r \in unitmx -> lgl_precision r *m lgl_covariance r = 1%:M.
Proof.
move=> n eigh nuc pinvh S p init r hp He sS r0 t0 ti td m0 hr ut.
have [sK _] := C20_result He sS r0 t0 ti td m0 hr.
have -> : lgl_covariance r = pinvh (lgl_precision r).
  move: hr; rewrite /latent_graphical_lasso; case: (lgl_return_n_iter p); last by case=> <-.
  by case: (le_iter _) => // it [<-].
by rewrite hp // mulmxV.
Qed.
Print Assumptions C76_latent_graphical_lasso.
(** graphical_lasso returns the empirical covariance, which is never the inverse of a stationary
    precision when alpha > 0 and two variables are correlated *)
Theorem C76_graphical_lasso_refuted : forall n (eigh : eigh_t n) pinvh (S : 'M[R]_n) p init r,
  graphical_lasso eigh pinvh S p init = Ok r ->
  gl_covariance r = S /\
  forall rho Z U K i j, eigh_ok eigh -> sym S -> 0 < gl_alpha p -> 0 < rho -> sym U -> i != j -> S i j != 0 ->
  gl_updates eigh S (gl_alpha p) 1 rho Z U = (K, Z, U) -> Z *m gl_covariance r <> 1%:M.
Proof.
move=> n eigh pinvh S p init r hr.
have e : gl_covariance r = S.
  move: hr; rewrite /graphical_lasso; case: (gl_return_n_iter p); last by case=> <-.
  by case: (le_iter _) => // it [<-].
split=> // rho Z U K i j He sS a0 r0 sU ij Sij E; rewrite e; apply/eqP; exact: (gl_cov_fixed He sS a0 r0 sU ij Sij E).
Qed.
Print Assumptions C76_graphical_lasso_refuted.
Example C76_case : (exists pinvh, @pinvh_ok 2 pinvh) /\ exS 0 1 != 0 /\
  exists (eigh : eigh_t 2) r Z U, [/\ eigh_ok eigh, sym U,
    graphical_lasso eigh id exS (exp 7) InitEmpirical = Ok r &
    gl_updates eigh exS 1 1 1 Z U = (Z, Z, U)].
Proof.
split; first by exists (@invmx _ 2).
split; first by rewrite mxE; apply/eqP; mclra.
have [eigh h] := eigh_exists 2.
have [|r hr] := @gl_call_ok _ eigh id exS (exp 7) InitEmpirical; first by [].
have E := gl_opt_fixed h exS_sym ler01 ltr01 exS_opt.
exists eigh, r; do 2 eexists; split; [exact: h| |exact: hr|exact: E].
apply: symZ; apply: symB; last exact: exS_sym.
by apply: sym_inv; apply: sym_diag.
Qed.

(** C77: once the state is stationary, no later iteration and no change of rho moves the estimate *)
Theorem C77_graphical_lasso : forall n (eigh : eigh_t n) (S : 'M[R]_n) p, eigh_ok eigh -> sym S ->
  gl_over_relax p = 1 -> 0 <= gl_alpha p ->
  0 < tau_inc (gl_rho_options p) -> 0 < tau_dec (gl_rho_options p) ->
  forall s K k, 0 < gl_rho s ->
  gl_updates eigh S (gl_alpha p) (gl_over_relax p) (gl_rho s) (gl_Z s) (gl_U s) = (K, gl_Z s, gl_U s) ->
  let s' := iter_state (gl_body eigh S p) 0 s k in
  [/\ 0 < gl_rho s', gl_Z s' = gl_Z s &
      gl_updates eigh S (gl_alpha p) (gl_over_relax p) (gl_rho s') (gl_Z s') (gl_U s') = (K, gl_Z s', gl_U s')].
Proof. exact gl_stay_iter. Qed.
Print Assumptions C77_graphical_lasso.
Theorem C77_time_graphical_lasso : forall n m (eigh : eigh_t n) psi prox (S : stack n m.+1) ns p, eigh_ok eigh ->
  slices (@sym n) S -> (forall t, 0 < ns t) -> convex_fun psi -> prox_of psi prox ->
  0 <= tgl_alpha p -> 0 <= tgl_beta p -> 0 < tau_inc (tgl_rho_options p) -> 0 < tau_dec (tgl_rho_options p) ->
  forall s K k, 0 < tgl_rho s -> slices (@sym n) (tgl_U s).1.1 ->
  tgl_updates eigh (PsiPlain psi prox) S ns p (tgl_rho s) (tgl_Z s) (tgl_U s) = (K, tgl_Z s, tgl_U s) ->
  let s' := iter_state (tgl_body eigh (PsiPlain psi prox) S ns p) 0 s k in
  [/\ 0 < tgl_rho s', slices (@sym n) (tgl_U s').1.1, tgl_Z s' = tgl_Z s &
      tgl_updates eigh (PsiPlain psi prox) S ns p (tgl_rho s') (tgl_Z s') (tgl_U s') = (K, tgl_Z s', tgl_U s')].
Proof. exact tgl_stay_iter. Qed.
Print Assumptions C77_time_graphical_lasso.
Theorem C77_kernel_time_graphical_lasso : forall n T (eigh : eigh_t n) psi prox (S : stack n T) ns p, eigh_ok eigh ->
  slices (@sym n) S -> (forall t, 0 < ns t) -> convex_fun psi -> prox_of psi prox ->
  0 <= ktgl_alpha p -> kern_ge0 (kernel_of p) -> 0 < tau_inc (ktgl_rho_options p) ->
  0 < tau_dec (ktgl_rho_options p) ->
  forall s K k, 0 < ktgl_rho s -> slices (@sym n) (ktgl_U s).1.1 ->
  ktgl_updates eigh prox S ns p (ktgl_rho s) (ktgl_Z s) (ktgl_U s) = (K, ktgl_Z s, ktgl_U s) ->
  let s' := iter_state (ktgl_body eigh psi prox S ns p) 0 s k in
  [/\ 0 < ktgl_rho s', slices (@sym n) (ktgl_U s').1.1, ktgl_Z s' = ktgl_Z s &
      ktgl_updates eigh prox S ns p (ktgl_rho s') (ktgl_Z s') (ktgl_U s') = (K, ktgl_Z s', ktgl_U s')].
Proof. exact ktgl_stay_iter. Qed.
Print Assumptions C77_kernel_time_graphical_lasso.
(** a stationary state of a concrete problem, with default-like rho options *)
Example C77_case : exists (eigh : eigh_t 2) (s : tgl_state 2 2), [/\ eigh_ok eigh, 0 < tgl_rho s,
  slices (@sym 2) (tgl_U s).1.1 &
  tgl_updates eigh (PsiPlain (@l1 2 2) (@soft_thresholding 2 2)) exSt (fun=> 1)
    (TGLParams 1 1 1 5 (10%:R^-1) 0 true true true None 0 (RhoOptions 10%:R 2%:R 2%:R))
    (tgl_rho s) (tgl_Z s) (tgl_U s) = (exKt, tgl_Z s, tgl_U s)].
Proof.
have [eigh [U [h [sU E]]]] := C23_case.
by exists eigh, (TGLState (copies exKt) U 0 1 exKt); split=> //; apply: ltr01.
Qed.
