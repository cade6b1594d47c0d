(** Proofs about the missing-data graphical lasso. *)
From Coq Require Import Reals Lra Psatz.
From mathcomp Require Import all_ssreflect all_algebra.
From Verif Require Import RStruct RTac LinTac S_Mat RMx NP M_Prox M_Loop P_Loop M_GL P_Utils2 P_GL P_GL2 P_LGL P_Exist M_Missing T_GL.
Import Order.TTheory GRing.Theory Num.Theory.

Set Implicit Arguments.
Unset Strict Implicit.
Unset Printing Implicit Defensive.
Local Open Scope ring_scope.

(** what is used of the pseudo-inverse: it is the inverse on invertible matrices and keeps symmetry *)
Definition pinv_ok (pinv : pinv_t) : Prop :=
  (forall m (A : 'M[R]_m), A \in unitmx -> pinv m A = invmx A) /\ (forall m (A : 'M[R]_m), sym A -> sym (pinv m A)).

Section Row.
Variables (d : nat) (x : 'I_d -> option R).

Lemma at_nans (a : 'I_(size (nans x))) : isnan (x (at_ a)).
Proof. by have := mem_tnth a (in_tuple (nans x)); rewrite mem_filter => /andP []. Qed.
Lemma at_obss (a : 'I_(size (obss x))) : ~~ isnan (x (at_ a)).
Proof. by have := mem_tnth a (in_tuple (obss x)); rewrite mem_filter => /andP []. Qed.
Lemma at_inj (s : seq 'I_d) : uniq s -> injective (@at_ d s).
Proof. by move=> u; apply/tuple_uniqP. Qed.
Lemma nans_uniq : uniq (nans x). Proof. by apply: filter_uniq; exact: enum_uniq. Qed.

Lemma pick_at (a : 'I_(size (nans x))) : [pick b : 'I_(size (nans x)) | at_ b == at_ a] = Some a.
Proof. by case: pickP => [b /eqP /(at_inj nans_uniq) ->|/(_ a)]; rewrite ?eqxx. Qed.
Lemma nan_at v : isnan (x v) -> exists a : 'I_(size (nans x)), at_ a = v.
Proof.
move=> h; have hv : v \in nans x by rewrite mem_filter h mem_enum.
have hi : (index v (nans x) < size (nans x))%N by rewrite index_mem.
by exists (Ordinal hi); rewrite /at_ (tnth_nth v) /= nth_index.
Qed.
Lemma pick_obs v : ~~ isnan (x v) -> [pick b : 'I_(size (nans x)) | at_ b == v] = None.
Proof. by move=> h; case: pickP => // b /eqP e; move: (at_nans b); rewrite e (negbTE h). Qed.

Lemma sum_split (F : 'I_d -> R) :
  \sum_s F s = (\sum_(a < size (nans x)) F (at_ a)) + (\sum_(b < size (obss x)) F (at_ b)).
Proof.
have h (P : pred 'I_d) : \sum_(a < size [seq v <- enum 'I_d | P v]) F (at_ a) = \sum_(v | P v) F v.
  by rewrite -(big_tnth _ _ _ xpredT) big_filter big_enum_cond.
by rewrite !h (bigID (fun s => isnan (x s))).
Qed.
End Row.

(** the missing entries of a row filled with those of [u] *)
Definition completion d (x : 'I_d -> option R) (u : 'I_d -> R) : 'cV[R]_d := \col_v odflt (u v) (x v).

Section Cond.
Variables (d : nat) (pinv : pinv_t) (K : 'M[R]_d) (means : 'I_d -> R) (x : 'I_d -> option R).
Hypothesis pok : pinv_ok pinv.
Hypothesis pK : pd K.
Local Notation m := (size (nans x)).
Definition sel : 'M[R]_(m, d) := \matrix_(a, v) (at_ a == v)%:R.

Lemma sel_tr q (w : 'M[R]_(m, q)) v j :
  (sel^T *m w) v j = if [pick a : 'I_m | at_ a == v] is Some a then w a j else 0.
Proof.
rewrite mxE; case: pickP => [a /eqP <-|h].
  rewrite (bigD1 a) //= big1 => [|b ab]; rewrite !mxE ?eqxx ?mul1r ?addr0 //.
  by rewrite (inj_eq (at_inj (nans_uniq x))) (negbTE ab) mul0r.
by rewrite big1 // => a _; rewrite !mxE h mul0r.
Qed.
Lemma sel_mul q (w : 'M[R]_(d, q)) a j : (sel *m w) a j = w (at_ a) j.
Proof.
rewrite mxE (bigD1 (at_ a)) //= big1 => [|v av]; rewrite !mxE ?eqxx ?mul1r ?addr0 //.
by rewrite eq_sym (negbTE av) mul0r.
Qed.
Lemma blockE : mesh_index K (nans x) (nans x) = sel *m K *m sel^T.
Proof.
have sK : forall i j, K i j = K j i by move=> i j; rewrite -[in LHS](proj1 pK) mxE.
apply/matrixP=> a b; rewrite -mulmxA sel_mul mxE.
rewrite -[K *m _]trmxK trmx_mul trmxK mxE sel_mul mxE //.
Qed.
Lemma block_pd : pd (mesh_index K (nans x) (nans x)).
Proof.
rewrite blockE; split.
  by rewrite /sym !trmx_mul trmxK (proj1 pK) mulmxA.
move=> w w0; rewrite /quad.
have -> : w^T *m (sel *m K *m sel^T) *m w = (sel^T *m w)^T *m K *m (sel^T *m w).
  by rewrite trmx_mul trmxK !mulmxA.
apply: (proj2 pK); apply: contraNneq w0 => h0; apply/eqP/matrixP=> a j.
by move/matrixP: h0 => /(_ (at_ a) j); rewrite sel_tr pick_at => ->; rewrite !mxE.
Qed.

Lemma cs_row_obs v : ~~ isnan (x v) -> cs_row pinv K means x v = 0.
Proof. by move=> h; rewrite /cs_row pick_obs. Qed.

Definition mvec : 'cV[R]_d := \col_v means v.
Lemma cs_normal v : isnan (x v) -> (K *m (completion x (cs_row pinv K means x) - mvec)) v 0 = 0.
Proof.
case/nan_at => a <- {v}; rewrite mxE (sum_split x).
set A := mesh_index K (nans x) (nans x); set B := mesh_index K (obss x) (nans x).
have sK : forall i j, K i j = K j i by move=> i j; rewrite -[in LHS](proj1 pK) mxE.
set xo : 'cV[R]_(size (obss x)) := \col_b (nan_to_num (x (at_ b)) - means (at_ b)).
have uA : A \in unitmx by apply: pd_unit; exact: block_pd.
have e1 : \sum_(b < m) K (at_ a) (at_ b) * (completion x (cs_row pinv K means x) - mvec) (at_ b) 0 = - (B *m xo) a 0.
  transitivity ((A *m - (invmx A *m B *m xo)) a 0); last by rewrite mulmxN !mulmxA mulmxV // mul1mx mxE.
  rewrite mxE; apply: eq_bigr => b _; rewrite [K _ _]sK [A a b]mxE; congr (_ * _).
  rewrite !mxE; have := at_nans b; rewrite /isnan; case E: (x (at_ b)) => [|] //= _.
  by rewrite /cs_row pick_at (proj1 pok) // -/A -/B -/xo !mxE addrAC subrr add0r.
rewrite e1 mxE addrC; apply/eqP; rewrite subr_eq0; apply/eqP; apply: eq_bigr => b _.
rewrite !mxE [K _ _]sK; congr (_ * _); have := at_obss b; rewrite /isnan /nan_to_num.
by case: (x (at_ b)).
Qed.

(** the unnormalised fill minimises the Gaussian energy given the observed entries, and is the only minimiser *)
Lemma cs_conditional (u : 'I_d -> R) :
  let c := cs_row pinv K means x in
  quad K (completion x u - mvec) = quad K (completion x c - mvec) + quad K (completion x u - completion x c).
Proof.
move=> c; set z := completion x c - mvec; set e := completion x u - completion x c.
have -> : completion x u - mvec = z + e by rewrite /z /e; lin.
have h0 : (e^T *m (K *m z)) 0 0 = 0.
  rewrite mxE big1 // => v _; case: (boolP (isnan (x v))) => h; first by rewrite cs_normal // mulr0.
  by rewrite !mxE; move: h; rewrite /isnan; case: (x v) => //= y _; rewrite subrr mul0r.
have h1 : (z^T *m (K *m e)) 0 0 = 0.
  have -> : z^T *m (K *m e) = (e^T *m (K *m z))^T by rewrite !trmx_mul trmxK (proj1 pK) mulmxA.
  by rewrite mxE.
clearbody z e; have E : (z + e)^T *m K *m (z + e) = z^T *m K *m z + (z^T *m (K *m e) + e^T *m (K *m z)) + e^T *m K *m e.
  rewrite [(z + e)^T]linearD /= !mulmxDl !mulmxDr -!mulmxA; move: (z^T *m _) (e^T *m _) (z^T *m _) (e^T *m _) => a b c' f; lin.
have mxD (M M' : 'M[R]_1) : (M + M') 0 0 = M 0 0 + M' 0 0 by rewrite mxE.
by rewrite /quad E !mxD h0 h1 addr0 addr0.
Qed.
End Cond.

(** * the fill *)
Lemma bigmax_ge (I : eqType) (r : seq I) (F : I -> R) x0 i : i \in r -> F i <= \big[Num.max/x0]_(j <- r) F j.
Proof.
elim: r => // j r IH; rewrite inE big_cons le_maxr => /orP[/eqP ->|/IH ->]; rewrite ?lexx ?orbT //.
Qed.
Lemma bigmax_in (I : eqType) (r : seq I) (F : I -> R) x0 : \big[Num.max/x0]_(j <- r) F j = x0 \/ exists j, \big[Num.max/x0]_(j <- r) F j = F j.
Proof.
elim: r => [|j r IH]; first by left; rewrite big_nil.
rewrite big_cons; case: (leP (F j) _) => h; last by right; exists j.
by [].
Qed.
Lemma max_abs_ge N d (cs : 'I_N -> 'I_d -> R) i v : `|cs i v| <= max_abs cs.
Proof. by apply: (@bigmax_ge _ _ (fun iv : 'I_N * 'I_d => `|cs iv.1 iv.2|) 0 (i, v)); rewrite mem_index_enum. Qed.
Lemma np_max1 (a : R) : 1 <= np_max a 1 /\ a <= np_max a 1.
Proof. by rewrite /np_max; case: ltP => h; split=> //; exact: ltW. Qed.
Lemma compute_cs_obs N d pinv means K (X : mdata N d) i v : ~~ isnan (X i v) -> compute_cs pinv means K X i v = 0.
Proof. by move=> h; rewrite /compute_cs cs_row_obs // mul0r. Qed.
Lemma compute_cs_bound N d pinv means K (X : mdata N d) i v : `|compute_cs pinv means K X i v| <= 1.
Proof.
rewrite /compute_cs; set c := fun i v => _; have := max_abs_ge c i v; rewrite -/(c i v).
have [h1 h2] := np_max1 (max_abs c); move: h1 h2; move: (np_max _ _) => b h1 h2 h3.
have b0 : 0 < b by apply: lt_le_trans h1; exact: ltr01.
by rewrite normrM normfV (gtr0_norm b0) ler_pdivr_mulr // mul1r; apply: le_trans h3 h2.
Qed.
Lemma filled_obs N d (X : mdata N d) cs i v y : X i v = Some y -> cs i v = 0 -> filled X cs i v = y.
Proof. by rewrite /filled => -> ->; rewrite addr0. Qed.
Lemma filled_nan N d (X : mdata N d) cs i v : X i v = None -> filled X cs i v = cs i v.
Proof. by rewrite /filled => ->; rewrite add0r. Qed.

(** * the covariance *)
Section Emp.
Variables (N d : nat) (pinv : pinv_t) (X : mdata N d) (K : 'M[R]_d) (cs : 'I_N -> 'I_d -> R).
Hypothesis pok : pinv_ok pinv.
(** the conditional covariance of the missing variables of row i, embedded in a d x d matrix *)
Definition cond_cov i : 'M[R]_d := (sel (X i))^T *m @pinv _ (mesh_index K (nans (X i)) (nans (X i))) *m sel (X i).
Definition fill_row i : 'cV[R]_d := \col_v filled X cs i v.

Lemma inv_entryE i v s : inv_entry pinv K (X i) v s = cond_cov i v s.
Proof.
rewrite /cond_cov -mulmxA sel_tr /inv_entry; case: pickP => // a _.
by rewrite -[_ *m sel _]trmxK trmx_mul mxE sel_tr; case: pickP => // b _; rewrite mxE.
Qed.
Lemma emp_sumE : emp_sum pinv X K cs = \sum_i (fill_row i *m (fill_row i)^T + cond_cov i).
Proof.
apply/matrixP => v s; rewrite mxE summxE; apply: eq_bigr => i _.
rewrite [RHS]mxE -inv_entryE [(_ *m _) v s]mxE big_ord1 !mxE.
case: ifP => [/andP[h1 h2]|h]; last first.
  suff -> : inv_entry pinv K (X i) v s = 0 by rewrite addr0.
  rewrite /inv_entry; case: pickP => // a /eqP e1; case: pickP => // b /eqP e2.
  by move: h; rewrite -e1 -e2 !at_nans.
rewrite addrC; congr (_ * _ + _); rewrite filled_nan //.
  by move: h1; rewrite /isnan; case: (X i v).
by move: h2; rewrite /isnan; case: (X i s).
Qed.
Lemma cond_cov_sym i : sym K -> sym (cond_cov i).
Proof.
move=> sK; rewrite /sym /cond_cov !trmx_mul trmxK mulmxA; congr (_ *m _ *m _).
apply: (proj2 pok); apply/matrixP => a b; rewrite !mxE -[in LHS]sK mxE //.
Qed.
Lemma emp_sum_sym : sym K -> sym (emp_sum pinv X K cs).
Proof.
move=> sK; rewrite emp_sumE /sym linear_sum; apply: eq_bigr => i _ /=.
by rewrite linearD /= cond_cov_sym // trmx_mul trmxK.
Qed.
Lemma cond_cov_psd i : pd K -> psd (cond_cov i).
Proof.
move=> pK; have pB := block_pd (X i) pK; have pI := pd_inv pB.
split; first by apply: cond_cov_sym; exact: (proj1 pK).
move=> w; rewrite /quad /cond_cov (proj1 pok) ?pd_unit //.
have -> A : w^T *m ((sel (X i))^T *m A *m sel (X i)) *m w = (sel (X i) *m w)^T *m A *m (sel (X i) *m w).
  by rewrite trmx_mul !mulmxA.
exact: (proj2 (pd_psd pI)).
Qed.
Lemma emp_sum_psd : pd K -> psd (emp_sum pinv X K cs).
Proof.
move=> pK; rewrite emp_sumE; elim/big_ind: _ => [|A B|i _]; [exact: psd0 | exact: psdD |].
by apply: psdD (cond_cov_psd _ pK); exact: psd_gram.
Qed.
End Emp.

Lemma np_amax_ge d (A : 'M[R]_d.+1) i j : A i j <= np_amax A.
Proof. by apply: (@bigmax_ge _ _ (fun vs : 'I_d.+1 * 'I_d.+1 => A vs.1 vs.2) (A 0 0) (i, j)); rewrite mem_index_enum. Qed.
Lemma np_amax_in d (A : 'M[R]_d.+1) : exists i j, np_amax A = A i j.
Proof.
have [h|[[i j] h]] := bigmax_in (index_enum [finType of 'I_d.+1 * 'I_d.+1]) (fun vs => A vs.1 vs.2) (A 0 0).
  by exists 0, 0.
by exists i, j.
Qed.
Lemma np_amax_Z d (A : 'M[R]_d.+1) (c : R) : 0 < c -> np_amax (c *: A) = c * np_amax A.
Proof.
move=> c0; apply/eqP; rewrite eq_le; apply/andP; split.
  by have [i [j ->]] := np_amax_in (c *: A); rewrite mxE ler_pmul2l // np_amax_ge.
by have [i [j ->]] := np_amax_in A; have := np_amax_ge (c *: A) i j; rewrite mxE.
Qed.

Lemma psd_amax_ge0 d (A : 'M[R]_d.+1) : psd A -> 0 <= np_amax A.
Proof.
by move=> pA; apply: le_trans (np_amax_ge A 0 0); rewrite -quad_delta; exact: (proj2 pA).
Qed.

Lemma emp_spec N d pinv (X : mdata N d.+1) K cs E :
  compute_empirical_covariance pinv X K cs = Some E ->
  [/\ E = (np_amax (emp_sum pinv X K cs))^-1 *: emp_sum pinv X K cs, np_amax (emp_sum pinv X K cs) != 0 &
      (exists i j, E i j = 1)].
Proof.
rewrite /compute_empirical_covariance; case: eqVneq => // h [<-]; split=> //.
by have [i [j e]] := np_amax_in (emp_sum pinv X K cs); exists i, j; rewrite mxE -e mulVf.
Qed.
Lemma emp_psd N d pinv (X : mdata N d.+1) K cs E : pinv_ok pinv -> pd K ->
  compute_empirical_covariance pinv X K cs = Some E -> psd E /\ forall i j, E i j <= 1.
Proof.
move=> pok pK /emp_spec [-> n0 _]; have pE := emp_sum_psd X cs pok pK.
have c0 : 0 < np_amax (emp_sum pinv X K cs) by rewrite lt_neqAle eq_sym n0 psd_amax_ge0.
split; first by apply: psdZ => //; rewrite invr_ge0 ltW.
by move=> i j; rewrite mxE mulrC ler_pdivr_mulr // mul1r np_amax_ge.
Qed.
Lemma emp_sym N d pinv (X : mdata N d.+1) K cs E : pinv_ok pinv -> sym K ->
  compute_empirical_covariance pinv X K cs = Some E -> sym E.
Proof. by move=> pok sK /emp_spec [-> _ _]; apply: symZ; exact: emp_sum_sym. Qed.

(** * the loop *)
Section Loop.
Variables (N d : nat) (eigh : eigh_t d.+1) (pinvh : 'M[R]_d.+1 -> 'M[R]_d.+1) (pinv : pinv_t) (X : mdata N d.+1) (p : gl_params).
Local Notation step := (ms_step eigh pinvh pinv X p).
Local Notation loop := (ms_loop eigh pinvh pinv X p).

Lemma ms_stepE s s' : step s = MOk s' -> [/\ ms_cs s' = compute_cs pinv (ms_means s) (ms_K s) X,
  ms_means s' = compute_mean X (ms_cs s'), compute_empirical_covariance pinv X (ms_K s) (ms_cs s') = Some (ms_emp s'),
  exists2 g, graphical_lasso eigh pinvh (ms_emp s') (inner_params p) (InitArray (ms_K s)) = Ok g & ms_K s' = gl_precision g &
  ms_loglik s' = logl (ms_emp s') (ms_K s')].
Proof.
rewrite /ms_step; case E: (compute_empirical_covariance _ _ _ _) => [emp|] //.
case G: (graphical_lasso _ _ _ _ _) => [g|] // [<-] /=; split=> //; by exists g.
Qed.

(** an invariant of the steps holds at the last step *)
Lemma ms_loop_last (P : ms_state N d.+1 -> Prop) : (forall s s', P s -> step s = MOk s' -> P s') ->
  forall todo it s cks last e, P s -> loop todo it s cks last = MOk e ->
  (exists s0, P s0 /\ step s0 = MOk (le_state e)) \/ (todo = 0%N /\ e = LoopEnd s cks last true).
Proof.
move=> hP; elim=> [|todo IH] it s cks last e Ps /=; first by case=> <-; right.
case E: (step s) => [s'| |] //; case: ifP => _; first by case=> <- /=; left; exists s.
by move/(IH _ _ _ _ _ (hP _ _ Ps E)) => [h|[_ ->]]; left => //; exists s.
Qed.

(** counting and the stopping rule *)
Definition small_diff (c : ms_check) : bool := xabs_lt (mc_difference c) (gl_tol p).
Lemma ms_loop_count todo it s cks last e : loop todo it s cks last = MOk e ->
  exists h, [/\ le_checks e = cks ++ h, le_iter e = (if h is [::] then last else Some (it + size h).-1),
    [/\ (size h <= todo)%N, ((0 < todo)%N -> h <> [::]) & (le_else e -> size h = todo)],
    [seq mc_iteration c | c <- h] = iota it (size h) &
    (le_else e = ~~ has small_diff h) /\ forall i c0, (i.+1 < size h)%N -> ~~ small_diff (nth c0 h i)].
Proof.
elim: todo it s cks last e => [|todo IH] it s cks last e /=.
  by case=> <-; exists [::]; rewrite cats0; split.
case: (step s) => [s'| |] //; set c := MCheck it _; case: ifP => hd.
  case=> <- /=; exists [:: c]; rewrite cats1 addn1; split=> //; split=> //=; by rewrite /small_diff hd.
move/IH => [h [e1 e2 [e3 e4 e5] e6 [e7 e8]]]; exists (c :: h); split=> //=.
- by rewrite e1 -cats1 -catA.
- by rewrite e2; case: (h) => [|c1 h1]; rewrite ?addn1 //= [in RHS]addnS.
- by split=> // /e5 ->.
- by rewrite e6.
- split; first by rewrite /small_diff hd.
  by case=> [|i] c0 hi; [rewrite /= /small_diff hd | exact: e8].
Qed.

Lemma ms_call r : missing_graphical_lasso eigh pinvh pinv X p = MOk r ->
  exists e it, [/\ loop (gl_max_iter p) 0 (ms_init N d) [::] None = MOk e, le_iter e = Some it &
    r = MResult (ms_K (le_state e)) (ms_emp (le_state e)) (filled X (ms_cs (le_state e)))
        (if gl_return_history p then Some (le_checks e) else None)
        (if gl_return_n_iter p then Some it else None) (le_else e)].
Proof.
rewrite /missing_graphical_lasso; case E: (loop _ _ _ _ _) => [e| |] //.
by case I: (le_iter e) => [it|] // [<-]; exists e, it.
Qed.

Hypothesis He : eigh_ok eigh.
Hypothesis pok : pinv_ok pinv.
Hypothesis r0 : 0 < gl_rho0 p.
Hypothesis ti : 0 < tau_inc (gl_rho_options p).
Hypothesis td : 0 < tau_dec (gl_rho_options p).

Lemma ms_step_sym s s' : (0 < gl_max_iter p)%N -> sym (ms_K s) -> step s = MOk s' -> sym (ms_K s').
Proof.
move=> m0 sK /ms_stepE [_ _ hE [g hg ->] _].
have sE := emp_sym pok sK hE.
by apply: (C12_symmetric He sE _ _ _ hg) => //; right.
Qed.

Lemma ms_source r : missing_graphical_lasso eigh pinvh pinv X p = MOk r ->
  exists K0 means0, let cs := compute_cs pinv means0 K0 X in
  [/\ sym K0, mr_filled r = filled X cs, compute_empirical_covariance pinv X K0 cs = Some (mr_emp r) &
      exists2 g, graphical_lasso eigh pinvh (mr_emp r) (inner_params p) (InitArray K0) = Ok g & mr_K r = gl_precision g].
Proof.
move=> /ms_call [e [it [hl hi ->]]] /=.
have m0 : (0 < gl_max_iter p)%N.
  by move: hl; case: (gl_max_iter p) => //= -[h]; rewrite -h in hi.
have [||[s0 [s1 hs]]|[h _]] := ms_loop_last (P := fun s => sym (ms_K s)) _ _ hl.
- by move=> s s' h; apply: ms_step_sym.
- exact: sym1.
- exists (ms_K s0), (ms_means s0); have [<- _ h2 h3 _] := ms_stepE hs; by split.
- by rewrite h in m0.
Qed.
End Loop.

(** * complete data *)
Section Complete.
Variables (N d : nat) (pinv : pinv_t) (X : mdata N d.+1) (M : 'M[R]_(N, d.+1)).
Hypothesis hX : forall i v, X i v = Some (M i v).
Lemma complete_filled K means i v : filled X (compute_cs pinv means K X) i v = M i v.
Proof. by apply: filled_obs (hX i v) _; apply: compute_cs_obs; rewrite hX. Qed.
Lemma complete_sum K means : emp_sum pinv X K (compute_cs pinv means K X) = M^T *m M.
Proof.
apply/matrixP => v s; rewrite !mxE; apply: eq_bigr => i _.
by rewrite hX /= !complete_filled mxE.
Qed.
Lemma complete_emp K means : compute_empirical_covariance pinv X K (compute_cs pinv means K X) =
  if np_amax (M^T *m M) == 0 then None else Some ((np_amax (M^T *m M))^-1 *: (M^T *m M)).
Proof. by rewrite /compute_empirical_covariance complete_sum. Qed.
End Complete.

Definition same_answer N N' d (r : ms_result N d) (r' : ms_result N' d) : Prop :=
  [/\ mr_K r = mr_K r', mr_emp r = mr_emp r', mr_history r = mr_history r', mr_n_iter r = mr_n_iter r' & mr_warned r = mr_warned r'].

Section Same.
Variables (N N' d : nat) (eigh : eigh_t d.+1) (pinvh : 'M[R]_d.+1 -> 'M[R]_d.+1) (pinv : pinv_t).
Variables (X : mdata N d.+1) (Y : mdata N' d.+1) (p : gl_params).
Hypothesis same : forall K means means', compute_empirical_covariance pinv X K (compute_cs pinv means K X) =
  compute_empirical_covariance pinv Y K (compute_cs pinv means' K Y).
Definition alike (s : ms_state N d.+1) (s' : ms_state N' d.+1) : Prop :=
  [/\ ms_K s = ms_K s', ms_loglik s = ms_loglik s' & ms_emp s = ms_emp s'].

Lemma alike_step s s' : alike s s' -> match ms_step eigh pinvh pinv X p s, ms_step eigh pinvh pinv Y p s' with
  | MOk t, MOk t' => alike t t' | MUnbound, MUnbound => True | MNotFinite, MNotFinite => True | _, _ => False end.
Proof.
case=> e1 _ _; rewrite /ms_step -e1 -(same (ms_K s) (ms_means s) (ms_means s')).
case: (compute_empirical_covariance _ _ _ _) => [emp|] //; by case: (graphical_lasso _ _ _ _ _).
Qed.
Lemma alike_loop todo : forall it s s' cks last, alike s s' ->
  match ms_loop eigh pinvh pinv X p todo it s cks last, ms_loop eigh pinvh pinv Y p todo it s' cks last with
  | MOk e, MOk e' => [/\ alike (le_state e) (le_state e'), le_checks e = le_checks e', le_iter e = le_iter e' & le_else e = le_else e']
  | MUnbound, MUnbound => True | MNotFinite, MNotFinite => True | _, _ => False end.
Proof.
elim: todo => [|todo IH] it s s' cks last h //=; have := alike_step h.
case: (ms_step _ _ _ X _ _) => [t| |]; case: (ms_step _ _ _ Y _ _) => [t'| |] // ha.
have [e1 e2 e3] := h; have [f1 f2 f3] := ha; rewrite -e2 -f2.
by case: ifP => _ //; exact: IH.
Qed.
Lemma alike_call : match missing_graphical_lasso eigh pinvh pinv X p, missing_graphical_lasso eigh pinvh pinv Y p with
  | MOk r, MOk r' => same_answer r r' | MUnbound, MUnbound => True | MNotFinite, MNotFinite => True | _, _ => False end.
Proof.
have := @alike_loop (gl_max_iter p) 0 (ms_init N d) (ms_init N' d) [::] None.
rewrite /missing_graphical_lasso => /(_ (And3 erefl erefl erefl)).
case: (ms_loop _ _ _ X _ _ _ _ _ _) => [e| |]; case: (ms_loop _ _ _ Y _ _ _ _ _ _) => [e'| |] //.
by case=> -[e1 e2 e3] e4 e5 e6; rewrite -e5; case: (le_iter e) => [it|] //; split=> //=; rewrite e4.
Qed.
End Same.

(** * when something is missing *)
Lemma emp_pos N d pinv (X : mdata N d.+1) K cs i v : pinv_ok pinv -> pd K -> isnan (X i v) -> 0 < emp_sum pinv X K cs v v.
Proof.
move=> pok pK hn; rewrite emp_sumE summxE (bigD1 i) //= ltr_spaddl //; last first.
  apply: sumr_ge0 => j _; apply: psd_diag_ge0; exact: psdD (psd_gram _) (cond_cov_psd X pok j pK).
rewrite mxE ltr_paddl //; first by apply: psd_diag_ge0; exact: psd_gram.
have [a ha] := nan_at hn; rewrite -inv_entryE /inv_entry -ha pick_at (proj1 pok) ?pd_unit //; last exact: block_pd.
rewrite -quad_delta; apply: (proj2 (pd_inv (block_pd (X i) pK))).
by apply/eqP => /matrixP /(_ a 0); rewrite !mxE !eqxx => /eqP; rewrite oner_eq0.
Qed.
Lemma emp_defined N d pinv (X : mdata N d.+1) K cs i v : pinv_ok pinv -> pd K -> isnan (X i v) ->
  exists E, compute_empirical_covariance pinv X K cs = Some E.
Proof.
move=> pok pK hn; rewrite /compute_empirical_covariance.
have h := lt_le_trans (emp_pos cs pok pK hn) (np_amax_ge _ v v).
by rewrite gt_eqF //; eexists.
Qed.

(** a row without observed entries is filled with the means *)
Lemma cs_row_all d pinv K means (x : 'I_d -> option R) v : (forall v, isnan (x v)) -> cs_row pinv K means x v = means v.
Proof.
move=> h; have [a <-] := nan_at (h v); rewrite /cs_row pick_at !mxE big1 ?subr0 // => b _.
by have := at_obss b; rewrite h.
Qed.

Section One.
Variables (N : nat) (eigh : eigh_t 1) (pinvh : 'M[R]_1 -> 'M[R]_1) (pinv : pinv_t) (X : mdata N 1) (p : gl_params).
Hypothesis He : eigh_ok eigh.
Hypothesis pok : pinv_ok pinv.
Hypothesis r0 : 0 < gl_rho0 p.
Hypothesis ti : 0 < tau_inc (gl_rho_options p).
Hypothesis td : 0 < tau_dec (gl_rho_options p).
Hypothesis ov : gl_over_relax p = 1.
Variables (i0 : 'I_N).
Hypothesis miss : X i0 0 = None.

Lemma pd_one (K : 'M[R]_1) : 0 < K 0 0 -> pd K.
Proof.
move=> k0; split; first by apply/matrixP => i j; rewrite mxE !ord1.
move=> v v0; rewrite quadE !big_ord1 -mulrA; apply: mulr_gt0 => //.
have h : v 0 0 != 0 by apply: contraNneq v0 => h; apply/eqP/matrixP=> i j; rewrite !ord1 h mxE.
by rewrite lt_neqAle eq_sym mulf_neq0 //= -expr2 sqr_ge0.
Qed.
Lemma step_one s : (0 < gl_max_iter p)%N -> 0 < ms_K s 0 0 ->
  exists s', ms_step eigh pinvh pinv X p s = MOk s' /\ 0 < ms_K s' 0 0.
Proof.
move=> m0 k0; have pK := pd_one k0; have hn : isnan (X i0 0) by rewrite miss.
have [E hE] := emp_defined (compute_cs pinv (ms_means s) (ms_K s) X) pok pK hn.
rewrite /ms_step hE; have [|g hg] := @gl_call_ok _ eigh pinvh E (inner_params p) (InitArray (ms_K s)); first by [].
rewrite hg; eexists; split; first by [].
have sE := emp_sym pok (proj1 pK) hE.
exact: (@C12_positive_diagonal _ eigh pinvh E (inner_params p) _ g He sE r0 ti td hg 0 m0 ov).
Qed.
Lemma cs_one means K i : X i 0 = None -> compute_cs pinv means K X i 0 = means 0 / np_max `|means 0| 1.
Proof.
move=> hi; have all j : X j 0 = None -> cs_row pinv K means (X j) 0 = means 0.
  by move=> hj; apply: cs_row_all => v; rewrite ord1 hj.
rewrite /compute_cs all //; congr (_ / np_max _ 1); apply/eqP; rewrite eq_le; apply/andP; split; last first.
  by have := max_abs_ge (fun i v => cs_row pinv K means (X i) v) i0 0; rewrite all.
have [h|[[j v] h]] := bigmax_in (index_enum [finType of 'I_N * 'I_1]) (fun iv => `|cs_row pinv K means (X iv.1) iv.2|) 0.
  by rewrite /max_abs h.
rewrite /max_abs h /= ord1; case E: (X j 0) => [y|]; last by rewrite all.
by rewrite cs_row_obs ?E // normr0.
Qed.
Lemma one_variable : gl_max_iter p = 2%N -> gl_tol p <= 0 ->
  exists2 r, missing_graphical_lasso eigh pinvh pinv X p = MOk r &
  forall i, X i 0 = None -> let t := \sum_j nan_to_num (X j 0) in mr_filled r i 0 = t / np_max `|t| 1.
Proof.
move=> m2 t0; have m0 : (0 < gl_max_iter p)%N by rewrite m2.
have nt x : xabs_lt x (gl_tol p) = false.
  by case: x => //= a; apply/negbTE; rewrite -leNgt; apply: le_trans t0 _.
have [|s1 [e1 k1]] := @step_one (ms_init N 0) m0; first by rewrite /= mxE ltr01.
have [s2 [e2 k2]] := step_one m0 k1.
rewrite /missing_graphical_lasso m2 /= e1 nt e2 nt; eexists; first by [].
move=> i hi /=; rewrite filled_nan //; have [-> _ _ _ _] := ms_stepE e2; rewrite cs_one //.
have [h1 -> _ _ _] := ms_stepE e1.
have -> : compute_mean X (ms_cs s1) 0 = \sum_j nan_to_num (X j 0) => //.
apply: eq_bigr => j _; rewrite /filled h1; case E: (X j 0) => [y|].
  by rewrite compute_cs_obs ?E // addr0.
by rewrite cs_one //= mul0r addr0.
Qed.
End One.
