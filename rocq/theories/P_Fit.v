(** Proofs about the estimator layer. *)
From Coq Require Import Reals.
From mathcomp Require Import all_ssreflect all_algebra.
From Verif Require Import RStruct RTac S_Mat NP M_Prox M_Loop M_GL M_LGL M_TGL M_Utils M_Fit S_Fit.
From Verif Require Import RMx P_Eigh P_GL2 P_TGL3 P_Scores.
Import Order.TTheory GRing.Theory Num.Theory.

Set Implicit Arguments.
Unset Strict Implicit.
Unset Printing Implicit Defensive.
Local Open Scope ring_scope.

Section Cov.
Variable n : nat.
Implicit Types X Y : seq 'rV[R]_n.

Lemma col_meanE X i : col_mean X 0 i = avg X (fun x => x 0 i).
Proof. by rewrite /col_mean /avg mxE summxE mulrC. Qed.

Lemma empcovE X c i j : empirical_covariance X c i j = cov_entry X c i j.
Proof.
rewrite /empirical_covariance /cov_entry /avg; case: c; rewrite mxE summxE mulrC; congr (_ * _);
  apply: eq_bigr => x _; rewrite mxE big_ord1 !mxE ?subr0 //.
by rewrite !summxE ![(size X)%:R^-1 * _]mulrC.
Qed.

Lemma outer_psd (v : 'rV[R]_n) : psd (v^T *m v).
Proof.
split; first by rewrite /sym trmx_mul trmxK.
move=> w; rewrite /quad mulmxA -mulmxA -trmx_mul mxE big_ord1 mxE -expr2; exact: sqr_ge0.
Qed.

Lemma sum_psd (I : Type) (r : seq I) (F : I -> 'M[R]_n) : (forall i, psd (F i)) -> psd (\sum_(i <- r) F i).
Proof. by move=> h; elim/big_rec: _ => [|i x _ px]; [apply: psd0 | apply: psdD]. Qed.

Lemma empcov_psd X c : psd (empirical_covariance X c).
Proof.
have p0 : (0 : R) <= (size X)%:R^-1 by rewrite invr_ge0 ler0n.
by rewrite /empirical_covariance; case: c; apply: psdZ => //; apply: sum_psd => x; apply: outer_psd.
Qed.

Lemma col_mean_perm X Y : perm_eq X Y -> col_mean X = col_mean Y.
Proof. by move=> h; rewrite /col_mean (perm_size h) (perm_big _ h). Qed.

Lemma empcov_perm X Y c : perm_eq X Y -> empirical_covariance X c = empirical_covariance Y c.
Proof.
by move=> h; rewrite /empirical_covariance (perm_size h) (col_mean_perm h); case: c; rewrite (perm_big _ h).
Qed.

Lemma sum_constl m (A : Type) (l : seq A) (v : 'M[R]_(m, n)) : \sum_(x <- l) v = (size l)%:R *: v.
Proof. by rewrite big_const_seq count_predT iter_addr_0 scaler_nat. Qed.

Lemma col_mean_shift X v : (0 < size X)%N -> col_mean [seq x + v | x <- X] = col_mean X + v.
Proof.
move=> X0; rewrite /col_mean size_map big_map big_split /= scalerDr; congr (_ + _).
by rewrite sum_constl scalerA mulVf ?scale1r // pnatr_eq0 -lt0n.
Qed.

Lemma empcov_shift X v : (0 < size X)%N ->
  empirical_covariance [seq x + v | x <- X] false = empirical_covariance X false.
Proof.
move=> X0; rewrite /empirical_covariance size_map col_mean_shift // big_map; congr (_ *: _).
by apply: eq_bigr => x _; rewrite opprD addrACA subrr addr0.
Qed.

(** covariance about the mean = second moment - outer product of the mean *)
Lemma empcov_moment X : (0 < size X)%N ->
  empirical_covariance X false = empirical_covariance X true - (col_mean X)^T *m col_mean X.
Proof.
move=> X0; rewrite /empirical_covariance.
have N0 : (size X)%:R != 0 :> R by rewrite pnatr_eq0 -lt0n.
set mu := col_mean X.
have e x : (x - mu)^T *m (x - mu) = x^T *m x - mu^T *m x - x^T *m mu + mu^T *m mu.
  have -> : (x - mu)^T = x^T - mu^T by rewrite linearB. rewrite mulmxBl !mulmxBr opprB -!addrA; congr (_ + _).
  by rewrite [RHS]addrCA addrA addrAC -!addrA; congr (_ + _); rewrite addrC.
have s : \sum_(x <- X) x = (size X)%:R *: mu by rewrite /mu /col_mean scalerA divff // scale1r.
rewrite (eq_bigr _ (fun x _ => e x)) !big_split /= !sumrN.
rewrite -mulmx_sumr -mulmx_suml.
have -> : \sum_(i <- X) i^T = (size X)%:R *: mu^T by rewrite -linear_sum s linearZ.
rewrite s sum_constl -scalemxAr -scalemxAl -addrA addNr addr0 scalerBr; congr (_ - _).
by rewrite scalerA mulVf // scale1r.
Qed.
End Cov.

Section Lab.
Variables (n : nat) (d : unit) (L : orderType d).
Implicit Types D : seq ('rV[R]_n * L).

Lemma npu_mem (y : seq L) : np_unique y =i y.
Proof. by move=> x; rewrite mem_sort mem_undup. Qed.
Lemma npu_uniq (y : seq L) : uniq (np_unique y).
Proof. by rewrite sort_uniq undup_uniq. Qed.
Lemma npu_sorted (y : seq L) : sorted <%O (np_unique y).
Proof.
rewrite lt_sorted_uniq_le npu_uniq /=; apply: sort_sorted; exact: le_total.
Qed.
Lemma npu_perm (y z : seq L) : perm_eq y z -> np_unique y = np_unique z.
Proof.
move=> h; apply/perm_sortP; try exact: le_total; try exact: le_trans; try exact: le_anti.
by apply: perm_undup; apply: perm_mem.
Qed.
Lemma npu_size0 (y : seq L) : (0 < size y)%N -> (0 < size (np_unique y))%N.
Proof. by case: y => // a y _; rewrite lt0n size_eq0; apply/eqP => h; have := npu_mem (a :: y) a; rewrite h !inE eqxx. Qed.

Lemma rows_of_perm D D' cl : perm_eq D D' -> perm_eq (rows_of D cl) (rows_of D' cl).
Proof. by move=> h; apply: perm_map; apply: perm_filter. Qed.
Lemma size_rows_of D cl : size (rows_of D cl) = count_mem cl (labels D).
Proof. by rewrite size_map size_filter count_map; apply: eq_count. Qed.

Lemma fit_perm solver c D D' : perm_eq D D' -> @time_fit n d L solver c D = time_fit solver c D'.
Proof.
move=> h; rewrite /time_fit (perm_size h).
have hl : perm_eq (labels D) (labels D') by apply: perm_map.
have hu := npu_perm hl.
have hc : np_unique_counts (labels D) = np_unique_counts (labels D').
  by rewrite /np_unique_counts hu; apply: eq_map => cl; apply/permP.
rewrite hu hc.
have -> : [seq if c then 0 else col_mean (rows_of D cl) | cl <- np_unique (labels D')] =
          [seq if c then 0 else col_mean (rows_of D' cl) | cl <- np_unique (labels D')].
  by apply: eq_map => cl; rewrite (col_mean_perm (rows_of_perm cl h)).
have -> // : [seq empirical_covariance (rows_of D cl) c | cl <- np_unique (labels D')] =
          [seq empirical_covariance (rows_of D' cl) c | cl <- np_unique (labels D')].
by apply: eq_map => cl; apply: empcov_perm; apply: rows_of_perm.
Qed.

Lemma counts_sum (y : seq L) : (\sum_(cl <- np_unique y) count_mem cl y = size y)%N.
Proof.
have -> : size y = (\sum_(x <- y) 1)%N by rewrite sum1_size.
rewrite (eq_bigr (fun cl => (\sum_(x <- y | x == cl) 1)%N)); last by move=> cl _; rewrite sum1_count.
rewrite (exchange_big_dep predT) //= [LHS]big_seq [RHS]big_seq; apply: eq_bigr => x xy.
rewrite -big_filter; have -> : [seq i <- np_unique y | x == i] = [:: x].
  rewrite (eq_filter (a2 := pred1 x)); last by move=> z; rewrite /= eq_sym.
  by rewrite filter_pred1_uniq ?npu_uniq // npu_mem.
by rewrite big_seq1.
Qed.

Lemma nth_of_stack m (K : stack n m.+1) (t : 'I_m.+1) : nth 0 (of_stack K) t = K t.
Proof. by rewrite (nth_map ord0) ?size_enum_ord // nth_ord_enum. Qed.
Lemma size_of_stack m (K : stack n m.+1) : size (of_stack K) = m.+1.
Proof. by rewrite size_map size_enum_ord. Qed.

(** what the solver receives *)
Lemma fit_solver solver c D f x0 : @time_fit n d L solver c D = Val f ->
  exists m (S : stack n m.+1) (ns : 'I_m.+1 -> R) r,
  [/\ solver m S ns = Ok r, tf_precision f = of_stack (tgl_precision r),
      tf_covariance f = of_stack (tgl_covariance r) & tf_warned f = tgl_warned r] /\
  [/\ size (tf_classes f) = m.+1,
      \sum_t ns t = (size D)%:R,
      forall t, 0 < ns t,
      forall t, ns t = (count (fun r => r.2 == nth x0 (tf_classes f) t) D)%:R &
      forall t i j, S t i j = cov_entry [seq r.1 | r <- D & r.2 == nth x0 (tf_classes f) t] c i j].
Proof.
rewrite /time_fit; case: ifP => // /negbT; rewrite negb_or => /andP [_ D0].
set cls := np_unique (labels D); set m := (size cls).-1.
have m1 : m.+1 = size cls by rewrite prednK // npu_size0 // size_map lt0n.
case E: (solver _ _ _) => [r|] // [<-] /=.
eexists m, _, _, r; split; first by split; [exact: E|..].
have nc t : (t < m.+1)%N -> nth 0%N (np_unique_counts (labels D)) t = count_mem (nth x0 cls t) (labels D).
  by move=> tm; rewrite (nth_map x0) // -m1.
split=> //.
- rewrite (eq_bigr (fun t : 'I_m.+1 => (count_mem (nth x0 cls t) (labels D))%:R)); last by move=> t _; rewrite nc.
  rewrite -(natr_sum _ _ predT) -[size D](size_map snd) -/(labels D) -(counts_sum (labels D)).
  by rewrite (big_nth x0) -/cls -m1 big_mkord.
- move=> t; rewrite nc // ltr0n -has_count has_pred1 -npu_mem; apply: mem_nth; by rewrite -m1.
- by move=> t; rewrite nc // count_map; congr (_%:R); apply: eq_count.
- by move=> t i j; rewrite ffunE (nth_map x0) -?m1 // empcovE.
Qed.

(** score as a sum over the rows of the test set *)
Lemma sum_const_cond (A : Type) (l : seq A) (P : pred A) (v : R) : \sum_(x <- l | P x) v = v *+ count P l.
Proof. by rewrite big_const_seq iter_addr_0. Qed.

Lemma foldl_xadd (A : Type) (l : seq A) (F : A -> R) a :
  foldl xadd (Fin a) [seq Fin (F x) | x <- l] = Fin (a + \sum_(x <- l) F x).
Proof. by elim: l a => [|x l IH] a /=; rewrite ?big_nil ?addr0 // IH big_cons addrA. Qed.

Lemma fdot_outer (K : 'M[R]_n) (x : 'rV[R]_n) : fdot (x^T *m x) K = quad K x^T.
Proof.
rewrite /quad trmxK fdotE trmx_mul trmxK -mulmxA mxtrace_mulC.
by rewrite mulmxA mxtrace_mulC /mxtrace big_ord1.
Qed.

Lemma row_class_sum (cls : seq L) (F : 'rV[R]_n * L -> R) D : uniq cls ->
  \sum_(cl <- cls) \sum_(r <- D | r.2 == cl) F r = \sum_(r <- D | r.2 \in cls) F r.
Proof.
move=> u; rewrite [LHS]big_seq (exchange_big_dep (fun r : ('rV[R]_n * L)%type => r.2 \in cls)) /=; last first.
  by move=> cl r hc /eqP ->.
apply: eq_bigr => r rc; rewrite -big_filter.
have -> : [seq i <- cls | (i \in cls) && (r.2 == i)] = [:: r.2].
  rewrite (eq_filter (a2 := pred1 r.2)); last first.
    by move=> z /=; rewrite [r.2 == z]eq_sym; case: eqP => [->|]; rewrite ?rc ?andbF.
  by rewrite filter_pred1_uniq.
by rewrite big_seq1.
Qed.

Definition row_ll (f : time_fitted n L) (r : 'rV[R]_n * L) : R :=
  let k := index r.2 (tf_classes f) in
  ln (\det (nth 0 (tf_precision f) k)) - quad (nth 0 (tf_precision f) k) (r.1 - nth 0 (tf_location f) k)^T.

Lemma score_rows f D s : uniq (tf_classes f) -> size (tf_location f) = size (tf_classes f) ->
  size (tf_precision f) = size (tf_classes f) ->
  (forall k, (k < size (tf_classes f))%N -> 0 < \det (nth 0 (tf_precision f) k)) ->
  tgl_score f D = Val s -> s = Fin (\sum_(r <- D | r.2 \in tf_classes f) row_ll f r).
Proof.
move=> u sl sp pdet; rewrite /tgl_score; case: ifP => // /negbT; rewrite !negb_or => /andP [_ /hasPn hne] [<-].
set l := map _ _.
have -> : l = [seq Fin (\sum_(r <- D | r.2 == cl) row_ll f r) | cl <- tf_classes f].
  have sz : size (zip (tf_classes f) (tf_location f)) = size (tf_classes f) by rewrite size1_zip ?sl.
  have szc : size l = size (tf_classes f).
    by rewrite /l size_map !size_zip !size_map sz sp !minnn.
  apply: (@eq_from_nth _ NaN); first by rewrite size_map.
  rewrite szc => k kc.
  have x0 : L by move: kc; case: (tf_classes f) => // x0.
  have cD : nth x0 (tf_classes f) k \in tf_classes f by apply: mem_nth.
  have ne := hne _ cD.
  have ss : size (zip [seq empirical_covariance [seq x - cm.2 | x <- rows_of D cm.1] true
                  | cm <- zip (tf_classes f) (tf_location f)] (tf_precision f)) = size (tf_classes f).
    by rewrite size_zip size_map sz sp minnn.
  rewrite (nth_map (((0 : 'M[R]_n), (0 : 'M[R]_n)), x0)); last by rewrite size_zip ss minnn.
  rewrite nth_zip // nth_zip /=; last by rewrite size_map sz sp.
  rewrite (nth_map (x0, (0 : 'rV[R]_n))) ?sz // nth_zip ?sl //= (nth_map x0) //.
  set cl := nth x0 _ k; set mu := nth 0 _ k; set K := nth 0 _ k.
  have -> : log_likelihood (empirical_covariance [seq x - mu | x <- rows_of D cl] true) K =
    Fin (ln (\det K) - fdot (empirical_covariance [seq x - mu | x <- rows_of D cl] true) K).
    by rewrite /log_likelihood /fast_logdet pdet.
  rewrite /=; congr Fin.
  have N0 : (size (rows_of D cl))%:R != 0 :> R by rewrite pnatr_eq0.
  rewrite /empirical_covariance size_map fdotZl mulrBr mulrA divff // mul1r big_map /rows_of.
  rewrite size_map size_filter mulr_natl.
  rewrite big_map big_filter.
  have -> : fdot (\sum_(i <- D | i.2 == cl) (i.1 - mu)^T *m (i.1 - mu)) K =
            \sum_(i <- D | i.2 == cl) quad K (i.1 - mu)^T.
    by rewrite fdotC fdot_sumr; apply: eq_bigr => r _; rewrite fdotC fdot_outer.
  rewrite -(sum_const_cond D) -sumrB; apply: eq_bigr => r /eqP rc; rewrite /row_ll rc /cl index_uniq //.
by rewrite foldl_xadd add0r row_class_sum.
Qed.
End Lab.

Section Relabel.
Variables (n : nat) (d d' : unit) (L : orderType d) (L' : orderType d') (g : L -> L').
Hypothesis mono_g : {mono g : x y / (x <= y)%O}.
Implicit Types D : seq ('rV[R]_n * L).
Definition relabel_rows D : seq ('rV[R]_n * L') := [seq (r.1, g r.2) | r <- D].
Definition relabel_fitted (f : time_fitted n L) : time_fitted n L' :=
  TimeFitted [seq g cl | cl <- tf_classes f] (tf_location f) (tf_precision f) (tf_covariance f)
    (tf_history f) (tf_n_iter f) (tf_warned f).

Lemma g_inj : injective g.
Proof. by move=> x y e; apply: le_anti; rewrite -!mono_g e !lexx. Qed.

Lemma npu_map (y : seq L) : np_unique [seq g x | x <- y] = [seq g x | x <- np_unique y].
Proof.
apply: lt_sorted_eq; first exact: npu_sorted.
  apply: (homo_sorted (e := <%O)); last exact: npu_sorted.
  by move=> x z; rewrite !lt_neqAle mono_g (inj_eq g_inj).
move=> x; rewrite npu_mem; apply/mapP/mapP => -[z hz ->]; exists z => //; by move: hz; rewrite npu_mem.
Qed.
Lemma labels_relabel D : labels (relabel_rows D) = [seq g x | x <- labels D].
Proof. by rewrite /labels /relabel_rows -!map_comp. Qed.
Lemma rows_relabel D cl : rows_of (relabel_rows D) (g cl) = rows_of D cl.
Proof.
rewrite /rows_of /relabel_rows filter_map -map_comp.
by congr map; apply: eq_filter => r /=; rewrite (inj_eq g_inj).
Qed.
Lemma fit_relabel solver c D :
  time_fit solver c (relabel_rows D) =
  match time_fit solver c D with Val f => Val (relabel_fitted f) | Raise e => Raise e end.
Proof.
rewrite /time_fit size_map; case: ifP => // _.
rewrite labels_relabel npu_map size_map.
have -> : np_unique_counts [seq g x | x <- labels D] = np_unique_counts (labels D).
  rewrite /np_unique_counts npu_map -map_comp; apply: eq_map => cl /=; rewrite count_map.
  by apply: eq_count => x /=; rewrite (inj_eq g_inj).
have e1 (T : Type) (F G : _ -> T) : (forall cl, F (g cl) = G cl) ->
    [seq F cl | cl <- [seq g x | x <- np_unique (labels D)]] = [seq G cl | cl <- np_unique (labels D)].
  by move=> h; rewrite -map_comp; apply: eq_map.
rewrite (e1 _ _ (fun cl => if c then 0 else col_mean (rows_of D cl))); last by move=> cl; rewrite rows_relabel.
rewrite (e1 _ _ (fun cl => empirical_covariance (rows_of D cl) c)); last by move=> cl; rewrite rows_relabel.
by case: (solver _ _ _).
Qed.
End Relabel.

Section DA.
Variables (n : nat) (d : unit) (L : orderType d).
Implicit Types D : seq ('rV[R]_n * L).

Lemma da_count D x0 k : (k < size (np_unique (labels D)))%N ->
  count (fun r : ('rV[R]_n * nat)%type => r.2 == k) (da_inverse D) =
  count (fun r => r.2 == nth x0 (np_unique (labels D)) k) D.
Proof.
move=> kc; rewrite count_map; apply: eq_in_count => r rD /=.
have rc : r.2 \in np_unique (labels D) by rewrite npu_mem; apply: map_f.
apply/eqP/eqP => [<-|->]; first by rewrite nth_index.
by rewrite index_uniq ?npu_uniq.
Qed.

Lemma da_ok priors D : (1 < size (np_unique (labels D)))%N ->
  (forall cl, cl \in labels D -> (1 < count_mem cl (labels D))%N) ->
  exists pr, da_prepare priors D = Val (np_unique (labels D), pr, da_inverse D).
Proof.
move=> c2 h; rewrite /da_prepare.
have -> : (size D == 0)%N = false by move: c2; case: D {h}.
rewrite ltnNge c2 /=; case: ifP => [/hasP [k]|_]; last by eexists.
rewrite mem_iota add0n => /andP [_ kc].
have x0 : L by move: kc; case: (np_unique _) => // x0.
rewrite (da_count x0) // => /eqP e.
have := h (nth x0 (np_unique (labels D)) k); rewrite -npu_mem mem_nth // => /(_ isT).
by rewrite count_map (eq_count (a2 := fun r => r.2 == nth x0 (np_unique (labels D)) k)) // e.
Qed.

Lemma da_val priors D cls pr Dn : da_prepare priors D = Val (cls, pr, Dn) ->
  [/\ cls = np_unique (labels D), Dn = da_inverse D, (1 < size cls)%N,
      forall k, (k < size cls)%N -> count (fun r : ('rV[R]_n * nat)%type => r.2 == k) Dn != 1%N &
      pr = match priors with
                 | None => [seq (count (fun r : ('rV[R]_n * nat)%type => r.2 == k) Dn)%:R / (size D)%:R
                           | k <- iota 0 (size cls)]
                 | Some q => q end].
Proof.
rewrite /da_prepare; case: ifP => // _; case: ifP => // /negbT; rewrite -leqNgt => c2.
case: ifP => // /negbT /hasPn h [<- <- <-]; split=> // k kc; apply: h; by rewrite mem_iota add0n.
Qed.

Lemma da_priors D cls pr Dn x0 : da_prepare None D = Val (cls, pr, Dn) ->
  [/\ size pr = size cls,
      forall k, (k < size cls)%N -> 0 < nth 0 pr k,
      \sum_(q <- pr) q = 1 &
      forall k, (k < size cls)%N ->
        nth 0 pr k = (count (fun r => r.2 == nth x0 cls k) D)%:R / (size D)%:R].
Proof.
move=> /da_val [-> -> c2 _ ->].
set cls' := np_unique (labels D) in c2 *.
have e : [seq (count (fun r : ('rV[R]_n * nat)%type => r.2 == k) (da_inverse D))%:R / (size D)%:R | k <- iota 0 (size cls')] =
         [seq (count (fun r => r.2 == nth x0 cls' k) D)%:R / (size D)%:R : R | k <- iota 0 (size cls')].
  by apply/eq_in_map => k; rewrite mem_iota add0n => /andP [_ kc]; rewrite (da_count x0).
have N0 : (0 < size D)%N.
  by case: D @cls' c2 {e}.
rewrite e; split.
- by rewrite size_map size_iota.
- move=> k kc; rewrite (nth_map 0%N) ?size_iota // nth_iota // add0n.
  apply: divr_gt0; rewrite ltr0n // -has_count.
  have : nth x0 cls' k \in labels D by rewrite -npu_mem mem_nth.
  by move=> /mapP [r rD ->]; apply/hasP; exists r => /=.
- rewrite big_map -mulr_suml -natr_sum -[size D](size_map snd) -/(labels D) -(counts_sum (labels D)).
  rewrite -/cls' [in X in _ / X](big_nth x0) -[in iota 0 _](subn0 (size cls')) -/(index_iota 0 (size cls')).
  rewrite (eq_bigr (fun k => count_mem (nth x0 cls' k) (labels D))); last first.
    by move=> k _; rewrite count_map; apply: eq_count.
  rewrite divff // pnatr_eq0 -(big_nth x0 predT (fun cl => count_mem cl (labels D))) counts_sum size_map -lt0n //.
- by move=> k kc; rewrite (nth_map 0%N) ?size_iota // nth_iota // add0n.
Qed.

Lemma da_perm priors D E : perm_eq D E ->
  match da_prepare priors D, da_prepare priors E with
  | Val (cls, pr, D'), Val (cls', pr', E') => [/\ cls = cls', pr = pr' & perm_eq D' E']
  | Raise e, Raise e' => e = e'
  | _, _ => False
  end.
Proof.
move=> h; rewrite /da_prepare (perm_size h); case: ifP => // _.
have hu : np_unique (labels D) = np_unique (labels E) by apply: npu_perm; apply: perm_map.
have hp : perm_eq (da_inverse D) (da_inverse E) by rewrite /da_inverse hu; apply: perm_map.
rewrite hu; case: ifP => // _.
have hc k : count (fun r : ('rV[R]_n * nat)%type => r.2 == k) (da_inverse D) =
            count (fun r : ('rV[R]_n * nat)%type => r.2 == k) (da_inverse E) by apply/permP.
rewrite (eq_has (a2 := fun k => count (fun r : ('rV[R]_n * nat)%type => r.2 == k) (da_inverse E) == 1%N));
  last by move=> k /=; rewrite hc.
case: ifP => // _; split=> //; case: priors => //.
by apply: eq_map => k; rewrite hc.
Qed.
End DA.

Section Score.
Variables (n : nat) (d : unit) (L : orderType d).
Implicit Types D : seq ('rV[R]_n * L).

Lemma fit_shape solver c D f : @time_fit n d L solver c D = Val f ->
  [/\ tf_classes f = np_unique (labels D), uniq (tf_classes f),
      size (tf_location f) = size (tf_classes f) & size (tf_precision f) = size (tf_classes f)].
Proof.
rewrite /time_fit; case: ifP => // /negbT; rewrite negb_or => /andP [_ D0].
case E: (solver _ _ _) => [r|] // [<-] /=; split; rewrite ?npu_uniq //; first by rewrite size_map.
by rewrite size_of_stack prednK // npu_size0 // size_map lt0n.
Qed.

Lemma fit_score solver c D0 f D s : @time_fit n d L solver c D0 = Val f ->
  (forall K, K \in tf_precision f -> pd K) -> tgl_score f D = Val s ->
  s = Fin (\sum_(r <- D | r.2 \in labels D0)
    (2%:R * gauss_logpdf (nth 0 (tf_precision f) (index r.2 (tf_classes f)))
             (nth 0 (tf_location f) (index r.2 (tf_classes f))) r.1 + n%:R * ln (2%:R * PI))).
Proof.
move=> /fit_shape [ec u sl sp] hpd hs.
rewrite (score_rows u sl sp _ hs); last by move=> k kc; apply: pd_det_gt0; apply: hpd; rewrite mem_nth // sp.
congr Fin; rewrite (eq_bigl (fun r => r.2 \in labels D0)); last by move=> r; rewrite ec npu_mem.
apply: eq_bigr => r _; rewrite /row_ll /gauss_logpdf; set a := ln _; set b := quad _ _; set e := ln _.
by mcfield.
Qed.

Lemma fit_centered solver c D f x0 k : @time_fit n d L solver c D = Val f -> (k < size (tf_classes f))%N ->
  nth 0 (tf_location f) k = if c then 0 else col_mean (rows_of D (nth x0 (tf_classes f) k)).
Proof.
rewrite /time_fit; case: ifP => // _; case: (solver _ _ _) => [r|] // [<-] /= kc.
by rewrite (nth_map x0).
Qed.

Lemma score_perm (f : time_fitted n L) D D' : perm_eq D D' -> tgl_score f D = tgl_score f D'.
Proof.
move=> h; rewrite /tgl_score (perm_size h).
have hs cl : size (rows_of D cl) = size (rows_of D' cl) by apply: perm_size; apply: rows_of_perm.
rewrite (eq_has (a2 := fun cl => size (rows_of D' cl) == 0%N)); last by move=> cl /=; rewrite hs.
case: ifP => // _; congr (Val (foldl _ _ _)).
have -> : [seq empirical_covariance [seq x - cm.2 | x <- rows_of D cm.1] true | cm <- zip (tf_classes f) (tf_location f)] =
  [seq empirical_covariance [seq x - cm.2 | x <- rows_of D' cm.1] true | cm <- zip (tf_classes f) (tf_location f)].
  by apply: eq_map => cm; apply: empcov_perm; apply: perm_map; apply: rows_of_perm.
by apply: eq_map => skc; rewrite hs.
Qed.
End Score.

Section EndToEnd.
Variable n : nat.
Lemma gl_fit_struct (eigh : eigh_t n) pinvh p init c X f : eigh_ok eigh -> 0 < gl_rho0 p ->
  0 < tau_inc (gl_rho_options p) -> 0 < tau_dec (gl_rho_options p) -> (0 < gl_max_iter p)%N ->
  gl_over_relax p = 1 -> gl_fit eigh pinvh p init c X = Val f ->
  sym (gf_precision f) /\ forall i, 0 < gf_precision f i i.
Proof.
move=> he r0 ti td m0 ov; rewrite /gl_fit; case: ifP => // _.
set p' := GLParams _ _ _ _ _ _ _ _ _ _.
case E: graphical_lasso => [r|] // [<-] /=.
have sS := psd_sym (empcov_psd X c).
split; last by move=> i; apply: (@gl_top_diag _ _ _ _ p' _ _ he sS _ _ _ E).
by apply: (@gl_top_sym _ _ _ _ p' _ _ he sS _ _ _ E) => //; left.
Qed.

Lemma tgl_fit_struct d (L : orderType d) (eigh : eigh_t n) pinvh psi prox p init c (D : seq ('rV[R]_n * L)) f :
  eigh_ok eigh -> (forall a lam, sym a -> sym (prox a lam)) -> 0 < tgl_rho0 p ->
  0 < tau_inc (tgl_rho_options p) -> 0 < tau_dec (tgl_rho_options p) -> (0 < tgl_max_iter p)%N ->
  tgl_fit eigh pinvh (PsiPlain psi prox) p init c D = Val f ->
  forall K, K \in tf_precision f -> sym K.
Proof.
move=> he sp r0 ti td m0 hf K hK.
have x0 : L.
  move: hf; rewrite /tgl_fit /time_fit; case: ifP => // /negbT; rewrite negb_or => /andP [_].
  by case: D => // r _ _ _; exact: r.2.
have [m [S [ns [r [[hr eK _ _] [_ _ ns0 _ hS]]]]]] := fit_solver x0 hf.
move: hK; rewrite eK => /mapP [t _ ->].
have sS : S_TGL.slices (@sym n) S.
  by move=> u; apply/matrixP => i j; rewrite mxE !hS -!empcovE -[in RHS](psd_sym (empcov_psd _ c)) [RHS]mxE.
exact: (@tgl_top_sym _ _ _ _ _ _ _ _ _ _ _ he sS _ sp _ _ _ _ hr).
Qed.
End EndToEnd.
