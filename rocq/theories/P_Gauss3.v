(** Generators of precision matrices: the starting matrices and their evolution. *)
From Coq Require Import Reals String.
From mathcomp Require Import all_ssreflect all_algebra.
From Verif Require Import RStruct RTac NP Str S_Mat RMx Spectral S_Utils M_Utils P_Utils2 M_Ising P_Ising7 M_Gauss P_Gauss P_Gauss2.
Import Order.TTheory GRing.Theory Num.Theory.

Set Implicit Arguments.
Unset Strict Implicit.
Unset Printing Implicit Defensive.
Local Open Scope ring_scope.

Definition nonneg m n (A : 'M[R]_(m, n)) : Prop := forall i j, 0 <= A i j.
(** np.random.choice(l, n) on a non-empty list *)
Definition choice_ok p (choice : 'I_p -> seq 'I_p -> nat -> seq 'I_p) : Prop :=
  forall i l n, l != [::] -> {subset choice i l n <= l} /\ size (choice i l n) = n.

Lemma cholE (chol : chol_t) n (A : 'M[R]_n) : chols_ok chol -> pd A -> is_pos_def (chol n) A.
Proof. by move=> c d; rewrite /is_pos_def; apply/(c n A (pd_sym d)). Qed.
Lemma cholP (chol : chol_t) n (A : 'M[R]_n) : chols_ok chol -> sym A -> is_pos_def (chol n) A -> pd A.
Proof. by move=> c s; rewrite /is_pos_def => /(c n A s). Qed.
Lemma cholN (chol : chol_t) n (A : 'M[R]_n) : chols_ok chol -> sym A -> ~ pd A -> is_pos_def (chol n) A = false.
Proof. by move=> c s d; apply/negP => /(cholP c s). Qed.
Lemma gram_sym m n (K : 'M[R]_(m, n)) : sym (K^T *m K).
Proof. by rewrite /sym trmx_mul trmxK. Qed.
Lemma gram_psd m n (K : 'M[R]_(m, n)) : psd (K^T *m K).
Proof.
split=> [|v]; first exact: gram_sym.
by rewrite /quad mulmxA -mulmxA -trmx_mul mxE; apply: sumr_ge0 => i _; rewrite mxE -expr2 sqr_ge0.
Qed.
Lemma psd_semidef (eigh : eigh_t) n (A : 'M[R]_n) : eighs_ok eigh -> psd A -> is_pos_semidef eigh A tol15.
Proof.
move=> e [s q]; apply/forallP => i; have := e n A s; case: (eigh n A) => es Q [o AE] /=.
have oQ : orthogonal Q^T by rewrite /orthogonal trmxK.
have oQ' : orthogonal Q by rewrite -(trmxK Q); exact: orthogonal_tr.
have P : psd (sconj Q es) by rewrite /sconj -AE.
by case: ifP => // _; exact: (psd_spectrum oQ' P).
Qed.

(** * the plain start *)
Section Plain.
Variables (p degree : nat) (choice : 'I_p -> seq 'I_p -> nat -> seq 'I_p).
Hypothesis ch : choice_ok choice.
Let w : R := 1 / 2%:R / degree%:R.
Definition plain_inv (A : 'M[R]_p) : Prop :=
  [/\ sym A, forall i, A i i = 1, forall i j, i != j -> A i j = 0 \/ A i j = w & forall i, (nnz A i <= degree.+1)%N].
Lemma plain_step A i : plain_inv A ->
  plain_inv (let l := possible_idx degree A i in let n_choice := (degree.+1 - nnz A i)%N in
    if (l == [::]) || (n_choice == 0%N) then A else set_cross A i (choice i l n_choice) w).
Proof.
case=> s d t n /=; case: ifP => // /negbT; rewrite negb_or => /andP [l0 n0].
set l := possible_idx _ _ _ in l0 *; set c := choice _ _ _.
have [sub sz] := ch i (degree.+1 - nnz A i)%N l0; rewrite -/c in sub sz.
have inl j : j \in c -> (A i j == 0) /\ (nnz A j <= degree)%N.
  by move/sub; rewrite mem_filter => /andP [/andP []].
have nic : i \notin c by apply/negP => /inl []; rewrite d oner_eq0.
split.
- exact: cross_sym.
- by move=> j; rewrite mxE; case: eqP => [->|_] //=; rewrite (negbTE nic) /= ?andbF // d.
- by move=> a b ab; rewrite mxE; case: ifP => _; [right | exact: t].
- move=> k; case: (eqVneq k i) => [->|ki].
    apply: (@leq_trans (#|[set j | A i j != 0%R]| + #|[set j in c]|)%N).
      apply: leq_trans (leq_card_setU _ _); apply: subset_leq_card; apply/subsetP => j; rewrite !inE mxE eqxx /=.
      by case: (j \in c); rewrite ?orbT //= (negbTE nic) andbF orbF.
    rewrite -/(nnz A i); apply: (@leq_trans (nnz A i + (degree.+1 - nnz A i))%N); last by rewrite subnKC.
    by rewrite leq_add2l -sz cardsE card_size.
  have [kc|kc] := boolP (k \in c); last first.
    by apply: leq_trans (n k); apply: nnz_mono => j; rewrite mxE (negbTE ki) (negbTE kc) andbF.
  have [_ nk] := inl _ kc.
  apply: (@leq_trans (#|[set j | A k j != 0%R]| + #|[set i]|)%N); last by rewrite cards1 addn1.
  apply: leq_trans (leq_card_setU _ _); apply: subset_leq_card; apply/subsetP => j; rewrite !inE mxE (negbTE ki) /= kc andbT.
  by case: (j == i); rewrite ?orbT ?orbF.
Qed.
Lemma plain_ok : plain_inv (start_plain degree choice).
Proof.
rewrite /start_plain; set f := (X in foldl X _ _).
have : plain_inv 1%:M.
  split; [exact: sym1 | by move=> i; rewrite mxE eqxx | by move=> i j ij; left; rewrite mxE (negbTE ij) |].
  move=> i; apply: (@leq_trans #|[set i]|); last by rewrite cards1.
  by apply: subset_leq_card; apply/subsetP => j; rewrite !inE mxE (eq_sym i); case: (j == i); rewrite ?eqxx.
elim: (enum 'I_p) (1%:M : 'M[R]_p) => [|i l IH] A inv //=; exact: IH (plain_step i inv).
Qed.
Lemma plain_row A i : plain_inv A -> \sum_(j | j != i) `|A i j| <= 1 / 2%:R.
Proof.
case=> s d t n; have w0 : 0 <= w by rewrite /w; apply: divr_ge0; rewrite ?ler0n //; mclra.
have le1 : \sum_(j | j != i) `|A i j| <= \sum_(j | j != i) (A i j != 0)%:R * w.
  apply: ler_sum => j ji; have ij : i != j by rewrite eq_sym.
  case: (t i j ij) => ->; rewrite ?eqxx ?normr0 ?mul0r // ger0_norm //.
  by case: eqP => [->|_]; rewrite ?mul0r ?mul1r.
apply: le_trans le1 _; rewrite -mulr_suml -natr_sum.
have cnt : (\sum_(j | j != i) (A i j != 0%R) <= degree)%N.
  have e : nnz A i = (\sum_j (A i j != 0%R))%N by rewrite /nnz -sum1dep_card big_mkcond; apply: eq_bigr => j _; case: (_ != _).
  by have := n i; rewrite e (bigD1 i) //= d oner_eq0.
case: (posnP degree) => [d0|dp].
  by move: cnt; rewrite d0 leqn0 => /eqP ->; rewrite mul0r; apply: divr_ge0; rewrite ?ler01 ?ler0n.
apply: (@le_trans _ _ (degree%:R * w)); first by rewrite ler_wpmul2r // ler_nat.
by rewrite /w mulrC divfK // pnatr_eq0 -lt0n.
Qed.
Lemma plain_pd A : plain_inv A -> pd A.
Proof.
move=> h; have [s d _ _] := h; apply: diag_dom_pd => // i; rewrite d; apply: le_lt_trans (plain_row i h) _; mclra.
Qed.
Lemma plain_nonneg A : plain_inv A -> nonneg A.
Proof.
case=> _ d t _ i j; case: (eqVneq i j) => [->|ij]; first by rewrite d ler01.
by case: (t i j ij) => ->; rewrite // /w; apply: divr_ge0; rewrite ?ler0n //; mclra.
Qed.
End Plain.

(** strict diagonal dominance of non-negative matrices *)
Definition dominant p (A : 'M[R]_p) : Prop := forall i, \sum_(j | j != i) `|A i j| < A i i.

Section Normalized.
Variables (p degree : nat) (choice : 'I_p -> seq 'I_p -> nat -> seq 'I_p).
Lemma normalized_ok : exists2 A : 'M[R]_p, start_normalized degree choice = IOk A & [/\ sym A, nonneg A & dominant A].
Proof.
rewrite /start_normalized; set f := (X in foldl X _ _).
have w0 : 0 <= 1 / degree%:R :> R by apply: divr_ge0; rewrite ?ler01 ?ler0n.
have H : forall l (A : 'M[R]_p) ind, sym A -> nonneg A -> (ind = None -> A = 0) ->
    exists2 B, (exists ind', foldl f (IOk (A, ind)) l = IOk (B, ind')) & sym B /\ nonneg B.
  elim=> [|i l IH] A ind s nn z /=; first by exists A => //; exists ind.
  case: ifP => [_|_]; first exact: IH.
  case: ifP => n0.
    case: ind z => [ixs|] z.
      by apply: IH => // [|a b]; [exact: cross_sym | rewrite mxE; case: ifP].
    move: n0; rewrite (z erefl) /nnz (_ : [set j | _] = set0) ?cards0 //.
    by apply/setP => j; rewrite !inE mxE eqxx.
  by apply: IH => // [|a b]; [exact: cross_sym | rewrite mxE; case: ifP].
have [||B [ind ->] [s nn]] := H (enum 'I_p) 0 None (sym0 p); rewrite ?mxE //; first by move=> i j; rewrite mxE.
eexists; first reflexivity.
have r0 i : 0 < \sum_j B i j + 2%:R / 1000%:R.
  by apply: ltr_paddl; [apply: sumr_ge0 => j _; exact: nn | apply: divr_gt0; rewrite ltr0n].
split.
- by apply/symP => i j; rewrite !mxE eq_sym; case: eqP => [->|] // _; exact: (proj1 (symP _) s).
- by move=> i j; rewrite mxE; case: eqP => // _; exact: ltW.
- move=> i; rewrite [X in _ < X]mxE eqxx.
  rewrite (eq_bigr (fun j => B i j)); last by move=> j ji; rewrite mxE eq_sym (negbTE ji) ger0_norm.
  rewrite [X in _ < X + _](bigD1 i) //= -addrA addrCA ltr_addl; apply: ltr_paddl => //.
  by apply: divr_gt0; rewrite ltr0n.
Qed.
End Normalized.

(** * repairs *)
Section Repair.
Variable chol : chol_t.
Hypothesis cok : chols_ok chol.
Variable p : nat.
Implicit Types A L : 'M[R]_p.
Lemma rowsum_off A eps i j : i != j -> repair_rowsum chol A eps i j = A i j.
Proof. by move=> ij; rewrite /repair_rowsum; case: ifP => // _; rewrite !mxE (negbTE ij) mulr0n addr0. Qed.
Lemma rowsum_ok A eps : sym A -> nonneg A -> 0 < eps ->
  [/\ sym (repair_rowsum chol A eps), nonneg (repair_rowsum chol A eps) & pd (repair_rowsum chol A eps)].
Proof.
move=> s nn e0; rewrite /repair_rowsum; case: ifP => [h|_]; first by split=> //; exact: cholP h.
have s' : sym (A + diag_mx (\row_i (\sum_j A i j + eps))) by apply: symD => //; exact: sym_diag.
have r0 i : 0 <= \sum_j A i j by apply: sumr_ge0 => j _; exact: nn.
have nn' : nonneg (A + diag_mx (\row_i (\sum_j A i j + eps))).
  by move=> i j; rewrite !mxE; apply: addr_ge0 => //; apply: mulrn_wge0; apply: addr_ge0 => //; exact: ltW.
split=> //; apply: diag_dom_pd => // i.
rewrite (eq_bigr (fun j => A i j)); last by move=> j ji; rewrite !mxE eq_sym (negbTE ji) mulr0n addr0 ger0_norm.
rewrite !mxE eqxx mulr1n [X in _ < _ + (X + _)](bigD1 i) //=.
have := nn i i; move: (A i i) (\sum_(j | j != i) A i j) => a b a0; mclra.
Qed.
Lemma ell_off A L eps i j : i != j -> repair_ell chol A L eps i j = A i j.
Proof. by move=> ij; rewrite /repair_ell; case: ifP => // _; rewrite !mxE (negbTE ij) mulr0n addr0. Qed.
Lemma ell_sym A L eps : sym A -> sym (repair_ell chol A L eps).
Proof. by move=> s; rewrite /repair_ell; case: ifP => // _; apply: symD => //; exact: sym_diag. Qed.
Lemma ell_ok A L eps : sym A -> nonneg A -> pd A -> psd L -> 0 <= eps ->
  [/\ sym (repair_ell chol A L eps), nonneg (repair_ell chol A L eps) & pd (repair_ell chol A L eps)].
Proof.
move=> s nn d Ld e0; have s' := ell_sym L eps s; split=> //; rewrite /repair_ell; case: ifP => // _.
  move=> i j; rewrite !mxE; apply: addr_ge0 => //; apply: mulrn_wge0; apply: addr_ge0 => //; exact: psd_diag_ge0.
apply: pdD_psd => //; apply: psd_diag => i; rewrite mxE; apply: addr_ge0 => //; exact: psd_diag_ge0.
Qed.

(** * make_starting *)
Lemma ell_spec eigh h (K0 : 'M[R]_(h, p)) L K : eighs_ok eigh -> make_ell eigh K0 = IOk (L, K) ->
  [/\ L = K^T *m K, psd L, \rank L = h & (forall i, \sum_j K i j = 2%:R) /\ (nonneg K0 -> nonneg K)].
Proof.
move=> eok; rewrite /make_ell; case: ifP => // /negbT; rewrite negb_exists => /forallP n0.
case: ifP => // _; case: eqP => // r [<- <-]; split=> //; first exact: gram_psd.
split=> [i|nn i j].
  rewrite (eq_bigr (fun j => K0 i j / (\sum_k K0 i k / 2%:R))); last by move=> j _; rewrite mxE.
  have -> : \sum_k K0 i k / 2%:R = (\sum_k K0 i k) / 2%:R by rewrite mulr_suml.
  by rewrite -mulr_suml invf_div mulrCA mulfV ?mulr1 // n0.
by rewrite mxE; apply: divr_ge0 => //; apply: sumr_ge0 => k _; apply: divr_ge0; rewrite ?ler0n.
Qed.
Lemma starting_ok eigh h degree normalize eps (K0 : 'M[R]_(h, p)) choice theta L K : eighs_ok eigh -> choice_ok choice ->
  0 < eps -> make_starting chol eigh degree normalize eps K0 choice = IOk (theta, L, K) ->
  [/\ make_ell eigh K0 = IOk (L, K), sym theta, nonneg theta, pd theta & pd (theta - L)].
Proof.
move=> eok cho e0; rewrite /make_starting; case E: (make_ell eigh K0) => [[L1 K1]|] //.
have [LE Ld _ _] := ell_spec eok E.
have [A -> [s nn]] : exists2 A, (if normalize then start_normalized degree choice else IOk (start_plain degree choice)) = IOk A
    & sym A /\ nonneg A.
  case: normalize; first by have [A e [s nn _]] := normalized_ok degree choice; exists A.
  have inv := plain_ok degree cho; exists (start_plain degree choice) => //.
  by split; [case: inv | exact: plain_nonneg inv].
have [s1 n1 d1] := rowsum_ok s nn e0.
have [s2 n2 d2] := ell_ok s1 n1 d1 Ld (ltW e0).
case: ifP => // hd [<- <- <-]; split=> //.
by apply: (cholP cok) hd; apply: symB => //; case: Ld.
Qed.

(** * one step of the evolution *)
Definition c012_ge0 : 0 <= c012. Proof. by apply: divr_ge0; rewrite ler0n. Qed.
Definition c006_ge0 : 0 <= c006. Proof. by apply: divr_ge0; rewrite ler0n. Qed.
Lemma c001_gt0 : 0 < c001. Proof. by apply: divr_gt0; rewrite ?ltr01 ?ltr0n. Qed.
Definition in_pair (ps : seq ('I_p * 'I_p)) (i j : 'I_p) : bool := ((i, j) \in ps) || ((j, i) \in ps).
Lemma l1_changes_ok A ps pick : sym A -> nonneg A ->
  let B := theta_l1_changes A ps pick in
  [/\ sym B, nonneg B, forall i j, ~~ in_pair ps i j -> B i j = A i j
    & forall i j, in_pair ps i j -> [\/ B i j = 0, B i j = c012 | B i j = c006]].
Proof.
rewrite /= /theta_l1_changes; set f := (X in foldl X _ _).
have H : forall ps k B, sym B -> nonneg B ->
    let C := (foldl f (B, k) ps).1 in
    [/\ sym C, nonneg C, forall i j, ~~ in_pair ps i j -> C i j = B i j
      & forall i j, in_pair ps i j -> [\/ C i j = 0, C i j = c012 | C i j = c006]].
  elim=> [|[r c] l IH] k B s nn //=.
  set x := (if _ then _ else _); set B' := set_sym _ _ _ _.
  have xv : [\/ x = 0, x = c012 | x = c006].
    by rewrite /x; case: ifP => _; [case: ifP => _; [apply: Or32 | apply: Or31] | apply: Or33].
  have x0 : 0 <= x by case: xv => ->; rewrite ?c012_ge0 ?c006_ge0.
  have BE i j : B' i j = if in_pair [:: (r, c)] i j then x else B i j.
    rewrite set_symE /in_pair !inE !xpair_eqE; congr (if _ then _ else _).
    by rewrite (andbC (j == r)).
  have sB' : sym B' by rewrite /sym -set_sym_sym.
  have nB' : nonneg B' by move=> i j; rewrite BE; case: ifP.
  have [s1 n1 o1 v1] := IH k.+1 B' sB' nB'.
  split=> // i j; rewrite /in_pair !inE.
    rewrite !negb_or => /andP [/andP [a b] /andP [c' d]]; rewrite o1 ?BE /in_pair ?inE ?(negbTE a) ?(negbTE c') //.
    by rewrite negb_or b d.
  move=> ip; have [q|q] := boolP (in_pair l i j); first exact: v1.
  rewrite o1 // BE; suff -> : in_pair [:: (r, c)] i j by [].
  by move: ip q; rewrite /in_pair !inE negb_or => /orP [/orP [->|->]|/orP [->|->]] //=; rewrite ?orbT ?andbF.
exact: H.
Qed.
Lemma drawn (pairs : nat -> seq ('I_p * 'I_p)) fuel k ps : draw_pairs pairs fuel k = Some ps -> exists n, ps = pairs n.
Proof. by elim: fuel k => [|fuel IH] k //=; case: ifP => [_|_ [<-]]; [exact: IH | exists k]. Qed.
Lemma update_l1_ok A no pairs pick fuel eps B : (forall n, size (pairs n) = no) -> sym A -> nonneg A -> 0 < eps ->
  update_theta_l1 chol A no pairs pick fuel eps = Some B ->
  [/\ sym B, nonneg B, pd B & exists ps : seq ('I_p * 'I_p), [/\ (size ps <= no)%N,
      forall i j, i != j -> ~~ in_pair ps i j -> B i j = A i j
    & forall i j, i != j -> in_pair ps i j -> [\/ B i j = 0, B i j = c012 | B i j = c006]]].
Proof.
move=> sz s nn e0; rewrite /update_theta_l1.
set d := (if no is 0%N then _ else _).
have : forall ps, d = Some ps -> (size ps <= no)%N.
  move=> ps; rewrite /d; case: (no) sz => [|n'] sz; first by case=> <-.
  by move/drawn => [k ->]; rewrite sz.
case: d => // ps /(_ _ erefl) sp [<-].
have [s1 n1 o1 v1] := l1_changes_ok ps pick s nn; have [s2 n2 d2] := rowsum_ok s1 n1 e0.
split=> //; exists ps; split=> // i j ij q; rewrite rowsum_off //; [exact: o1 | exact: v1].
Qed.
Lemma update_l2_sym A add eps : sym A -> sym (update_theta_l2 A add eps).
Proof.
move=> /symP s; apply/symP => i j; rewrite /update_theta_l2.
have e : forall a b : 'I_p, (A + fill_diag ((eps / sqrt (\sum_(i < p) \sum_(j < p) (\matrix_(i, j) (if (i <= j)%N then add i j else add j i)) i j ^+ 2)) *: (\matrix_(i, j) (if (i <= j)%N then add i j else add j i))) (fun=> 0)) a b =
   (A + fill_diag ((eps / sqrt (\sum_(i < p) \sum_(j < p) (\matrix_(i, j) (if (i <= j)%N then add i j else add j i)) i j ^+ 2)) *: (\matrix_(i, j) (if (i <= j)%N then add i j else add j i))) (fun=> 0)) b a.
  move=> a b; rewrite !mxE s eq_sym; case: eqP => [->|ab] //; congr (_ + _ * _).
  case: (ltngtP a b) => // /val_inj h; by rewrite h in ab.
by rewrite mxE [RHS]mxE e.
Qed.
End Repair.
