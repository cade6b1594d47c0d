(** Proofs about the helpers of utils.py. *)
From Coq Require Import Reals Lra Lia.
From mathcomp Require Import all_ssreflect all_algebra.
From Verif Require Import RStruct RTac NP Str M_Utils S_Mat S_Utils RMx.
Import Order.TTheory GRing.Theory Num.Theory.

Set Implicit Arguments.
Unset Strict Implicit.
Unset Printing Implicit Defensive.
Local Open Scope ring_scope.

(** * flatten *)
Section Flatten.
Variable A : Type.
Implicit Types (v : pyval A) (l : seq (pyval A)).
Lemma flatten_list l : flatten_py (PyList l) = flatten [seq flatten_py x | x <- l].
Proof. by elim: l => //= x l <-. Qed.
Lemma flatten_leaves : forall v, leaves v (flatten_py v).
Proof.
fix IH 1; case=> [a|l]; first exact: leaf_atom.
elim: l => [|x l IHl]; first exact: leaf_nil.
by apply: leaf_cons; [exact: IH | exact: IHl].
Qed.
Lemma leaves_fun v (l1 : seq A) : leaves v l1 -> l1 = flatten_py v.
Proof. by elim=> // x l r s _ -> _ ->. Qed.
Lemma flatten_atoms (l : seq A) : flatten_py (PyList (map (@Atom A) l)) = l.
Proof. by rewrite flatten_list -map_comp /= flatten_seq1. Qed.
Lemma flatten_idem v : flatten_py (PyList (map (@Atom A) (flatten_py v))) = flatten_py v.
Proof. exact: flatten_atoms. Qed.
Lemma flatten_catl l1 l2 : flatten_py (PyList (l1 ++ l2)) = flatten_py (PyList l1) ++ flatten_py (PyList l2).
Proof. by rewrite !flatten_list map_cat flatten_cat. Qed.
End Flatten.

(** * compose *)
Lemma compose_foldl A (h : A -> A) fs x : foldl (@compose2 A) h fs x = h (foldr (fun f y => f y) x fs).
Proof. by elim: fs h => //= f fs IH h; rewrite IH. Qed.
Lemma compose_right_to_left A (fs : seq (A -> A)) x : compose_py fs x = foldr (fun f y => f y) x fs.
Proof. exact: compose_foldl. Qed.
Lemma compose_cat A (fs gs : seq (A -> A)) x : compose_py (fs ++ gs) x = compose_py fs (compose_py gs x).
Proof. by rewrite !compose_right_to_left foldr_cat. Qed.

(** * filename ending *)
Section Ending.
Variable C : eqType.
Implicit Types s e : seq C.
Lemma endswithP s e : reflect (ends_with s e) (endswith s e).
Proof.
apply: (iffP andP) => [[h /eqP <-]|[p ->]].
  by exists (take (size s - size e) s); rewrite cat_take_drop.
by rewrite size_cat leq_addl addnK drop_size_cat.
Qed.
Definition ext_list (p : exts C) := match p with OneExt e => [:: e] | Exts l => l end.
Lemma ensure_ending s p r : ensure_filename_ending s p = Val r ->
  [/\ exists2 e, e \in ext_list p & ends_with r e,
      (exists2 e, e \in ext_list p & ends_with s e) -> r = s,
      r = s \/ (exists2 e, e \in ext_list p & r = s ++ e)
    & ensure_filename_ending r p = Val r].
Proof.
rewrite /ensure_filename_ending -/(ext_list p); case: hasP => [[e he hs]|h].
  rewrite cats0 => -[<-]; split=> //; first by exists e => //; apply/endswithP.
  - by left.
  - by rewrite cats0; case: hasP => // -[]; exists e.
case E: (ext_list p) h => [|e l] // h [<-].
have he : e \in e :: l by rewrite mem_head.
split.
- by exists e => //; exists s.
- by case=> e' he' /endswithP hs; case: h; exists e'.
- by right; exists e.
- by case: hasP => [|[]]; rewrite ?cats0 //; exists e => //; apply/endswithP; exists s.
Qed.
Lemma ensure_ending_raise s p : (exists ex, ensure_filename_ending s p = Raise ex) <-> p = Exts [::].
Proof.
split=> [|->]; last by exists IndexError.
rewrite /ensure_filename_ending; case: p => [e|[|e l]] /=; rewrite ?orbF //; case=> ex.
  by case: ifP.
by case: ifP.
Qed.
End Ending.

(** * upper_to_full *)
Lemma filter_iota n i : (i <= n)%N -> [seq j <- iota 0 n | (i <= j)%N] = iota i (n - i).
Proof.
move=> hi; rewrite -{1}(subnKC hi) iotaD filter_cat add0n.
rewrite (@eq_in_filter _ _ xpred0 (iota 0 i)); last by move=> j; rewrite mem_iota add0n => /andP[_ h]; rewrite leqNgt h.
rewrite filter_pred0 (@eq_in_filter _ _ xpredT (iota i _)) ?filter_predT //.
by move=> j; rewrite mem_iota => /andP[].
Qed.
Lemma triuE n : triu_indices n = [seq (i, j) | i <- iota 0 n, j <- iota i (n - i)].
Proof.
rewrite /triu_indices; congr flatten; apply/eq_in_map => i; rewrite mem_iota add0n => /= hi.
by rewrite filter_iota // ltnW.
Qed.
Lemma triangleE n A : triangle n A = [seq A p.1 p.2 | p <- triu_indices n].
Proof. by rewrite triuE /triangle map_allpairs. Qed.
Lemma mem_triu n i j : ((i, j) \in triu_indices n) = (i <= j < n)%N.
Proof.
rewrite triuE; apply/allpairsPdep/idP => [[i' [j' [hi hj [-> ->]]]]|/andP[h1 h2]].
  move: hi hj; rewrite !mem_iota add0n => /= hi /andP[-> /=]; rewrite subnKC //; exact: ltnW.
exists i, j; rewrite !mem_iota add0n /= (leq_ltn_trans h1 h2) h1 subnKC //.
exact: ltnW (leq_ltn_trans h1 h2).
Qed.
Lemma triu_uniq n : uniq (triu_indices n).
Proof.
rewrite triuE; apply: allpairs_uniq_dep; rewrite ?iota_uniq //; first by move=> i _; apply: iota_uniq.
by move=> [i j] [i' j'] _ _ /= [-> ->].
Qed.
Lemma triu_size n : size (triu_indices n) = (n * n.+1)./2.
Proof.
rewrite triuE size_allpairs_dep.
rewrite (_ : [seq size (iota i (n - i)) | i <- iota 0 n] = rev (iota 1 n)).
  rewrite sumn_rev; elim: n => [|n IH] //.
  rewrite -[in iota _ _](addn1 n) iotaD sumn_cat IH [sumn (iota _ 1)]addn0 add1n.
  have -> : (n.+1 * n.+2 = n * n.+1 + (n.+1).*2)%N by rewrite -mul2n -mulnDl addn2 mulnC.
  by rewrite halfD odd_double andbF add0n doubleK.
apply: (@eq_from_nth _ 0%N); rewrite !size_map ?size_rev !size_iota // => i hi.
rewrite (nth_map 0%N) ?size_iota // nth_iota // add0n nth_rev ?size_iota // nth_iota.
  by rewrite add1n subnSK.
by rewrite subnSK // leq_subr.
Qed.

Lemma fancy_setE A idx a i j : uniq idx -> size idx = size a ->
  fancy_set A idx a i j = if (i, j) \in idx then nth 0 a (index (i, j) idx) else A i j.
Proof.
elim: idx a A => [|[i0 j0] idx IH] [|v a] A //= /andP[hn hu] [hs].
rewrite IH // /aset inE eq_sym xpair_eqE /=.
case: (altP (_ =P i0)) => [->|h1] /=.
  case: (altP (j =P j0)) => [->|h2] /=; first by rewrite (negbTE hn) xpair_eqE !eqxx.
  by rewrite xpair_eqE eqxx /= eq_sym (negbTE h2).
by rewrite xpair_eqE eq_sym (negbTE h1).
Qed.

Lemma index_map_swap (idx : seq (nat * nat)) i j :
  index (i, j) [seq (p.2, p.1) | p <- idx] = index (j, i) idx.
Proof. by rewrite -[(i, j)]/((fun p : nat * nat => (p.2, p.1)) (j, i)) index_map // => -[a b] [c d] [-> ->]. Qed.
Lemma mem_map_swap (idx : seq (nat * nat)) i j :
  ((i, j) \in [seq (p.2, p.1) | p <- idx]) = ((j, i) \in idx).
Proof. by rewrite -[(i, j)]/((fun p : nat * nat => (p.2, p.1)) (j, i)) mem_map // => -[a b] [c d] [-> ->]. Qed.

Lemma tri_root n k : k = (n * n.+1)./2 ->
  Z.to_nat (Int_part ((sqrt (1 + 8%:R * k%:R) - 1) / 2%:R)) = n.
Proof.
move=> ->.
have e : (8%:R * ((n * n.+1)./2)%:R : R) = 4%:R * n%:R * (n%:R + 1).
  have : (n * n.+1 = ((n * n.+1)./2).*2)%N by rewrite -[LHS]odd_double_half oddM /= andbN.
  move/(congr1 (fun k : nat => k%:R : R)); rewrite -muln2 !natrM -[n.+1]addn1 natrD => h.
  by move: h; move: ((_ ./2)%:R) => h; mclra.
rewrite e (_ : 1 + _ = (2%:R * n%:R + 1) * (2%:R * n%:R + 1)); last by mcring.
have n0 : (0 <= n%:R :> R) by apply: ler0n.
rewrite sqrt_square; last by mclra.
rewrite (_ : _ / _ = INR n); last by rewrite RnatE; mcfield.
by rewrite Int_part_INR Nat2Z.id.
Qed.

Lemma upper_to_full_ok n a : size a = (n * n.+1)./2 ->
  exists A, [/\ upper_to_full a = Val (n, A), forall i j, A i j = A j i & triangle n A = a].
Proof.
move=> hs; rewrite /upper_to_full (tri_root hs) triu_size hs eqxx /=.
have hsz : size (triu_indices n) = size a by rewrite triu_size hs.
have hu := triu_uniq n.
have hu' : uniq [seq (p.2, p.1) | p <- triu_indices n].
  by rewrite map_inj_uniq // => -[x y] [z w] [-> ->].
set A := fancy_set _ _ _.
have AE i j : A i j = if (j <= i < n)%N then nth 0 a (index (j, i) (triu_indices n))
              else if (i <= j < n)%N then nth 0 a (index (i, j) (triu_indices n)) else 0.
  by rewrite /A !fancy_setE ?size_map // mem_map_swap !mem_triu index_map_swap.
exists A; split=> //.
  move=> i j; rewrite !AE; case: (ltngtP i j) => [h|h|->] //=; by case: ifP.
rewrite triangleE; apply: (@eq_from_nth _ 0); rewrite ?size_map // => k hk.
rewrite (nth_map (0%N, 0%N)) //; case E: (nth _ _ k) => [i j] /=.
have hm : (i, j) \in triu_indices n by rewrite -E mem_nth.
have hk' : index (i, j) (triu_indices n) = k by rewrite -E index_uniq.
rewrite AE; move: hm; rewrite mem_triu => /andP[h1 h2]; rewrite h1 h2 /=.
case: ifP => [/andP[h3 _]|_]; last by rewrite hk'.
by rewrite (_ : j = i) in hk' *; [rewrite hk' | apply/eqP; rewrite eqn_leq h3].
Qed.
Lemma upper_to_full_inv n (M : nat -> nat -> R) : (forall i j, M i j = M j i) ->
  exists A, upper_to_full (triangle n M) = Val (n, A) /\
    forall i j, (i < n)%N -> (j < n)%N -> A i j = M i j.
Proof.
move=> hM; have hs : size (triangle n M) = (n * n.+1)./2 by rewrite triangleE size_map triu_size.
case: (upper_to_full_ok hs) => A [hA symA hT]; exists A; split=> // i j hi hj.
have main i' j' : (i' <= j' < n)%N -> A i' j' = M i' j'.
  rewrite -mem_triu => hm.
  have := congr1 (fun l => nth 0 l (index (i', j') (triu_indices n))) hT.
  by rewrite !triangleE !(nth_map (0%N, 0%N)) ?index_mem ?nth_index.
case: (leqP i j) => h; first by apply: main; rewrite h hj.
by rewrite symA hM; apply: main; rewrite hi (ltnW h).
Qed.
Lemma upper_to_full_bad a : (forall n, size a <> (n * n.+1)./2) -> upper_to_full a = Raise ValueError.
Proof.
by move=> h; rewrite /upper_to_full triu_size; case: eqP => // h'; case: (h _ (esym h')).
Qed.

(** * convert_data_to_2d *)
Section Convert.
Variable T : Type.
Implicit Types data : seq (seq T).
Lemma labels_ge data k : all (fun y => (k <= y)%N)
  (flatten [seq nseq (size ix.2) ix.1 | ix <- zip (iota k (size data)) data]).
Proof.
elim: data k => //= x data IH k; rewrite all_cat all_nseq leqnn orbT /=.
by apply: sub_all (IH k.+1) => y /ltnW.
Qed.
Lemma zip_flatten data k0 : forall k,
  rows_of (flatten data) (flatten [seq nseq (size ix.2) ix.1 | ix <- zip (iota k0 (size data)) data]) (k0 + k)
  = nth [::] data k.
Proof.
rewrite /rows_of; elim: data k0 => [|x data IH] k0 k; first by rewrite nth_nil.
rewrite /= zip_cat ?size_nseq // filter_cat map_cat.
have e m : [seq xy.1 | xy <- zip x (nseq (size x) k0) & xy.2 == (k0 + m)%N] = if m == 0%N then x else [::].
  have e : (k0 == (k0 + m)%N) = (m == 0%N) by rewrite -[X in X == _]addn0 eqn_add2l eq_sym.
  elim: x => [|y x IHx] /=; first by case: ifP.
  by rewrite e; case: (m == 0%N) IHx => /= ->.
rewrite e; case: k => [|k] /=.
  have -> : forall (l : seq nat) (X : seq T), all (fun y => (k0 < y)%N) l ->
     [seq xy.1 | xy <- zip X l & xy.2 == (k0 + 0)%N] = [::].
    by elim=> [|y l IHl] [|z X] //= /andP[h1 h2]; rewrite addn0 gtn_eqF // -[k0]addn0 IHl.
  by rewrite cats0.
  exact: labels_ge.
by rewrite addnS -addSn IH.
Qed.
Lemma convert_ok data d : data <> [::] -> all (fun x => size x == d) data ->
  exists X y, [/\ convert_data_to_2d data = Val (X, y), size X = size y, X = flatten data
    & (forall k, rows_of X y k = nth [::] data k)].
Proof.
move=> hd hs; rewrite /convert_data_to_2d; case: eqP => [/size0nil //|_].
have -> : all (fun x => size x == size (head [::] data)) data.
  case: data hs {hd} => //= x data /andP[/eqP hx hs]; rewrite hx eqxx /=; exact: hs.
do 2 eexists; split; [by [] | | by [] | by move=> k; rewrite -(zip_flatten data 0)].
have: forall k, size (flatten data) =
   size (flatten [seq nseq (size ix.2) ix.1 | ix <- zip (iota k (size data)) data]); last by apply.
by elim: data {hd hs} => //= x data IH k; rewrite !size_cat size_nseq (IH k.+1).
Qed.
Lemma convert_bad data : (forall d, ~~ all (fun x => size x == d) data) ->
  convert_data_to_2d data = Raise ValueError.
Proof. by move=> h; rewrite /convert_data_to_2d; case: ifP => // _; rewrite (negbTE (h _)). Qed.
End Convert.
