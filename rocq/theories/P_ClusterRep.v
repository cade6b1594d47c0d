(** Proofs about make_cluster_representative: how the matrices change and how many there are. *)
From Coq Require Import Reals.
From mathcomp Require Import all_ssreflect all_algebra.
From Verif Require Import RStruct RTac NP M_ClusterRep.
Import Order.TTheory GRing.Theory Num.Theory.

Set Implicit Arguments.
Unset Strict Implicit.
Unset Printing Implicit Defensive.
Local Open Scope ring_scope.

Section Step.
Variable n : nat.
Notation M := 'M[R]_n.
Notation ij := ('I_n * 'I_n)%type.
Definition swp (x : ij) : ij := (x.2, x.1).
Definition supp (A : M) (i j : 'I_n) : bool := A i j != 0.
Definition supp_sym (A : M) : Prop := forall i j, supp A i j = supp A j i.

Lemma mem_entries (x : ij) : x \in entries n.
Proof. by case: x => i j; apply/allpairsP; exists (i, j); rewrite !mem_enum. Qed.
Lemma uniq_entries : uniq (entries n).
Proof. by apply: allpairs_uniq; rewrite ?enum_uniq // => -[a b] [c d]. Qed.
Lemma mem_differs (A B : M) x : (x \in differs A B) = (supp A x.1 x.2 != supp B x.1 x.2).
Proof. by rewrite mem_filter mem_entries andbT. Qed.
Lemma uniq_differs (A B : M) : uniq (differs A B).
Proof. exact: filter_uniq uniq_entries. Qed.

Definition newval (old target : M) (xy : ij) (v : R) : R :=
  if (old xy.1 xy.2 == 0) && (target xy.1 xy.2 != 0) then v * (20%:R / 100%:R) else 0.
Lemma changeE (old target new : M) xy v i j :
  change old target new xy v i j = if (xy == (i, j)) || (xy == (j, i)) then newval old target xy v else new i j.
Proof.
case: xy => x y; rewrite /change /newval /set_at !mxE !eqxx /= !xpair_eqE (eq_sym i) (eq_sym j) (eq_sym i x) (eq_sym j y).
by case: (y == i); case: (x == j); case: (x == i); case: (y == j).
Qed.

Section Fold.
Variables (old target : M) (rand : nat -> R).
Let F := fun (new : M) (xj : ij * nat) => change old target new xj.1 (rand xj.2).
Definition touches (l : seq (ij * nat)) (i j : 'I_n) := ((i, j) \in unzip1 l) || ((j, i) \in unzip1 l).
Lemma fold_out l new i j : ~~ touches l i j -> foldl F new l i j = new i j.
Proof.
elim/last_ind: l => [|l x IH] // tc; rewrite foldl_rcons {1}/F changeE.
move: tc; rewrite /touches /unzip1 map_rcons !mem_rcons !in_cons !negb_or => /andP[/andP[a b] /andP[c d]].
by rewrite eq_sym (negbTE a) eq_sym (negbTE c) /= IH // /touches negb_or b.
Qed.
Lemma fold_in l new i j : touches l i j ->
  exists k, exists2 xy, (xy = (i, j) \/ xy = (j, i)) & foldl F new l i j = newval old target xy (rand k) /\
    foldl F new l j i = newval old target xy (rand k).
Proof.
elim/last_ind: l => [|l [xy k] IH] //; rewrite foldl_rcons /touches /unzip1 map_rcons !mem_rcons !in_cons /= => tc.
case e: ((xy == (i, j)) || (xy == (j, i))).
  exists k, xy; first by case/orP: e => /eqP; [left | right].
  by rewrite /F !changeE e orbC e.
case/norP: (negbT e) => e1 e2; move: tc; rewrite !(eq_sym _ xy) (negbTE e1) (negbTE e2) /= => tc.
have [k' [xy' xe [v1 v2]]] := IH tc; exists k', xy' => //; rewrite /F !changeE /=.
by rewrite (negbTE e1) (negbTE e2) /= v1 v2.
Qed.
End Fold.

Variables (epc : nat) (shuffle : seq ij -> seq ij) (rand : nat -> R) (target old : M).
Hypotheses (shP : forall l, perm_eq (shuffle l) l) (r0 : forall k, 0 < rand k < 1)
  (sT : supp_sym target) (sO : supp_sym old).
Let D := differs old target.
Let P := take epc (shuffle D).
Let new := one_step epc shuffle rand target old.

Lemma P_sub x : x \in P -> x \in D.
Proof. by move=> /mem_take; rewrite (perm_mem (shP D)). Qed.
Lemma P_uniq : uniq P.
Proof. by apply: take_uniq; rewrite (perm_uniq (shP D)) uniq_differs. Qed.
Lemma P_size : size P = minn epc (size D).
Proof. by rewrite size_take_min (perm_size (shP D)). Qed.
Lemma D_sym x : (swp x \in D) = (x \in D).
Proof. by case: x => i j; rewrite !mem_differs /= sO sT. Qed.
Lemma newval_supp x k : x \in D -> (newval old target x (rand k) != 0) = supp target x.1 x.2.
Proof.
rewrite mem_differs /newval /supp; have := r0 k => /andP[a _].
have num (r : R) : 0 < r -> r * (20%:R / 100%:R) != 0.
  by move=> h; rewrite mulf_neq0 ?lt0r_neq0 // divr_gt0 ?ltr0n.
by case: (old _ _ =P 0); case: (target _ _ =P 0) => //= _ _ _; rewrite ?eqxx // num.
Qed.
Lemma newval_range x k : 0 <= newval old target x (rand k) < 20%:R / 100%:R.
Proof.
rewrite /newval; have := r0 k; case: ifP => _ /andP[a b]; last by rewrite lexx /= divr_gt0 ?ltr0n.
have num (r : R) : 0 < r -> r < 1 -> (0 <= r * (20%:R / 100%:R)) && (r * (20%:R / 100%:R) < 20%:R / 100%:R).
  by move=> h1 h2; apply/andP; split; mclra.
exact: num.
Qed.
Lemma newE i j :
  (((i, j) \in P) || ((j, i) \in P) /\ supp new i j = supp target i j /\ 0 <= new i j < 20%:R / 100%:R /\ new j i = new i j /\
     supp old i j != supp target i j)
  \/ ~~ (((i, j) \in P) || ((j, i) \in P)) /\ new i j = old i j.
Proof.
have u1 : unzip1 (zip P (iota 0 (size P))) = P by rewrite unzip1_zip // size_iota.
rewrite /new /one_step -/D -/P.
case t: (touches (zip P (iota 0 (size P))) i j); [left | right].
  have [k [xy xe [v1 v2]]] := fold_in old target rand old t; move: t; rewrite /touches u1 => t.
  split=> //; rewrite /supp v1 v2.
  have tD : (i, j) \in D by case/orP: t => /P_sub //; rewrite -D_sym.
  have xD : xy \in D by case: xe => ->; rewrite // -D_sym.
  split; first by rewrite newval_supp //; case: xe => -> //=; exact: sT.
  by split; [exact: newval_range | split=> //; move: tD; rewrite mem_differs].
have := fold_out old target rand old (negbT t) => ->; split=> //.
by move: (negbT t); rewrite /touches u1.
Qed.
Lemma new_supp_sym : supp_sym new.
Proof.
move=> i j; have [|] := newE i j => -[t h]; have [|] := newE j i => -[t' h'].
- by case: h => -> _; case: h' => -> _.
- by move: t'; rewrite orbC t.
- by move: t; rewrite orbC t'.
- by rewrite /supp h h'; exact: sO.
Qed.
Lemma mem_differs_new x : (x \in differs new target) = (x \in D) && ~~ ((x \in P) || (swp x \in P)).
Proof.
case: x => i j; rewrite !mem_differs /swp /=; have [[t [h _]]|[t h]] := newE i j.
  by rewrite h eqxx t andbF.
by rewrite t andbT /supp h.
Qed.
Lemma count_step :
  (size (differs new target) + minn epc (size D) <= size D <= size (differs new target) + 2 * minn epc (size D))%N.
Proof.
set Q := undup (P ++ map swp P).
have swpK : involutive swp by case.
have memQ x : (x \in Q) = (x \in P) || (swp x \in P).
  by rewrite mem_undup mem_cat -{2}(swpK x) mem_map //; exact: inv_inj.
have e1 : size (differs new target) = size [seq x <- D | x \notin Q].
  apply/eqP; rewrite -uniq_size_uniq ?uniq_differs ?(filter_uniq _ (uniq_differs _ _)) // => x.
  by rewrite mem_differs_new mem_filter memQ andbC.
have e2 : size [seq x <- D | x \in Q] = size Q.
  apply/eqP; rewrite -uniq_size_uniq ?undup_uniq ?(filter_uniq _ (uniq_differs _ _)) // => x.
  rewrite mem_filter; case xQ: (x \in Q) => //=; move: xQ; rewrite memQ => /orP[] /P_sub //.
  by rewrite D_sym.
have e3 : size D = (size Q + size (differs new target))%N.
  by rewrite -(count_predC (mem Q) D) e1 -e2 !size_filter.
have q1 : (size P <= size Q)%N.
  by apply: uniq_leq_size P_uniq _ => x xP; rewrite memQ xP.
have q2 : (size Q <= 2 * size P)%N by rewrite (leq_trans (size_undup _)) // size_cat size_map mul2n addnn.
by rewrite -P_size [X in (_ <= X <= _)%N]e3 addnC leq_add2r q1 /= addnC leq_add2l.
Qed.
End Step.
