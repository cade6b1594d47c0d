(** C207: parameters of the estimators, get_params and clone. *)
From Coq Require Import String.
From mathcomp Require Import all_ssreflect.
From Verif Require Import M_Utils M_Ctor.

Set Implicit Arguments.
Unset Strict Implicit.
Unset Printing Implicit Defensive.

Section L.
Variables (Atom : eqType) (Content : Type) (none one default_burn_in : Atom) (empty : Content) (is_empty is_array : Content -> bool).
Variables (as_array : Atom + Content -> Content) (built : Content).
Notation construct := (construct none empty is_empty is_array as_array built).
Notation value := (value Atom Content).
(** the content of a value, without its identity *)
Definition content (v : value) : Atom + Content := match v with Imm x => inl x | Ref _ c => inr c end.

Lemma keepE (l : seq value) f : construct (nseq (size l) (Keep Atom)) l f = [seq Some v | v <- l].
Proof. by elim: l f => //= v l IH f; rewrite IH. Qed.
Lemma getE strict (l : seq value) : get_params none strict [seq Some v | v <- l] = Val l.
Proof. by elim: l => //= v l ->. Qed.
Lemma getE2 strict (l1 l2 : seq (option value)) r1 r2 : get_params none strict l1 = Val r1 -> get_params none strict l2 = Val r2 ->
  get_params none strict (l1 ++ l2) = Val (r1 ++ r2).
Proof.
elim: l1 r1 => [|a l IH] r1 /=; first by case=> <-.
case: (match a with Some _ => _ | None => _ end) => // v; case: (get_params none strict l) IH => // r IH [<-] h2.
by rewrite (IH r).
Qed.
Lemma copies_size (l : seq value) f : size (copies l f) = size l.
Proof. by elim: l f => //= v l IH f; rewrite IH. Qed.
Lemma copies_content (l : seq value) f : [seq content v | v <- copies l f] = [seq content v | v <- l].
Proof. by elim: l f => //= v l IH f; rewrite IH; case: v. Qed.
Lemma copies_fresh (l : seq value) f i c : List.In (Ref _ i c) (copies l f) -> f <= i.
Proof. by elim: l f => //= v l IH f [|/IH/ltnW //]; case: v => // j c' [<-]. Qed.
Lemma same_refl (l : seq value) : all (fun ab => same ab.1 ab.2) (zip l l).
Proof. by elim: l => //= v l ->; case: v => [x|i c] /=; rewrite eqxx. Qed.
Lemma keep_all_clone strict (l : seq value) f g : exists r, clone none empty is_empty is_array as_array built strict (nseq (size l) (Keep Atom)) (construct (nseq (size l) (Keep Atom)) l f) g = Val r
  /\ [seq content v | v <- r] = [seq content v | v <- l] /\ forall i c, List.In (Ref _ i c) r -> g <= i.
Proof.
rewrite /clone keepE getE; have e := copies_size l g; rewrite -e keepE getE same_refl.
by exists (copies l g); rewrite copies_content; do 2 split=> //; move=> i c; apply: copies_fresh.
Qed.
End L.

(** specification: get_params returns, whatever the arguments, the arguments *)
Definition returns_arguments (Atom : eqType) Content (none : Atom) (empty : Content) is_empty is_array as_array built (spec : seq (action Atom)) : Prop :=
  forall (args : seq (value Atom Content)) fresh, size args = size spec ->
  get_params none true (construct none empty is_empty is_array as_array built spec args fresh) = Val args.

(** exactly these estimators return the arguments they were given *)
Theorem C207_which (Atom : eqType) Content (none one two burn : Atom) (empty : Content) is_empty is_array as_array built c spec :
  one != two -> none != two ->
  List.In (c, spec) (constructors one burn) ->
  (returns_arguments none empty is_empty is_array as_array built (unzip2 spec) <->
   List.In c [:: "BayesianGraphicalLasso"; "WishartDistribution"; "InverseWishartDistribution"; "NormalInverseWishartDistribution"; "GraphicalLasso";
     "KernelLatentTimeGraphicalLasso"; "SimilarityLatentTimeGraphicalLasso"; "KernelTimeGraphicalLasso"; "LatentGraphicalLasso"; "LatentTimeGraphicalLasso";
     "LatentTimeMatrixDecomposition"; "MissingGraphicalLasso"; "TimeGraphicalLasso"; "TimeGraphicalLassoForwardBackward"; "Gaussian_GLM_GM";
     "IsingGraphicalModel"; "PoissonGraphicalModel"; "TemporalIsingModel"; "TemporalPoissonModel"]%string).
Proof.
move=> n12 n02.
have good n : returns_arguments none empty is_empty is_array as_array built (nseq n (Keep Atom)).
  by move=> args f; rewrite size_nseq => <-; rewrite keepE getE.
have bad (s : seq (action Atom)) x : get_params none true (construct none empty is_empty is_array as_array built s (nseq (size s) (Imm _ x)) 0) <> Val (nseq (size s) (Imm _ x)) ->
    ~ returns_arguments none empty is_empty is_array as_array built s by move=> h /(_ (nseq (size s) (Imm _ x)) 0); rewrite size_nseq => /(_ (erefl _)) /h.
do 19 (case=> [[<- <-]|]; first by split=> [_|_]; [rewrite /=; tauto | match goal with |- returns_arguments _ _ _ _ _ _ ?s => exact: (good (size s)) end]).
have out (P : Prop) : ~ P -> forall Q : Prop, ~ Q -> (P <-> Q) by tauto.
case=> [[<- <-]|]; first by apply: out; [apply: (bad _ none) | rewrite /=; intuition discriminate].
case=> [[<- <-]|]; first by apply: out; [apply: (bad _ two) => /= -[e]; rewrite e eqxx in n12 | rewrite /=; intuition discriminate].
case=> [[<- <-]|]; first by apply: out; [apply: (bad _ two); rewrite /= eq_sym (negbTE n02) | rewrite /=; intuition discriminate].
case=> [[<- <-]|]; first by apply: out; [apply: (bad _ none) | rewrite /=; intuition discriminate].
case=> [[<- <-]|]; first by apply: out; [apply: (bad _ two) => /= -[e]; rewrite e eqxx in n12 | rewrite /=; intuition discriminate].
case=> [[<- <-]|]; first by apply: out; [apply: (bad _ none); rewrite /= eqxx | rewrite /=; intuition discriminate].
case=> [[<- <-]|] //; by apply: out; [apply: (bad _ none) | rewrite /=; intuition discriminate].
Qed.
Print Assumptions C207_which.
(** and they can be cloned: the clone has parameters of the same contents, and its objects are new ones *)
Theorem C207_clone (Atom : eqType) Content (none : Atom) (empty : Content) is_empty is_array as_array built c names strict args fresh fresh' :
  List.In (c, names) storing ->
  size args = size names -> let spec := unzip2 [seq (p, Keep Atom) | p <- names] in
  exists r, clone none empty is_empty is_array as_array built strict spec (construct none empty is_empty is_array as_array built spec args fresh) fresh' = Val r /\
    [seq content v | v <- r] = [seq content (v : value Atom Content) | v <- args] /\ (forall i l, List.In (Ref _ i l) r -> fresh' <= i).
Proof.
move=> _ sz spec; have -> : spec = nseq (size args) (Keep Atom) by rewrite /spec sz; elim: (names) => //= x l ->.
exact: keep_all_clone.
Qed.
Print Assumptions C207_clone.
(** refuted: WishartProcess and PrecomputedDiscriminantAnalysis have no parameters to return, so that they cannot be cloned either *)
Theorem C207_missing_refuted (Atom : eqType) Content (none one burn : Atom) (empty : Content) is_empty is_array as_array built
    (args : seq (value Atom Content)) fresh fresh' spec :
  spec = unzip2 (ctor_WishartProcess burn) \/ spec = unzip2 (ctor_PrecomputedDiscriminantAnalysis Atom) -> size args = size spec ->
  get_params none true (construct none empty is_empty is_array as_array built spec args fresh) = Raise AttributeError /\
  clone none empty is_empty is_array as_array built true spec (construct none empty is_empty is_array as_array built spec args fresh) fresh' = Raise AttributeError.
Proof.
move=> h sz; suff e : get_params none true (construct none empty is_empty is_array as_array built spec args fresh) = Raise AttributeError by rewrite /clone e.
case: h sz => ->.
  by case: args => [|a0 [|a1 [|a2 l]]].
by case: args.
Qed.
Print Assumptions C207_missing_refuted.
(** refuted: the two estimators that learn a similarity ignore the kernel parameter they are given *)
Theorem C207_ker_param_refuted (Atom : eqType) Content (none one : Atom) (empty : Content) is_empty is_array as_array built
    (args : seq (value Atom Content)) fresh strict ctor k :
  ctor = ctor_SimilarityTimeGraphicalLasso one \/ ctor = ctor_SimilarityTemporalIsingModel one -> size args = size ctor ->
  nth ""%string (unzip1 ctor) k = "ker_param"%string ->
  exists r, get_params none strict (construct none empty is_empty is_array as_array built (unzip2 ctor) args fresh) = Val r /\
    nth (Imm _ none) r k = Imm _ one.
Proof.
case=> -> sz.
  move: args sz; (do 18 (case=> [//|? ])); case=> [_|//]; do 18 (try (case: k => [|k] //=)); by [move=> _; eexists | rewrite nth_nil].
move: args sz; (do 16 (case=> [//|? ])); case=> [_|//]; do 16 (try (case: k => [|k] //=)); by [move=> _; eexists | rewrite nth_nil].
Qed.
Print Assumptions C207_ker_param_refuted.
(** a group lasso can be cloned if and only if it has groups *)
Theorem C207_group_lasso (Atom : eqType) Content (none : Atom) (empty : Content) (is_empty : Content -> bool) is_array as_array built
    (args : seq (value Atom Content)) fresh fresh' strict :
  is_empty empty = true -> let spec := unzip2 (ctor_GroupLassoOverlap Atom) in size args = size spec ->
  let c := clone none empty is_empty is_array as_array built strict spec (construct none empty is_empty is_array as_array built spec args fresh) fresh' in
  let groups := content (nth (Imm _ none) args 2) in
  let no_groups := match groups with inl x => x == none | inr l => is_empty l end in
  if no_groups then c = Raise RuntimeError else exists r, c = Val r /\ [seq content v | v <- r] = [seq content v | v <- args].
Proof.
move=> he spec.
have eqv (v : value Atom Content) : same v v by case: v => [x|i l] /=; rewrite eqxx.
move: args; case=> [//|a0]; case=> [//|a1]; case=> [//|g args] sz.
have {sz} sa : size args = 15 by case: sz.
have sp : spec = [:: Keep _; Keep _; OrEmpty _] ++ nseq 15 (Keep _) by [].
have ctorE b0 b1 b2 l f : size l = 15 -> construct none empty is_empty is_array as_array built spec [:: b0, b1, b2 & l] f =
    [:: Some b0; Some b1; act none empty is_empty is_array as_array built (OrEmpty _) b2 f.+2] ++ [seq Some v | v <- l].
  by move=> e; rewrite sp -e /= keepE.
move=> c groups no_groups; rewrite {}/c /clone ctorE // [get_params _ _ _]/= getE.
rewrite [copies _ _]/= [size (_ :: _)]/= ctorE ?copies_size // [get_params _ _ _]/= getE.
have ne : (fresh'.+2 == (fresh' + (size args).+3).+2) = false by rewrite !eqSS -[X in X == _]addn0 eqn_add2l.
rewrite /no_groups /groups /=; case: g {no_groups groups} => [x|i l] /=.
  case nx: (x == none) => /=; rewrite ?he ?nx !eqv /= ?ne //.
  rewrite eqxx same_refl /=; eexists; split; first by [].
  by rewrite /= copies_content; case: (a0); case: (a1).
case nx: (is_empty l) => /=; rewrite ?he ?nx !eqv /= ?ne //.
rewrite eqxx same_refl /=; eexists; split; first by [].
by rewrite /= copies_content; case: (a0); case: (a1).
Qed.
Print Assumptions C207_group_lasso.
(** refuted: the selection by stability replaces the cv it is given, and can never be cloned *)
Theorem C207_stability_refuted (Atom : eqType) Content (none : Atom) (empty : Content) is_empty is_array as_array built
    (args : seq (value Atom Content)) fresh fresh' strict :
  let spec := unzip2 (ctor_GraphicalModelStabilitySelection Atom) in size args = size spec ->
  let attrs := construct none empty is_empty is_array as_array built spec args fresh in
  nth None attrs 6 = Some (Ref _ (fresh + 6) built) /\
  clone none empty is_empty is_array as_array built strict spec attrs fresh' = Raise RuntimeError.
Proof.
have eqv (v : value Atom Content) : same v v by case: v => [x|i l] /=; rewrite eqxx.
move=> spec; move: args; (do 14 (case=> [//|? ])); case=> [_|//]; split; first by rewrite /= !addnS addn0.
have ne : (fresh'.+1 == (fresh' + 14).+1) = false by rewrite eqSS -[X in X == _]addn0 eqn_add2l.
by rewrite /clone /= eqv ne.
Qed.
Print Assumptions C207_stability_refuted.
(** a graphical lasso of four values, of which one a dictionary, is cloned: the clone has a dictionary of its own *)
Example C207_case : let spec := nseq 4 (Keep nat_eqType) in let no := (fun _ : nat => false) in let o := (fun _ : nat + nat => 0) in
  let attrs := construct 0 0 no no o 0 spec [:: Imm _ 1; Imm _ 2; Ref _ 7 5; Imm _ 0] 20 in
  get_params 0 true attrs = Val [:: Imm _ 1; Imm _ 2; Ref _ 7 5; Imm _ 0] /\
  clone 0 0 no no o 0 true spec attrs 30 = Val [:: Imm _ 1; Imm _ 2; Ref _ 32 5; Imm _ 0] /\
  clone 0 0 (fun c => c == 0) no o 0 true (unzip2 (ctor_GroupLassoOverlap nat_eqType))
    (construct 0 0 (fun c => c == 0) no o 0 (unzip2 (ctor_GroupLassoOverlap nat_eqType)) (nseq 18 (Imm _ 0)) 20) 40 = Raise RuntimeError /\
  get_params 0 true (construct 0 0 no no o 0 (unzip2 (ctor_PrecomputedDiscriminantAnalysis nat_eqType)) [:: Ref _ 3 9] 20) = Raise AttributeError.
Proof. by []. Qed.
