(** C190: the search of _BayesianOptimization. *)
From Coq Require Import Reals Lra.
From mathcomp Require Import all_ssreflect all_algebra.
From Verif Require Import RStruct RTac M_Utils M_BayesOpt.
Import Order.TTheory GRing.Theory Num.Theory.

Set Implicit Arguments.
Unset Strict Implicit.
Unset Printing Implicit Defensive.
Local Open Scope ring_scope.

(** the candidate of a point: the estimator as given, with 10 to the power of each coordinate for the parameter of that name *)
Definition candidate (names : seq nat) (mdl : params) (x : seq R) : params :=
  fun a => if (a \in names) then Rpower 10%:R (nth 0 x (index a names)) else mdl a.

Lemma set_paramsE names (x : seq R) mdl : uniq names -> size x = size names -> set_params mdl (zip names (pow10 x)) =1 candidate names mdl x.
Proof.
rewrite /set_params; elim: names x mdl => [|n names IH] [|v x] mdl //= /andP[nn un] [sx] a.
rewrite IH // /candidate inE; case: (eqVneq a n) => [->|an] /=; first by rewrite (negbTE nn) eqxx.
by rewrite eq_sym (negbTE an); case: ifP.
Qed.

Section Fit.
Variables (cv : nat -> params -> score) (names : seq nat) (mdl0 : params).
Hypothesis un : uniq names.
Hypothesis cv_ext : forall k m m', m =1 m' -> cv k m = cv k m'.
Definition wf (s : params * seq (seq R * score)) : Prop :=
  [/\ forall a, a \notin names -> s.1 a = mdl0 a,
      (forall xy, xy \in s.2 -> size xy.1 = size names),
      (forall k, (k < size s.2)%N -> let xy := nth ([::], None) (rev s.2) k in xy.2 = neg (cv k (candidate names mdl0 xy.1))) &
      s.1 =1 if s.2 is xy :: _ then candidate names mdl0 xy.1 else mdl0].
Lemma cand_ext m x : (forall a, a \notin names -> m a = mdl0 a) -> candidate names m x =1 candidate names mdl0 x.
Proof. by move=> h a; rewrite /candidate; case: ifP => // /negbT /h. Qed.
Lemma wf_eval s x : wf s -> size x = size names -> wf (evaluate cv names s.1 s.2 x).
Proof.
case: s => m h [/= w1 w2 w3 w4] sx; have e := set_paramsE m un sx; have c := cand_ext x w1; split=> /=.
- by move=> a an; rewrite e c /candidate (negbTE an).
- by move=> xy; rewrite inE => /orP[/eqP -> //|/w2].
- move=> k; rewrite ltnS leq_eqVlt rev_cons => /orP[/eqP ->|kh].
    rewrite nth_rcons size_rev ltnn eqxx /=; congr neg; apply: cv_ext => a; by rewrite e c.
  by rewrite nth_rcons size_rev kh; exact: w3.
- by move=> a; rewrite e c.
Qed.
Lemma wf_run next k : (forall h x, next h = Some x -> size x = size names) -> forall s, wf s -> wf (run cv names next k s.1 s.2).
Proof.
move=> hn; elim: k => [|k IH] [m h] w //=; case en: (next h) => [x|//].
have := wf_eval w (hn _ _ en); rewrite /=; exact: IH.
Qed.
Lemma wf_initial design : (forall x, x \in design -> size x = size names) -> wf (initial cv names mdl0 design).
Proof.
move=> hd; rewrite /initial; have : wf (mdl0, [::]) by split.
elim: design (mdl0, [::]) hd => //= x design IH s hd w; apply: IH.
  by move=> y yd; apply: hd; rewrite inE yd orbT.
by apply: wf_eval => //; apply: hd; rewrite mem_head.
Qed.
End Fit.

Lemma argmin_nan Y : has (fun y : score => y == None) Y -> nth (Some 0) Y (np_argmin Y) = None.
Proof. by move=> h; rewrite /np_argmin h; apply/eqP; exact: (nth_find (Some 0) h). Qed.
Lemma argmin_lt Y : (0 < size Y)%N -> (np_argmin Y < size Y)%N /\
  (~~ has (fun y : score => y == None) Y -> forall k, (k < size Y)%N -> exists a b : R, [/\ nth None Y (np_argmin Y) = Some a, nth None Y k = Some b & a <= b]).
Proof.
move=> s0; rewrite /np_argmin; case: ifP => h; first by rewrite -has_find.
set p := fun y : score => _.
have hp : has p Y.
  have [f ef] : exists f : seq R, Y = [seq Some v | v <- f].
    elim: Y h {p s0} => [|[v|] Y IH] //=; first by exists [::].
    by move=> /IH [f ->]; exists (v :: f).
  have : exists2 m : R, m \in f & forall w, w \in f -> m <= w.
    rewrite ef in s0; case: f {ef} s0 => // v f _.
    elim: f v => [|w f IH] v; first by exists v; rewrite ?mem_head // => u; rewrite inE => /eqP ->.
    have [m mf hm] := IH w; case: (leP v m) => vm.
      exists v; rewrite ?mem_head // => u; rewrite inE => /orP[/eqP -> //|/hm]; exact: le_trans.
    exists m; first by rewrite inE mf orbT.
    by move=> u; rewrite inE => /orP[/eqP ->|/hm //]; exact: ltW.
  move=> [m mf hm]; apply/hasP; exists (Some m); first by rewrite ef; apply: map_f.
  by rewrite /p; apply/allP=> z; rewrite ef => /mapP[w wf ->]; exact: hm.
split; first by rewrite -has_find.
move=> _ k kY; have := nth_find None hp; rewrite {1}/p; case e: (nth None Y (find p Y)) => [a|]; last first.
  by move/allP/(_ _ (mem_nth None s0)).
move/allP/(_ _ (mem_nth None kY)); case e': (nth None Y k) => [b|//] ab; by exists a, b.
Qed.

(** For every way of choosing the points, when no evaluated candidate scored nan: the parameters kept are those of an evaluated point, its mean
    cross-validation score is at least that of every evaluated point, and the refitted estimator is the given one with those parameters. *)
Theorem C190_best : forall cv names next max_iter design mdl f XY, uniq names -> (forall k m m', m =1 m' -> cv k m = cv k m') ->
  (forall h x, next h = Some x -> size x = size names) -> (forall x, x \in design -> size x = size names) ->
  fit cv names next max_iter design mdl = Val (f, XY) -> (forall xy, xy \in XY -> xy.2 <> None) ->
  let cand k := candidate names mdl (nth ([::], None) XY k).1 in
  [/\ (best_index f < size XY)%N, best_estimator f =1 cand (best_index f),
      (forall n v, (n, v) \in best_params f -> n \in names /\ v = cand (best_index f) n) &
      forall k, (k < size XY)%N -> exists s b : R, [/\ cv k (cand k) = Some s, cv (best_index f) (cand (best_index f)) = Some b, s <= b &
        best_score f = Some (- b)]].
Proof.
move=> cv names next k design mdl f XY un ext hn hd; rewrite /fit.
have w1 := @wf_initial cv names mdl un ext design hd; case e1: (initial _ _ _ _) w1 => [m1 h1] w1.
have w2 := @wf_run cv names mdl un ext next k hn _ w1; rewrite /= in w2; case e2: (run _ _ _ _ _ _) w2 => [m2 h2] [/= q1 q2 q3 q4].
case er: (rev h2) => [//|xy0 l]; rewrite -er => -[<- <-] nan; set i := np_argmin _.
have sz : size (unzip2 (rev h2)) = size h2 by rewrite size_map size_rev.
have s0 : (0 < size h2)%N by rewrite -size_rev er.
have [|il ib] := @argmin_lt (unzip2 (rev h2)); first by rewrite sz.
have nn : ~~ has (fun y : score => y == None) (unzip2 (rev h2)).
  by apply/hasPn => y /mapP[xy /nan hx ->]; apply/eqP.
have {}ib := ib nn; rewrite sz -/i in il; rewrite sz in ib.
have n1 j : nth [::] (unzip1 (rev h2)) j = (nth ([::], None) (rev h2) j).1.
  case: (ltnP j (size (rev h2))) => jl; first by rewrite (nth_map ([::], None)).
  by rewrite !nth_default // size_map.
have n2 j : nth None (unzip2 (rev h2)) j = (nth ([::], None) (rev h2) j).2.
  case: (ltnP j (size (rev h2))) => jl; first by rewrite (nth_map ([::], None)).
  by rewrite !nth_default // size_map.
have sx j : (j < size h2)%N -> size (nth ([::], None) (rev h2) j).1 = size names.
  by move=> jl; apply: q2; rewrite -mem_rev mem_nth // size_rev.
split=> /=; rewrite ?size_rev //.
- by move=> a; rewrite n1 set_paramsE ?sx // (cand_ext _ q1).
- move=> n v; rewrite n1 => /(nthP (0%N, 0)) [j]; rewrite size_zip size_map sx // minnn => jn.
  rewrite nth_zip ?size_map ?sx // => -[<- <-]; rewrite mem_nth // /candidate mem_nth // index_uniq //; split=> //.
  by rewrite (nth_map 0) // sx.
- move=> j jl; have [a [b [ea eb ab]]] := ib j jl; rewrite !n2 in ea eb *.
  have := q3 j jl; rewrite /= eb; have := q3 i il; rewrite /= ea.
  case: (cv i _) => [s|//] /= [es]; case: (cv j _) => [s'|//] /= [es']; exists s', s; split=> //.
    by move: ab; rewrite es es' ler_opp2.
  by rewrite es.
Qed.
Print Assumptions C190_best.

(** A candidate whose score is nan (its fit failed) is taken for the best. *)
Theorem C190_nan_refuted : forall cv names next max_iter design mdl f XY, fit cv names next max_iter design mdl = Val (f, XY) ->
  (exists2 xy, xy \in XY & xy.2 = None) -> (nth ([::], Some 0) XY (best_index f)).2 = None /\ best_score f = None.
Proof.
move=> cv names next k design mdl f XY; rewrite /fit; case: (initial _ _ _ _) => m1 h1; case: (run _ _ _ _ _ _) => m2 h2.
case er: (rev h2) => [//|xy0 l]; rewrite -er => -[<- <-] [xy xin xn] /=.
have h : has (fun y : score => y == None) (unzip2 (rev h2)) by apply/hasP; exists None => //; rewrite -xn map_f.
have il : (np_argmin (unzip2 (rev h2)) < size (rev h2))%N by rewrite /np_argmin h -(size_map snd) -has_find.
have := argmin_nan h; rewrite (nth_map ([::], Some 0)) // => e; split=> //.
by rewrite (nth_map ([::], Some 0)).
Qed.
Print Assumptions C190_nan_refuted.

(** The search changes the estimator it was given: afterwards it has the parameters of the last evaluated point. *)
Theorem C190_estimator_refuted : forall cv names next max_iter design mdl f XY, uniq names -> (forall k m m', m =1 m' -> cv k m = cv k m') ->
  (forall h x, next h = Some x -> size x = size names) -> (forall x, x \in design -> size x = size names) ->
  fit cv names next max_iter design mdl = Val (f, XY) -> estimator f =1 candidate names mdl (last ([::], None) XY).1.
Proof.
move=> cv names next k design mdl f XY un ext hn hd; rewrite /fit.
have w1 := @wf_initial cv names mdl un ext design hd; case e1: (initial _ _ _ _) w1 => [m1 h1] w1.
have w2 := @wf_run cv names mdl un ext next k hn _ w1; rewrite /= in w2; case e2: (run _ _ _ _ _ _) w2 => [m2 h2] [/= q1 q2 q3 q4].
case er: (rev h2) => [//|xy0 l]; rewrite -er => -[<- <-] /= a; rewrite q4.
by case: h2 er {e2 q1 q2 q3 q4} => [//|xy h2] _; rewrite rev_cons last_rcons.
Qed.
Print Assumptions C190_estimator_refuted.

(** plot_acquisition plots the finite values with their points and leaves X and Y as they were; refuted when the plot raises. *)
Theorem C190_plot : forall (T : Type) (A : eqType) (plot : seq A -> seq (option R) -> res T) X Y, size X = size Y ->
  let keep := [seq i <- iota 0 (size Y) | isSome (nth None Y i)] in
  forall x0, let r := plot [seq nth x0 X i | i <- keep] [seq nth None Y i | i <- keep] in
  (plot_acquisition plot X Y).1 = r /\ (forall v, r = Val v -> (plot_acquisition plot X Y).2 = (X, Y)).
Proof.
move=> T A plot X Y sXY keep x0.
have km (B : Type) (b0 : B) (Z : seq B) : size Z = size Y -> mask [seq isSome y | y <- Y] Z = [seq nth b0 Z i | i <- keep].
  rewrite /keep; elim: Y Z {sXY keep} => [|y Y IH] [|z Z] //= [sz].
  have e : [seq i <- iota 1 (size Y) | isSome (nth None (y :: Y) i)] = map S [seq i <- iota 0 (size Y) | isSome (nth None Y i)].
    by rewrite -[1%N]/(1 + 0)%N iotaDl filter_map.
  case: y e => [v|] /= ->; rewrite (IH _ sz) -map_comp; by [].
by rewrite /plot_acquisition !(km _ x0 X) // !(km _ None Y) //=; case: (plot _ _) => [v|e]; split.
Qed.
Print Assumptions C190_plot.
Theorem C190_plot_refuted : forall (T A : Type) e (X : seq A) (Y : seq (option R)), size X = size Y -> has (fun y => ~~ isSome y) Y ->
  (size (plot_acquisition (fun _ _ => Raise e : res T) X Y).2.1 < size X)%N.
Proof.
move=> T A e X Y sXY /= h; rewrite size_mask ?size_map // sXY count_map -(count_predC isSome Y) -[X in (X < _)%N]addn0 ltn_add2l.
by rewrite -has_count.
Qed.
Print Assumptions C190_plot_refuted.

Example C190_case : exists f, fit (fun _ m => Some (m 3%N)) [:: 3; 7]%N (fun _ => None) 5 [:: [:: 0; 1]; [:: 1; 0]] (fun=> 0) =
   Val (f, [:: ([:: 0; 1], Some (- Rpower 10%:R 0)); ([:: 1; 0], Some (- Rpower 10%:R 1))]).
Proof. by eexists; rewrite /fit /=; reflexivity. Qed.
