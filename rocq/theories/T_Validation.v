(** Property theorems C154: the validation of the data. *)
From Coq Require Import Reals String.
From mathcomp Require Import all_ssreflect all_algebra.
From Verif Require Import RStruct M_Utils M_Validation.
Import Order.TTheory GRing.Theory Num.Theory.

Set Implicit Arguments.
Unset Strict Implicit.
Unset Printing Implicit Defensive.
Local Open Scope ring_scope.

(** what is accepted: at least one time, at least two samples and two variables at each time, the same variables at all times *)
Definition well_formed (l : seq table) (d : nat) : Prop :=
  (0 < size l)%N /\ (2 <= d)%N /\ forall x, x \in map (fun x => (n_rows x, n_cols x)) l -> (2 <= x.1)%N /\ x.2 = d.
(** two arrays with the same shape and the same entries *)
Definition same_table (x y : table) : Prop := n_rows x = n_rows y /\ n_cols x = n_cols y /\
  forall i j, (i < n_rows x)%N -> (j < n_cols x)%N -> entry x i j = entry y i j.

Lemma undup1 (s : seq nat) d : size (undup s) = 1%N -> forall c, c \in s -> c = head d s.
Proof.
move=> h c cs; case: s h cs => [|a s] // h cs.
have ma := mem_undup (a :: s); case: (undup (a :: s)) h ma => [|b [|]] // _ ma.
have := ma a; rewrite mem_head inE => /eqP /= ->; have := ma c; rewrite cs inE => /eqP //.
Qed.
Lemma undup_nseq (c k : nat) (s : seq nat) : (forall x, x \in s -> x = c) -> (0 < size s)%N -> size (undup s) = 1%N.
Proof.
move=> h s0; have e : s = nseq (size s) c by elim: s h {s0} => //= a s IH h; congr (_ :: _); [rewrite (h a) ?mem_head|apply: IH => x xs; apply: h; rewrite inE xs orbT].
rewrite e; case: (size s) s0 => // n _; elim: n => //= n IH; rewrite inE eqxx /=; exact: IH.
Qed.
Lemma array_uniform X tm l : check_array_dimensions X tm = Val (false, l) -> exists c, forall x, x \in [seq n_cols x | x <- l] -> x = c.
Proof.
case: X => [l0|x|n0 n1 n2 x|k|] //=; first by move=> [<-]; exists (n_cols x) => z; rewrite inE => /eqP.
by case: ifP => _ [<-]; [exists n1|exists n2]; rewrite -map_comp => z /mapP[i _ ->].
Qed.

(** whatever is accepted is well formed, and the numbers that are returned describe it *)
Theorem C154_sound : forall ragged X y time_on_axis l ns d T, check_input ragged X y time_on_axis = Val (l, ns, d, T) ->
  y = false /\ well_formed l d /\ ns = [seq n_rows x | x <- l] /\ T = size l.
Proof.
move=> rg X y tm l ns d T h.
have {h} [yF h] : y = false /\ check_input_3d rg X tm = Val (l, ns, d, T) by case: X h => [l0|x|n0 n1 n2 x|k|] //; case: (y).
split=> //; move: h; rewrite /check_input_3d; case e: (check_array_dimensions _ _) => [[il l0]|//].
case ha: (all _ _) => //=; case: ifP => // _.
have wf c : (forall x, x \in [seq n_cols x | x <- l0] -> x = c) -> (0 < size l0)%N -> well_formed l0 c.
  move=> hc s0; split=> //; have hx x : x \in [seq (n_rows x, n_cols x) | x <- l0] -> (2 <= x.1)%N /\ (2 <= x.2)%N.
    by move: ha; elim: (l0) => //= y' l' IH /andP[/andP[h1 h2] h3]; rewrite inE => /orP[/eqP -> //|]; exact: IH.
  have hx2 x : x \in [seq (n_rows x, n_cols x) | x <- l0] -> x.2 = c.
    move=> xl; apply: hc; have : x.2 \in [seq z.2 | z <- [seq (n_rows x, n_cols x) | x <- l0]] by apply: map_f.
    by rewrite -map_comp.
  split; last by move=> x xl; split; [case: (hx x xl)|exact: hx2].
  case: l0 s0 hx hx2 {ha e hc} => // z l' _ hx hx2; rewrite -(hx2 (n_rows z, n_cols z)) /= ?mem_head //.
  by case: (hx (n_rows z, n_cols z)); rewrite ?mem_head.
case: il e => e.
  case: eqP => //= u1 [<- <- <- <-]; split=> //; apply: wf; last by case: (l0) u1.
  exact: undup1.
case: l0 e wf {ha} => // x l0 e wf [<- <- <- <-]; split=> //; apply: wf => //.
have [c hc] := array_uniform e => z zl; rewrite (hc z zl); by rewrite (hc (n_cols x)) //= mem_head.
Qed.
Print Assumptions C154_sound.
(** an array with the time on the first axis, and on the last one *)
Theorem C154_layout : forall ragged (x : nat -> nat -> nat -> R) T n d, (0 < T)%N -> (2 <= n)%N -> (2 <= d)%N ->
  exists l l', check_input ragged (DArray3 T n d x) false "first" = Val (l, nseq T n, d, T) /\
    check_input ragged (DArray3 n d T x) false "last" = Val (l', nseq T n, d, T) /\
    forall t, (t < T)%N -> same_table (nth (Table 0 0 (fun _ _ => 0)) l t) (Table n d (fun j k => x t j k)) /\
      same_table (nth (Table 0 0 (fun _ _ => 0)) l' t) (Table n d (fun j k => x j k t)).
Proof.
move=> rg x T n d T0 n2 d2; rewrite /check_input /check_input_3d /=.
set l1 := [seq _ | i <- iota 0 T]; set l2 := [seq Table n d (fun j k => x j k i) | i <- iota 0 T]; exists l1, l2.
have al (f : nat -> nat -> nat -> R) : let l := [seq Table n d (f i) | i <- iota 0 T] in
  [/\ all check_array l, [seq n_rows x | x <- l] = nseq T n, size l = T & exists h tl, l = h :: tl /\ n_cols h = d].
  have szi : size (iota 0 T) = T by exact: size_iota.
  split=> /=.
  - by rewrite all_map; apply/allP => i _ /=; rewrite /check_array /= n2 d2.
  - by rewrite -map_comp -[in RHS]szi; elim: (iota 0 T) => //= a s ->.
  - by rewrite size_map szi.
  - by case: (iota 0 T) szi => [|a s] //=; [move=> e; rewrite -e in T0|move=> _; do 2 eexists].
have un : (size (undup (nseq T n)) > 1)%N = false.
  by rewrite (@undup_nseq n 0) ?size_nseq // => z /nseqP[].
have [a1 b1 c1 [h1 [tl1 [e1 f1]]]] := al (fun i j k => x i j k).
have [a2 b2 c2 [h2 [tl2 [e2 f2]]]] := al (fun i j k => x j k i).
rewrite -/l1 in a1 b1 c1 e1; rewrite -/l2 in a2 b2 c2 e2.
split; first by rewrite a1 b1 un andbF c1 /=; move: e1; case: (l1) => // ? ? [-> _]; rewrite f1.
split; first by rewrite a2 b2 un andbF c2 /=; move: e2; case: (l2) => // ? ? [-> _]; rewrite f2.
by move=> t tT; rewrite !(nth_map 0%N) ?size_iota // nth_iota.
Qed.
Print Assumptions C154_layout.
(** a list of arrays: returned unchanged when it is well formed, with equally many samples or an older numpy *)
Theorem C154_list : forall (ragged : bool) l d time_on_axis, well_formed l d -> (ragged \/ exists n, forall k, (k < size l)%N -> n_rows (nth (Table 0 0 (fun _ _ => 0)) l k) = n) ->
  check_input ragged (DList l) false time_on_axis = Val (l, [seq n_rows x | x <- l], d, size l).
Proof.
move=> rg l d tm [l0 [d2 hl]] hr; rewrite /check_input /check_input_3d /=.
have hl' x : x \in [seq (n_rows x, n_cols x) | x <- l] -> (2 <= x.1)%N /\ x.2 = d by exact: hl.
have -> : all check_array l.
  move: hl'; elim: (l) => //= y l' IH h; rewrite IH => [|x xl]; last by apply: h; rewrite inE xl orbT.
  by have [/= h1 h2] := h _ (mem_head _ _); rewrite /check_array h1 h2 d2.
have hc x : x \in [seq n_cols x | x <- l] -> x = d.
  have -> : [seq n_cols x | x <- l] = [seq z.2 | z <- [seq (n_rows x, n_cols x) | x <- l]] by rewrite -map_comp.
  by move=> /mapP[z /hl' [_ <-] ->].
rewrite (@undup_nseq d 0 [seq n_cols x | x <- l]) ?size_map //.
have -> : ~~ rg && (1 < size (undup [seq n_rows x | x <- l]))%N = false.
  case: hr => [->//|[n hn]]; rewrite (@undup_nseq n 0) ?size_map ?andbF // => z /(nthP 0%N)[k]; rewrite size_map => kl <-.
  by rewrite (nth_map (Table 0 0 (fun _ _ => 0))) // hn.
by rewrite /= -(hc (head 0%N [seq n_cols x | x <- l])) //; case: (l) l0 => //= a s _; rewrite mem_head.
Qed.
Print Assumptions C154_list.
(** expected: times with different numbers of samples are accepted (their numbers are returned as an array). With numpy 1.24 or later they are not *)
Theorem C154_unequal_refuted : forall l time_on_axis i j, (i < size l)%N -> (j < size l)%N ->
  n_rows (nth (Table 0 0 (fun _ _ => 0)) l i) <> n_rows (nth (Table 0 0 (fun _ _ => 0)) l j) ->
  check_input false (DList l) false time_on_axis = Raise ValueError.
Proof.
move=> l tm i j il jl ne; rewrite /check_input /check_input_3d /=; case: (all _ _) => //=; case: ltnP => // h; exfalso.
have h1 : size (undup [seq n_rows x | x <- l]) = 1%N.
  apply/eqP; rewrite eqn_leq h /= lt0n size_eq0; apply/negP => /eqP /undup_nil; by case: (l) il.
have mem k : (k < size l)%N -> n_rows (nth (Table 0 0 (fun _ _ => 0)) l k) \in [seq n_rows x | x <- l].
  by move=> kl; rewrite -(nth_map _ 0%N) // mem_nth // size_map.
by apply: ne; rewrite (undup1 0%N h1 (mem i il)) (undup1 0%N h1 (mem j jl)).
Qed.
Print Assumptions C154_unequal_refuted.
(** expected: time_on_axis says where the time is. It is ignored for lists and two-dimensional arrays, and any other word means "first" *)
Theorem C154_axis_refuted : forall ragged y,
  (forall l a b, check_input ragged (DList l) y a = check_input ragged (DList l) y b) /\
  (forall x a b, check_input ragged (DArray2 x) y a = check_input ragged (DArray2 x) y b) /\
  (forall X a, a <> "last"%string -> check_input ragged X y a = check_input ragged X y "first").
Proof.
move=> rg y; split; [by []|split; first by []] => X a al; have af : String.eqb a "last" = false by apply/String.eqb_neq.
by case: X => [l0|x|n0 n1 n2 x|k|] //; rewrite /check_input /check_input_3d /= af.
Qed.
Print Assumptions C154_axis_refuted.
(** labels and sparse matrices are never accepted *)
Theorem C154_rejected : forall ragged X time_on_axis,
  check_input ragged X true time_on_axis = Raise (if X is DSparse then TypeError else ValueError) /\
  (forall y, check_input ragged DSparse y time_on_axis = Raise TypeError) /\
  (forall k, check_input ragged (DArrayN k) false time_on_axis = Raise ValueError).
Proof. by move=> rg X tm; split=> //; case: X. Qed.
Print Assumptions C154_rejected.
Example C154_case : let x := Table 3 2 (fun i j => i%:R) in let x' := Table 4 2 (fun i j => j%:R) in
  check_input true (DList [:: x; x']) false "last" = Val ([:: x; x'], [:: 3; 4]%N, 2%N, 2%N) /\
  check_input false (DList [:: x; x']) false "last" = Raise ValueError.
Proof.
move=> x x'; split; last by apply: (@C154_unequal_refuted _ _ 0 1).
rewrite (@C154_list _ _ 2) //; last by left.
by do 2 split=> //; move=> z; rewrite !inE => /orP[] /eqP ->.
Qed.
