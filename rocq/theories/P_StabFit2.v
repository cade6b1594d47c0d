(** Proofs about the sampling size, the table of the results and the selection. *)
From Coq Require Import Reals String.
From mathcomp Require Import all_ssreflect all_algebra.
From Verif Require Import RStruct RTac NP Str M_Utils M_Stab M_StabFit S_StabFit.
Import Order.TTheory GRing.Theory Num.Theory.

Set Implicit Arguments.
Unset Strict Implicit.
Unset Printing Implicit Defensive.

(** * the integer square root *)
Lemma nat_sqrt_le m k : (k <= Nat.sqrt m)%N = (k * k <= m)%N.
Proof.
have [h1 h2] := PeanoNat.Nat.sqrt_spec m (PeanoNat.Nat.le_0_l _).
apply/idP/idP => [h|h].
  by apply: (leq_trans (leq_mul h h)); apply/ssrnat.leP.
have {}h2 : (m < (Nat.sqrt m).+1 * (Nat.sqrt m).+1)%N by apply/ssrnat.ltP.
by rewrite -ltnS ltnNge; apply/negP => hk; have := leq_trans h2 (leq_trans (leq_mul hk hk) h); rewrite ltnn.
Qed.

Local Open Scope ring_scope.
Lemma default_size_max n (k : nat) :
  (k%:Z <= default_size n) = (k * k <= 100 * n)%N && (k + 10 <= n)%N.
Proof.
rewrite /default_size le_minr lez_nat nat_sqrt_le; congr andb.
by rewrite ler_subr_addr -PoszD lez_nat.
Qed.
Lemma default_size_pos n : (1%:Z <= default_size n) = (10 < n)%N.
Proof.
rewrite (default_size_max n 1) add1n; case: (ltnP 10 n) => h; rewrite ?andbF // andbT mul1n.
by rewrite muln_gt0 (ltn_trans _ h).
Qed.

Lemma fit_size_classes stored n k : (0 < k)%N ->
  let s := if stored is Some s then s else default_size n in
  [/\ (k %| `|fit_size stored n (Some k)|)%N, fit_size stored n (Some k) <= s & s < fit_size stored n (Some k) + k%:Z].
Proof.
move=> k0; cbv zeta; rewrite /fit_size; move: (if stored is Some s then s else default_size n) => s.
have kz : k%:Z != 0 by rewrite eqz_nat -lt0n.
have kp : (0 : int) < k%:Z by rewrite ltz_nat.
case: eqP => [e|_] /=.
  split=> //; last by rewrite ltr_addl.
  by move/dvdz_mod0P: e.
split.
- by rewrite abszM dvdn_mull.
- by rewrite {2}(divz_eq s k%:Z) ler_addl modz_ge0.
by rewrite {1}(divz_eq s k%:Z) ltr_add2l ltz_mod.
Qed.

(** * the order of the fits *)
Lemma nth_product C D O (o0 : O) c0 d0 (run : C -> D -> O) cs ds i j : (i < size cs)%N -> (j < size ds)%N ->
  nth o0 [seq run c d | c <- cs, d <- ds] (i * size ds + j)%N = run (nth c0 cs i) (nth d0 ds j).
Proof.
move=> hi hj; elim: cs i hi => [|c cs IH] [|i] //= hi.
  by rewrite nth_cat size_map mul0n add0n hj (nth_map d0).
by rewrite nth_cat size_map mulSn -addnA ltnNge leq_addr /= addKn IH.
Qed.

(** * the table *)
Definition average_of (w : option (seq R)) n (f : nat -> R) : R := (\sum_(i < n) weight_of w i * f i) / \sum_(i < n) weight_of w i.
Lemma np_averageE w n (f : nat -> R) : weights_ok w n ->
  np_average w [seq f i | i <- iota 0 n] = Val (average_of w n f).
Proof.
have io : iota 0 n = index_iota 0 n by rewrite /index_iota subn0.
rewrite /np_average /average_of /weights_ok /weight_of; case: w => [w [sw w0]|_].
  rewrite (negbTE w0); congr (Val (_ / _)); last by rewrite (big_nth 0) big_mkord sw.
  rewrite size_map size_iota {1}io big_mkord; apply: eq_bigr => i _.
  by rewrite (nth_map 0%N) ?size_iota // nth_iota.
congr (Val (_ / _)); last by rewrite size_map size_iota sumr_const card_ord.
by rewrite big_map io big_mkord; apply: eq_bigr => i _; rewrite mul1r.
Qed.
Lemma res_all_val A B (f : A -> B) l : res_all [seq Val (f x) | x <- l] = Val [seq f x | x <- l].
Proof. by elim: l => //= x l ->. Qed.

Lemma storeE C D (run : C -> D -> R) (c0 : C) (d0 : D) cs ds w : weights_ok w (size ds) ->
  let score c s := run (nth c0 cs c) (nth d0 ds s) in
  let mean c := average_of w (size ds) (score c) in
  store (size cs) (size ds) [seq run c d | c <- cs, d <- ds] w =
  Val (Table [seq [seq score c s | c <- iota 0 (size cs)] | s <- iota 0 (size ds)]
             [seq mean c | c <- iota 0 (size cs)]
             [seq sqrt (average_of w (size ds) (fun s => (score c s - mean c) ^+ 2)) | c <- iota 0 (size cs)]
             (rank_min [seq Fin (- mean c) | c <- iota 0 (size cs)])).
Proof.
move=> wok score mean; rewrite /store.
have rw c s : (c < size cs)%N -> (s < size ds)%N -> reshaped 0 (size ds) [seq run c d | c <- cs, d <- ds] c s = score c s.
  by move=> hc hs; rewrite /reshaped (nth_product _ c0 d0).
have row c : (c < size cs)%N -> [seq reshaped 0 (size ds) [seq run c d | c <- cs, d <- ds] c s | s <- iota 0 (size ds)] =
    [seq score c s | s <- iota 0 (size ds)].
  by move=> hc; apply/eq_in_map => s; rewrite mem_iota add0n => hs; rewrite rw.
have -> : [seq np_average w [seq reshaped 0 (size ds) [seq run c0 d | c0 <- cs, d <- ds] c s | s <- iota 0 (size ds)]
          | c <- iota 0 (size cs)] = [seq Val (mean c) | c <- iota 0 (size cs)].
  by apply/eq_in_map => c; rewrite mem_iota add0n => hc; rewrite row // np_averageE.
rewrite res_all_val.
set M := [seq mean c | c <- _]; set V := [seq np_average _ _ | c <- _].
have -> : V = [seq Val (average_of w (size ds) (fun s => (score c s - mean c) ^+ 2)) | c <- iota 0 (size cs)].
  apply/eq_in_map => c; rewrite mem_iota add0n => hc; rewrite row // -map_comp (nth_map 0%N) ?size_iota // nth_iota //=.
  by rewrite -np_averageE //; congr np_average.
rewrite res_all_val -map_comp; congr (Val (Table _ _ _ _)).
- by apply/eq_in_map => s; rewrite mem_iota add0n => hs; apply/eq_in_map => c; rewrite mem_iota add0n => hc; rewrite rw.
- by rewrite /M -map_comp.
Qed.

(** * the masked arrays of the parameters *)
Lemma dict_get_set V (d : pydict V) k v k' : dict_get (dict_set d k v) k' = if k == k' then Some v else dict_get d k'.
Proof.
rewrite /dict_get; elim: d => [|[a b] d IH] /=; first by case: eqP.
have [-> /=|ak] := eqVneq a k; first by case: eqP.
rewrite /=; have [e|_] := eqVneq a k'; last exact: IH.
by rewrite -e eq_sym (negbTE ak).
Qed.
Lemma prefix_inj a b : (("param_" ++ a)%string == ("param_" ++ b)%string) = (a == b).
Proof. by apply/eqP/eqP => [[]|->]. Qed.

Lemma dict_get_none V (p : pydict V) k : k \notin [seq kv.1 | kv <- p] -> dict_get p k = None.
Proof.
elim: p => [|[a b] p IH] //=; rewrite inE negb_or eq_sym => /andP[ak /IH].
by rewrite /dict_get /= (negbTE ak).
Qed.

Section Params.
Variables (V : Type) (n : nat).
Let step (c : nat) (d : pydict (seq (option V))) (kv : string * V) :=
  let key := ("param_" ++ kv.1)%string in
  let row := odflt (nseq n None) (dict_get d key) in
  dict_set d key (set_cell row c kv.2).
Lemma cell_step c d kv name i : cell (step c d kv) ("param_" ++ name)%string i =
  if (kv.1 == name) && (i == c) then Some kv.2 else cell d ("param_" ++ name)%string i.
Proof.
rewrite /cell /step dict_get_set prefix_inj; have [<-|//] := eqVneq kv.1 name.
rewrite /set_cell nth_set_nth /=; case: eqP => // _.
by case: (dict_get _ _) => //=; rewrite nth_nseq if_same.
Qed.
Lemma cell_row c d (p : pydict V) name i : uniq [seq kv.1 | kv <- p] ->
  cell (foldl (step c) d p) ("param_" ++ name)%string i =
  if i == c then (if dict_get p name is Some v then Some v else cell d ("param_" ++ name)%string i)
  else cell d ("param_" ++ name)%string i.
Proof.
elim: p d => [|[k v] p IH] d /=; first by rewrite if_same.
case/andP=> kp up; rewrite (IH _ up) cell_step /=.
have [->|ic] := eqVneq i c; last by rewrite andbF.
rewrite andbT /dict_get /=; have [e|_] := eqVneq k name => //=.
by rewrite -e; have := dict_get_none kp; rewrite /dict_get => ->.
Qed.
Lemma cell_rows (cs : seq (pydict V)) d name i m : all (fun p => uniq [seq kv.1 | kv <- p]) cs ->
  cell (foldl (fun d (ci : pydict V * nat) => foldl (step ci.2) d ci.1) d (zip cs (iota m (size cs)))) ("param_" ++ name)%string i =
  if (m <= i < m + size cs)%N then (if dict_get (nth [::] cs (i - m)) name is Some v then Some v else cell d ("param_" ++ name)%string i)
  else cell d ("param_" ++ name)%string i.
Proof.
elim: cs d m => [|p cs IH] d m /=; first by rewrite addn0 => _; case: ltnP => //; rewrite ?andbF // leqNgt => ->.
case/andP => up ucs; rewrite (IH _ _ ucs) (cell_row _ _ _ _ up) addSnnS.
case: (ltngtP m i) => [mi|im|<-] /=.
- by rewrite subnS; case: (i - m)%N (subn_gt0 m i) => [|k]; rewrite ?mi.
- by [].
- by rewrite subnn -[X in (X < _)%N]addn0 ltn_add2l.
Qed.
End Params.
