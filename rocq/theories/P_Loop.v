(** Lemmas about the python loop. *)
From Coq Require Import Reals.
From mathcomp Require Import all_ssreflect all_algebra.
From Verif Require Import RStruct NP M_Loop.
Import Order.TTheory GRing.Theory Num.Theory.

Set Implicit Arguments.
Unset Strict Implicit.
Unset Printing Implicit Defensive.

Definition out_state S (o : outcome S) : S := match o with Break s | Next s => s end.
Definition is_break S (o : outcome S) : bool := if o is Break _ then true else false.

Section Loop.
Variables (S C : Type) (body : nat -> S -> outcome S * C).

(** state after k iterations, ignoring breaks *)
Fixpoint iter_state (it : nat) (s : S) (k : nat) : S :=
  if k is k'.+1 then out_state (body (it + k') (iter_state it s k')).1 else s.
Lemma iter_stateS it s k :
  iter_state it s k.+1 = iter_state it.+1 (out_state (body it s).1) k.
Proof.
elim: k => [|k IH]; first by rewrite /= addn0.
have -> : iter_state it s k.+2 = out_state (body (it + k.+1) (iter_state it s k.+1)).1 by [].
by rewrite IH /= addnS.
Qed.

(** the loop performs exactly [k] iterations *)
Definition loop_ran (todo it : nat) (s : S) (k : nat) : Prop :=
  (k <= todo)%N /\
  (forall j, (j.+1 < k)%N -> ~~ is_break (body (it + j) (iter_state it s j)).1) /\
  ((k < todo)%N -> (0 < k)%N /\ is_break (body (it + k.-1) (iter_state it s k.-1)).1).

Lemma py_forP todo it s checks last :
  let e := py_for body todo it s checks last in
  exists k, [/\ loop_ran todo it s k,
    le_state e = iter_state it s k,
    le_checks e = checks ++ [seq (body (it + j) (iter_state it s j)).2 | j <- iota 0 k],
    le_iter e = (if k is k'.+1 then Some (it + k') else last)%N &
    le_else e = (k == todo) && ~~ ((0 < k)%N && is_break (body (it + k.-1) (iter_state it s k.-1)).1)].
Proof.
elim: todo it s checks last => [|todo IH] it s checks last /=.
  by exists 0; split=> //; rewrite cats0.
case E: (body it s) => [[s'|s'] c] /=.
  exists 1; rewrite /= addn0 E /= andbF cats1; split=> //.
  by split=> //; split=> // _; rewrite addn0 E.
have [k [[k1 [k2 k3]] -> -> -> ->]] := IH it.+1 s' (rcons checks c) (Some it).
have e j : iter_state it s j.+1 = iter_state it.+1 s' j by rewrite iter_stateS E.
exists k.+1; split.
- split=> //; split.
    move=> [|j]; first by rewrite /= addn0 E.
    rewrite ltnS => /k2; rewrite e addnS -addSn //.
  rewrite ltnS => /k3 [k0 hk]; split=> //.
  by rewrite /= -(prednK k0) e addnS -addSn.
- by rewrite e.
- rewrite -cats1 -catA /= addn0 E /=; congr (_ ++ _ :: _).
  rewrite (iotaDl 1 0) -map_comp; apply: eq_map => j /=; rewrite add1n addnS -addSn.
  by rewrite -e.
- by case: (k) => [|k']; rewrite ?addn0 // addnS.
- rewrite eqSS; congr (_ && ~~ _).
  case: k {k1 k2 k3} => [|k]; first by rewrite /= addn0 E.
  by rewrite /= -e addnS.
Qed.

Lemma py_for_inv (I : S -> Prop) todo it s checks last :
  I s -> (forall j s, I s -> I (out_state (body j s).1)) ->
  I (le_state (py_for body todo it s checks last)).
Proof.
move=> h0 hs; have [k [_ -> _ _ _]] := py_forP todo it s checks last.
by elim: k => //= k IH; apply: hs.
Qed.
Lemma iter_inv (I : S -> Prop) it s k :
  I s -> (forall j s, I s -> I (out_state (body j s).1)) -> I (iter_state it s k).
Proof. by move=> h0 hs; elim: k => //= k IH; apply: hs. Qed.

(** after at least one iteration *)
Lemma py_for_post (I Q : S -> Prop) todo it s checks last :
  (0 < todo)%N -> I s -> (forall j s, I s -> I (out_state (body j s).1) /\ Q (out_state (body j s).1)) ->
  Q (le_state (py_for body todo it s checks last)).
Proof.
move=> t0 h0 hs; have [k [[_ [_ hk]] -> _ _ _]] := py_forP todo it s checks last.
have : (0 < k)%N by case: (posnP k) => // k0; move: hk; rewrite k0 => /(_ t0) [].
case: k {hk} => // k _ /=; apply: (proj2 (hs _ _ _)).
by apply: iter_inv => // j s' /(hs j) [].
Qed.

(** iterations performed, history length and last index *)
Lemma py_for_count todo s :
  let e := py_for body todo 0 s [::] None in
  [/\ (size (le_checks e) <= todo)%N,
      (0 < todo)%N -> (0 < size (le_checks e))%N,
      le_iter e = (if size (le_checks e) is k.+1 then Some k else None) &
      le_else e -> size (le_checks e) = todo].
Proof.
have [k [[k1 [k2 k3]] _ hc hi he]] := py_forP todo 0 s [::] None.
rewrite /= hc /= size_map size_iota hi he; split=> //.
- by move=> t0; case: (posnP k) => // k0; move: k3; rewrite k0 => /(_ t0) [].
- by move=> /andP[/eqP].
Qed.

(** if the body breaks at some iteration < todo, no warning *)
Lemma py_for_nowarn todo it s checks last k :
  (k < todo)%N -> is_break (body (it + k) (iter_state it s k)).1 ->
  ~~ le_else (py_for body todo it s checks last).
Proof.
move=> kt hk; have [k' [[k1 [k2 k3]] _ _ _ ->]] := py_forP todo it s checks last.
rewrite negb_and negbK; have [e|//] := eqVneq k' todo.
have [ek|nk] := eqVneq k k'.-1.
  by rewrite -ek hk andbT e (leq_ltn_trans _ kt).
have : (k.+1 < k')%N.
  move: kt nk; rewrite -e; case: (k') => //= m; rewrite !ltnS => h1 h2; by rewrite ltn_neqAle h2.
by move/k2; rewrite hk.
Qed.
(** a loop that ends without warning was left by the break of its last iteration *)
Lemma py_for_break todo s c0 : let e := py_for body todo 0 s [::] None in
  ~~ le_else e -> exists k, [/\ size (le_checks e) = k.+1, is_break (body k (iter_state 0 s k)).1,
    le_state e = out_state (body k (iter_state 0 s k)).1 &
    last c0 (le_checks e) = (body k (iter_state 0 s k)).2].
Proof.
have [k [[k1 [k2 k3]] hs hc _ he]] := py_forP todo 0 s [::] None.
rewrite /= hs hc he /= => h.
have {h k2 k3} [k0 hb] : (0 < k)%N /\ is_break (body k.-1 (iter_state 0 s k.-1)).1.
  move: k1; rewrite leq_eqVlt => /orP[ek|/k3 //].
  by move: h; rewrite ek /= negbK => /andP.
case: k k0 hb {hs hc he k1} => // k _ hb; exists k; split=> //.
  by rewrite size_map size_iota.
by rewrite -(addn1 k) iotaD map_cat cats1 last_rcons.
Qed.
End Loop.

Section Sim.
Variables (S S' C : Type) (body : nat -> S -> outcome S * C) (body' : nat -> S' -> outcome S' * C).
Variable Rel : S -> S' -> Prop.
Hypothesis H : forall j s s', Rel s s' ->
  [/\ (body j s).2 = (body' j s').2, is_break (body j s).1 = is_break (body' j s').1 &
      Rel (out_state (body j s).1) (out_state (body' j s').1)].
Lemma py_for_sim todo it s s' checks last : Rel s s' ->
  let e := py_for body todo it s checks last in
  let e' := py_for body' todo it s' checks last in
  [/\ Rel (le_state e) (le_state e'), le_checks e = le_checks e', le_iter e = le_iter e' &
      le_else e = le_else e'].
Proof.
elim: todo it s s' checks last => [|todo IH] it s s' checks last r /=; first by split.
case: (H it r); case: (body it s) => [o c]; case: (body' it s') => [o' c'] /= <-.
by case: o => [t|t]; case: o' => [t'|t'] //= _ rt; apply: IH.
Qed.
End Sim.
