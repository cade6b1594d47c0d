(** Expectations over independent uniform numbers: lemmas. *)
From Coq Require Import Reals.
From mathcomp Require Import all_ssreflect all_algebra.
From Verif Require Import RStruct RTac S_Prob.
Import Order.TTheory GRing.Theory Num.Theory.

Set Implicit Arguments.
Unset Strict Implicit.
Unset Printing Implicit Defensive.
Local Open Scope ring_scope.

Section Grid.
Variable g : seq R.
Hypothesis gok : grid_ok g.

Lemma grid_mono k : (k < (size g).-1)%N -> nth 0 g k <= nth 0 g k.+1.
Proof.
case: gok => g2 gs _ _ kg; have := gs; move/(sortedP 0) => /(_ k); apply.
by rewrite -ltn_predRL.
Qed.
Lemma grid_le i j : (i <= j)%N -> (j < size g)%N -> nth 0 g i <= nth 0 g j.
Proof.
case: gok => g2 gs _ _ ij jg.
apply: (sorted_leq_nth (@le_trans _ _) (@lexx _ _)) => //; rewrite inE //; exact: leq_ltn_trans ij jg.
Qed.
Lemma grid_in t : t \in g -> 0 <= t <= 1.
Proof.
case: gok => g2 gs g0 g1 /(nthP 0) [i ig <-].
rewrite -{1}g0 -g1; apply/andP; split; apply: grid_le => //; first by rewrite -ltnS prednK ?(ltnW g2).
by rewrite prednK ?(ltnW g2).
Qed.

Lemma tele m : (m < size g)%N -> \sum_(k < m) (nth 0 g k.+1 - nth 0 g k) = nth 0 g m.
Proof.
case: gok => g2 gs g0 g1.
elim: m => [|m IH] mg; first by rewrite big_ord0 g0.
by rewrite big_ord_recr /= IH ?(ltnW mg) // addrC subrK.
Qed.

Lemma expect1_const c : expect1 g (fun=> c) = c.
Proof.
case: gok => g2 gs g0 g1.
by rewrite /expect1 -big_distrl /= tele ?g1 ?mul1r // prednK // (ltnW g2).
Qed.
Lemma expect1D f h : expect1 g (fun u => f u + h u) = expect1 g f + expect1 g h.
Proof. by rewrite /expect1 -big_split; apply: eq_bigr => k _; rewrite mulrDr. Qed.
Lemma expect1Z a f : expect1 g (fun u => a * f u) = a * expect1 g f.
Proof. by rewrite /expect1 big_distrr; apply: eq_bigr => k _ /=; rewrite mulrCA. Qed.
Lemma expect1_sum (I : finType) (F : I -> R -> R) : expect1 g (fun u => \sum_i F i u) = \sum_i expect1 g (F i).
Proof. by rewrite /expect1 exchange_big /=; apply: eq_bigr => k _; rewrite big_distrr. Qed.
Lemma expect1_le f h : (forall u, u \in g -> f u <= h u) -> expect1 g f <= expect1 g h.
Proof.
move=> fh; apply: ler_sum => k _; apply: ler_wpmul2l; first by rewrite subr_ge0 grid_mono.
apply: fh; apply: mem_nth; apply: (leq_trans (ltn_ord k)); exact: leq_pred.
Qed.
Lemma expect1_eq f h : f =1 h -> expect1 g f = expect1 g h.
Proof. by move=> fh; apply: eq_bigr => k _; rewrite fh. Qed.

(** a uniform number is below a cut point t with probability t *)
Lemma expect1_ind (t : R) : t \in g -> expect1 g (fun u => (u < t)%R%:R) = t.
Proof.
case: gok => g2 gs g0 g1 /(nthP 0) [i ig <-].
have ile : (i <= (size g).-1)%N by rewrite -ltnS prednK ?(ltnW g2).
rewrite /expect1 -[RHS](tele ig) [RHS](big_ord_widen _ (fun k => nth 0 g k.+1 - nth 0 g k) ile) [RHS]big_mkcond /=.
apply: eq_bigr => k _; case: (leqP i k) => ik; last first.
  case: (ltrgtP (nth 0 g k) (nth 0 g i)) => [_|gti|e]; rewrite ?mulr1 //.
    by have := grid_le (ltnW ik) ig; rewrite leNgt gti.
  have e2 : nth 0 g k.+1 = nth 0 g k.
    apply/eqP; rewrite eq_le grid_mono ?(leq_trans ik) // andbT e; exact: grid_le.
  by rewrite e2 subrr mul0r.
have kg : (k < size g)%N by apply: (leq_trans (ltn_ord k)); exact: leq_pred.
by rewrite ltNge grid_le // mulr0.
Qed.

(** a function of u that only depends on whether u < t *)
Lemma expect1_if (t a b : R) : t \in g -> expect1 g (fun u => if u < t then a else b) = t * a + (1 - t) * b.
Proof.
move=> tg.
rewrite (expect1_eq (h := fun u => (a - b) * (u < t)%R%:R + b)); last first.
  by move=> u; case: (u < t); rewrite ?mulr1 ?mulr0 ?subrK ?add0r.
rewrite expect1D expect1Z expect1_ind // expect1_const.
by move: (t) (a) (b) => x y z; mcring.
Qed.

Section Key.
Variable K : eqType.
Implicit Types (ks : seq K) (f h : (K -> R) -> R) (d : K -> R).

(** expectations only look at assignments with values in the grid for the keys *)
Definition drawn ks d0 d : Prop := (forall k, k \in ks -> d k \in g) /\ (forall k, k \notin ks -> d k = d0 k).

Lemma drawn_cons k ks d0 d u : u \in g -> k \notin ks -> drawn ks (assign d0 k u) d -> drawn (k :: ks) d0 d /\ d k = u.
Proof.
move=> ug kn [i o]; split; last by rewrite o // /assign eqxx.
split=> k'; rewrite !inE ?negb_or.
  by case/orP=> [/eqP ->|]; [rewrite o // /assign eqxx | apply: i].
by case/andP=> nk nks; rewrite o // /assign (negbTE nk).
Qed.

Lemma expect_le ks f h d0 : uniq ks -> (forall d, drawn ks d0 d -> f d <= h d) ->
  expect g ks f d0 <= expect g ks h d0.
Proof.
elim: ks d0 => [|k ks IH] d0 /=; first by move=> _ fh; apply: fh; split.
case/andP=> kn un fh; apply: expect1_le => u ug; apply: IH => // d dr; apply: fh.
by case: (drawn_cons ug kn dr).
Qed.
Lemma expect_eq_in ks f h d0 : uniq ks -> (forall d, drawn ks d0 d -> f d = h d) ->
  expect g ks f d0 = expect g ks h d0.
Proof.
move=> un fh; apply/eqP; rewrite eq_le; apply/andP; split; apply: expect_le => // d dr; rewrite fh //.
Qed.
Lemma expect_eq ks f h d0 : f =1 h -> expect g ks f d0 = expect g ks h d0.
Proof. by move=> fh; elim: ks d0 => [|k ks IH] d0 /=; [apply: fh | apply: expect1_eq => u; apply: IH]. Qed.
Lemma expect_const ks c d0 : expect g ks (fun=> c) d0 = c.
Proof.
elim: ks d0 => [|k ks IH] d0 //=; rewrite -[RHS]expect1_const; apply: expect1_eq => u; exact: IH.
Qed.
Lemma expectD ks f h d0 : expect g ks (fun d => f d + h d) d0 = expect g ks f d0 + expect g ks h d0.
Proof.
elim: ks d0 => [|k ks IH] d0 //=; rewrite -expect1D; apply: expect1_eq => u; exact: IH.
Qed.
Lemma expectZ ks a f d0 : expect g ks (fun d => a * f d) d0 = a * expect g ks f d0.
Proof.
elim: ks d0 => [|k ks IH] d0 //=; rewrite -expect1Z; apply: expect1_eq => u; exact: IH.
Qed.
Lemma expectB ks f h d0 : expect g ks (fun d => f d - h d) d0 = expect g ks f d0 - expect g ks h d0.
Proof.
rewrite -mulN1r -expectZ -expectD; apply: expect_eq => d; by rewrite mulN1r.
Qed.
Lemma expect_sum (I : finType) ks (F : I -> (K -> R) -> R) d0 :
  expect g ks (fun d => \sum_i F i d) d0 = \sum_i expect g ks (F i) d0.
Proof.
elim: ks d0 => [|k ks IH] d0 //=; rewrite -expect1_sum; apply: expect1_eq => u; exact: IH.
Qed.
Lemma expect_cat ks ks' f d0 : expect g (ks ++ ks') f d0 = expect g ks (expect g ks' f) d0.
Proof. by elim: ks d0 => [|k ks IH] d0 //=; apply: expect1_eq => u; apply: IH. Qed.

(** a function that only reads the keys does not depend on the other numbers *)
Definition reads ks f : Prop := forall d d', {in ks, d =1 d'} -> f d = f d'.
Lemma expect_local ks f d0 d1 : reads ks f -> expect g ks f d0 = expect g ks f d1.
Proof.
move=> rf; have gen : forall l e0 e1, (forall d d', {in ks, forall k, k \in l \/ e0 k = e1 k}) ->
    {in ks, forall k, k \notin l -> e0 k = e1 k} -> expect g l f e0 = expect g l f e1.
  elim=> [|k l IH] e0 e1 _ h /=; first by apply: rf => k kk; apply: h.
  apply: expect1_eq => u; apply: IH.
    by move=> _ _ k' kk; case: (boolP (k' \in l)) => [|n]; [left|right]; rewrite // /assign;
       case: eqP => // ne; apply: h => //; rewrite inE negb_or n andbT; apply/eqP.
  move=> k' kk n; rewrite /assign; case: eqP => // ne; apply: h => //.
  by rewrite inE negb_or n andbT; apply/eqP.
by apply: gen => [d d' k ->|k ->]; [left|].
Qed.

(** independent events: all the numbers are below t *)
Lemma expect_all ks (t : R) d0 : t \in g -> uniq ks ->
  expect g ks (fun d => (all (fun k => d k < t)%R ks)%:R) d0 = t ^+ size ks.
Proof.
move=> tg; elim: ks d0 => [|k ks IH] d0 /=; first by rewrite expr0.
case/andP=> kn un.
rewrite (expect1_eq (h := fun u => t ^+ size ks * (u < t)%R%:R)).
  by rewrite expect1Z expect1_ind // exprS mulrC.
move=> u; rewrite -(IH (assign d0 k u)) // mulrC -expectZ; apply: expect_eq_in => // d [_ o].
by rewrite o // /assign eqxx; case: (u < t); rewrite ?mul1r ?mul0r.
Qed.
End Key.
End Grid.
