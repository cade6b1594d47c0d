(** Proofs about read_network (M_Network.v). *)
From Coq Require Import Reals ZArith Lra.
From mathcomp Require Import all_ssreflect all_algebra.
From Verif Require Import RStruct RTac M_Network.
Import Order.TTheory GRing.Theory Num.Theory.

Set Implicit Arguments.
Unset Strict Implicit.
Unset Printing Implicit Defensive.
Local Open Scope ring_scope.

Lemma mem_genes nn i : (i \in genes nn) = (i \in [seq r.1.1 | r <- nn]).
Proof. by rewrite mem_sort mem_undup. Qed.
Lemma genes_uniq nn : uniq (genes nn).
Proof. by rewrite sort_uniq undup_uniq. Qed.
Lemma genes_sorted nn : sorted ltn (genes nn).
Proof. by rewrite ltn_sorted_uniq_leq genes_uniq sort_sorted //; exact: leq_total. Qed.

(** * the loop *)
Definition good (net : frame) : Prop := (forall i j, net i j = net j i) /\ (forall i j, 0 <= net i j).
Lemma set_both_good net i j w : good net -> 0 < w -> good (set_both net i j w).
Proof.
move=> [h1 h2] w0; split=> a b; rewrite /set_both.
  by rewrite [(a == i) && _]andbC [(a == j) && _]andbC orbC h1.
by case: ifP => // _; exact: ltW.
Qed.
Lemma add_rows_good cols nn : forall net net', good net -> add_rows cols nn net = Some net' -> good net'.
Proof.
elim: nn => [|[[i j] w] nn IH] net net' g /=; first by case=> <-.
case: ifP => w0; last exact: IH.
by case: ifP => // _; apply: IH; exact: set_both_good.
Qed.
(** rows that agree with a symmetric table *)
Lemma add_rows_table cols (W : frame) nn : (forall i j, W i j = W j i) ->
  (forall r, r \in nn -> [/\ r.2 = W r.1.1 r.1.2, r.1.1 \in cols & r.1.2 \in cols]) ->
  forall net, exists net', add_rows cols nn net = Some net' /\
    forall a b, net' a b = if (((a, b) \in [seq r.1 | r <- nn]) || ((b, a) \in [seq r.1 | r <- nn])) && (0 < W a b) then W a b else net a b.
Proof.
move=> sW; elim: nn => [|[[i j] w] nn IH] h net /=; first by exists net.
have [/= ew ic jc] := h _ (mem_head _ _); rewrite ic jc /=.
have {}h r : r \in nn -> [/\ r.2 = W r.1.1 r.1.2, r.1.1 \in cols & r.1.2 \in cols] by move=> rn; apply: h; rewrite inE rn orbT.
case: ifP => w0.
  have [net' [-> hn]] := IH h (set_both net i j w); exists net'; split=> // a b; rewrite hn /set_both !inE !xpair_eqE.
  case: (boolP ((a == i) && (b == j))) => [/andP[/eqP ea /eqP eb]|n1].
    by rewrite ea eb -ew w0 ?eqxx ?orbT ?andbT /=; case: ifP.
  case: (boolP ((a == j) && (b == i))) => [/andP[/eqP ea /eqP eb]|n2].
    by rewrite ea eb ?eqxx [W j i]sW -ew w0 ?orbT ?andbT /=; case: ifP.
  by rewrite [(b == i) && _]andbC (negbTE n2).
have [net' [-> hn]] := IH h net; exists net'; split=> // a b; rewrite hn !inE !xpair_eqE.
case: (boolP ((a == i) && (b == j))) => [/andP[/eqP ea /eqP eb]|n1]; first by rewrite ea eb -ew w0 !andbF.
case: (boolP ((a == j) && (b == i))) => [/andP[/eqP ea /eqP eb]|n2]; first by rewrite ea eb [W j i]sW -ew w0 !andbF.
by rewrite [(b == i) && _]andbC (negbTE n2).
Qed.
(** the loop enlarges the frame when an edge it meets has a gene that is not a label *)
Lemma add_rows_none cols nn r : r \in nn -> 0 < r.2 -> r.1.2 \notin cols -> forall net, add_rows cols nn net = None.
Proof.
elim: nn => // [[[i j] w]] nn IH; rewrite inE => /orP[/eqP -> /= -> /negbTE -> net|rn r0 rc net /=]; first by rewrite andbF.
by rewrite !(IH rn r0 rc); case: ifP => // _; case: ifP.
Qed.

(** without self-interactions the diagonal stays as it is *)
Lemma add_rows_diag cols i nn : (forall r, r \in nn -> r.1.1 <> r.1.2) -> forall net net', net i i = 0 -> add_rows cols nn net = Some net' ->
  net' i i = 0.
Proof.
elim: nn => [|[[a b] w] nn IH] h net net' n0 /=; first by case=> <-.
have /= ab := h _ (mem_head _ _); have {}h r : r \in nn -> r.1.1 <> r.1.2 by move=> rl; apply: h; rewrite inE rl orbT.
case: ifP => _; last exact: IH.
case: ifP => // _; apply: IH => //; rewrite /set_both.
by case: ifP => // /orP[] /andP[/eqP e1 /eqP e2]; case: ab; rewrite -e1 -e2.
Qed.

(** * the quadratic form *)
Section Quad.
Variables (c : seq nat) (A : frame) (x : nat -> R).
Hypothesis (uc : uniq c) (sA : forall i j, A i j = A j i).
Lemma quad_identity : (2%:R * (\sum_(i <- c) \sum_(j <- c) A i j * (x i * x j)) =
  \sum_(i <- c) \sum_(j <- c | j != i) A i j * (x i + x j) ^+ 2 + 2%:R * (\sum_(i <- c) (A i i - \sum_(j <- c | j != i) A i j) * x i ^+ 2))%R.
Proof.
have E : \sum_(i <- c) \sum_(j <- c | j != i) A i j * x j ^+ 2 = \sum_(i <- c) \sum_(j <- c | j != i) A i j * x i ^+ 2.
  rewrite (exchange_big_dep xpredT) //=; apply: eq_bigr => i _.
  by apply: eq_big => [j|j _]; rewrite 1?eq_sym // sA.
have S1 : \sum_(i <- c) \sum_(j <- c) A i j * (x i * x j) =
    \sum_(i <- c) (A i i * x i ^+ 2) + \sum_(i <- c) \sum_(j <- c | j != i) A i j * (x i * x j).
  rewrite -big_split /= big_seq [RHS]big_seq; apply: eq_bigr => i ic.
  by rewrite (bigD1_seq i) //= expr2.
have S2 : \sum_(i <- c) \sum_(j <- c | j != i) A i j * (x i + x j) ^+ 2 =
    2%:R * (\sum_(i <- c) \sum_(j <- c | j != i) A i j * x i ^+ 2) + 2%:R * (\sum_(i <- c) \sum_(j <- c | j != i) A i j * (x i * x j)).
  have -> : \sum_(i <- c) \sum_(j <- c | j != i) A i j * (x i + x j) ^+ 2 = \sum_(i <- c) (\sum_(j <- c | j != i) A i j * x i ^+ 2 +
      \sum_(j <- c | j != i) A i j * x j ^+ 2 + 2%:R * \sum_(j <- c | j != i) A i j * (x i * x j)).
    apply: eq_bigr => i _; rewrite mulr_sumr -!big_split; apply: eq_bigr => j _ /=.
    have num (a b d : R) : a * (b + d) ^+ 2 = a * b ^+ 2 + a * d ^+ 2 + 2%:R * (a * (b * d)) by mcring.
    exact: num.
  rewrite !big_split /= E -mulr_sumr; have num (a b : R) : a + a + 2%:R * b = 2%:R * a + 2%:R * b by mcring.
  exact: num.
have S3 : \sum_(i <- c) (A i i - \sum_(j <- c | j != i) A i j) * x i ^+ 2 =
    \sum_(i <- c) (A i i * x i ^+ 2) - \sum_(i <- c) \sum_(j <- c | j != i) A i j * x i ^+ 2.
  by rewrite -sumrB; apply: eq_bigr => i _; rewrite mulrBl mulr_suml.
rewrite S1 S2 S3; have num (a b d : R) : 2%:R * (a + b) = 2%:R * d + 2%:R * b + 2%:R * (a - d) by mcring.
exact: num.
Qed.
End Quad.

(** * how many rows are kept *)
Lemma Int_part_nat (k : nat) : Int_part k%:R = Z.of_nat k.
Proof.
by rewrite RnatE Int_part_INR.
Qed.
Lemma n_kept1 nn : n_kept nn 1 false = size nn.
Proof. by rewrite /n_kept mulr1 divr1 Int_part_nat Nat2Z.id mul1n. Qed.
Lemma n_kept2 nn : ~~ odd (size nn) -> n_kept nn 1 true = size nn.
Proof.
move=> /negbTE ev; rewrite /n_kept mulr1; have e := odd_double_half (size nn); rewrite ev add0n in e.
have -> : (size nn)%:R / 2%:R = (size nn)./2%:R :> R by rewrite -{1}e -mul2n natrM mulrC mulKf // pnatr_eq0.
by rewrite Int_part_nat Nat2Z.id mul2n.
Qed.
