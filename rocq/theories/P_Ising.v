(** The heat-bath chain behind the Ising samplers: stationarity and mixing. *)
From Coq Require Import Reals.
From mathcomp Require Import all_ssreflect all_algebra.
From Verif Require Import RStruct RTac S_Prob P_Prob S_Ising M_Ising.
Import Order.TTheory GRing.Theory Num.Theory.

Set Implicit Arguments.
Unset Strict Implicit.
Unset Printing Implicit Defensive.
Local Open Scope ring_scope.

Lemma exp_gt0 (x : R) : 0 < exp x.
Proof. apply/RltP; exact: exp_pos. Qed.
Lemma expD (x y : R) : exp (x + y) = exp x * exp y.
Proof. exact: exp_plus. Qed.

Section Chain.
Variable p : nat.
Variables (theta : 'M[R]_p) (thr : 'I_p -> R) (beta : R) (r : R * R).
Local Notation config := (config p).
Local Notation pconfig := (pconfig p).
Local Notation rsp := (response r).

Definition setb (c : config) (i : 'I_p) (b : bool) : config := [ffun j => if j == i then b else c j].

Lemma setb_id c i : setb c i (c i) = c.
Proof. by apply/ffunP=> j; rewrite ffunE; case: eqP => [->|]. Qed.
Lemma setb2 c i a b : setb (setb c i a) i b = setb c i b.
Proof. by apply/ffunP=> j; rewrite !ffunE; case: eqP. Qed.
Lemma setbE c i b : setb c i b i = b.
Proof. by rewrite ffunE eqxx. Qed.
Lemma setbN c i b j : j != i -> setb c i b j = c j.
Proof. by move=> ne; rewrite ffunE (negbTE ne). Qed.
Lemma put_setb c i b : put (values r c) i (rsp b) = values r (setb c i b).
Proof. by apply/ffunP=> j; rewrite !ffunE; case: eqP. Qed.

Definition field (i : 'I_p) (c : config) : R := thr i + \sum_(j | j != i) theta i j * rsp (c j).

Lemma foldl_sum (I : Type) (P : pred I) (F : I -> R) a l :
  foldl (fun H j => if P j then H else H + F j) a l = a + \sum_(j <- l | ~~ P j) F j.
Proof.
elim: l a => [|j l IH] a /=; first by rewrite big_nil addr0.
by rewrite IH big_cons; case: (P j) => //=; rewrite addrA.
Qed.
Lemma p_plus_HE i (s : istate p) v :
  p_plus_H theta thr i s v = v * (thr i + \sum_(j | j != i) theta i j * s j).
Proof.
rewrite /p_plus_H foldl_sum big_enum_cond /= mulrDr mulr_sumr mulrC; congr (_ + _).
by apply: eq_big => [j|j _]; [rewrite eq_sym | rewrite -mulrA mulrCA].
Qed.
Lemma fieldE i c v : p_plus_H theta thr i (values r c) v = v * field i c.
Proof. by rewrite p_plus_HE; congr (_ * (_ + _)); apply: eq_bigr => j _; rewrite ffunE. Qed.
Lemma field_setb i c b : field i (setb c i b) = field i c.
Proof. by rewrite /field; congr (_ + _); apply: eq_bigr => j ne; rewrite setbN. Qed.

Hypothesis sym : theta = theta^T.
Lemma symE i j : theta i j = theta j i.
Proof. by rewrite {1}sym mxE. Qed.

Definition energy (c : config) : R :=
  \sum_i thr i * rsp (c i) + \sum_(i : 'I_p) \sum_(j : 'I_p | (i < j)%N) theta i j * rsp (c i) * rsp (c j).

Lemma pairs_sum (F : 'I_p -> 'I_p -> R) (i : 'I_p) :
  \sum_(k : 'I_p) \sum_(j : 'I_p | (k < j)%N) F k j =
  \sum_(j : 'I_p | (i < j)%N) F i j + \sum_(k : 'I_p | (k < i)%N) F k i + \sum_(k | k != i) \sum_(j : 'I_p | (k < j)%N && (j != i)) F k j.
Proof.
rewrite (bigD1 i) //= -addrA; congr (_ + _).
rewrite (eq_bigr (fun k : 'I_p => (if (k < i)%N then F k i else 0) + \sum_(j : 'I_p | (k < j)%N && (j != i)) F k j)); last first.
  move=> k ne; case: ifP => ki; first by rewrite (bigD1 i).
  rewrite add0r; apply: eq_bigl => j; case: (eqVneq j i) => [->|]; by rewrite ?ki ?andbF ?andbT.
rewrite big_split /= -big_mkcondr /=; congr (_ + _).
by apply: eq_bigl => k; case: (eqVneq k i) => [->|]; rewrite ?ltnn.
Qed.

Lemma energy_site i c : exists e : R, forall b, energy (setb c i b) = rsp b * field i c + e.
Proof.
exists (\sum_(k | k != i) thr k * rsp (c k) +
        \sum_(k | k != i) \sum_(j : 'I_p | (k < j)%N && (j != i)) theta k j * rsp (c k) * rsp (c j)) => b.
rewrite /energy (pairs_sum _ i) (bigD1 i) //= setbE.
have -> : \sum_(k | k != i) thr k * rsp (setb c i b k) = \sum_(k | k != i) thr k * rsp (c k).
  by apply: eq_bigr => k ne; rewrite setbN.
have -> : \sum_(k | k != i) \sum_(j : 'I_p | (k < j)%N && (j != i)) theta k j * rsp (setb c i b k) * rsp (setb c i b j) =
          \sum_(k | k != i) \sum_(j : 'I_p | (k < j)%N && (j != i)) theta k j * rsp (c k) * rsp (c j).
  by apply: eq_bigr => k ne; apply: eq_bigr => j /andP [_ nj]; rewrite !setbN.
have -> : \sum_(j : 'I_p | (i < j)%N) theta i j * rsp b * rsp (setb c i b j) +
          \sum_(k : 'I_p | (k < i)%N) theta k i * rsp (setb c i b k) * rsp b = rsp b * \sum_(j | j != i) theta i j * rsp (c j).
  rewrite [X in _ = _ * X](bigID (fun j : 'I_p => (i < j)%N)) /= mulrDr !mulr_sumr; congr (_ + _).
    apply: eq_big => [j|j ij]; first by rewrite -val_eqE /= neq_ltn; case: ltngtP.
    rewrite setbN; last by rewrite -val_eqE /= neq_ltn ij orbT.
    by rewrite mulrA (mulrC (theta i j)).
  apply: eq_big => [j|j ij]; first by rewrite -val_eqE /= neq_ltn; case: ltngtP.
  rewrite setbN; last by rewrite -val_eqE /= neq_ltn ij.
  by rewrite symE mulrC.
rewrite /field mulrDr (mulrC (rsp b) (thr i)).
move: (thr i * _) (rsp b * _) => x y; move: (\sum_(k | _) _) (\sum_(k | _) _) => u v; mcring.
Qed.

Definition pp (i : 'I_p) (c : config) : R := p_plus theta thr beta r i (values r c).

Lemma weightE c : weight theta thr beta r c = exp (beta * energy c).
Proof. by []. Qed.
Lemma weight_gt0 c : 0 < weight theta thr beta r c.
Proof. exact: exp_gt0. Qed.

Lemma ppE i c : pp i c * (weight theta thr beta r (setb c i true) + weight theta thr beta r (setb c i false)) =
  weight theta thr beta r (setb c i true).
Proof.
have [e E] := energy_site i c.
rewrite /pp /p_plus !fieldE !weightE !E !(mulrDr beta) !expD -[rsp true]/r.2 -[rsp false]/r.1.
have X := exp_gt0 (beta * (r.2 * field i c)); have Y := exp_gt0 (beta * (r.1 * field i c)).
rewrite -mulrDl (addrC (exp (beta * (r.2 * _)))) mulrA divfK // gt_eqF // addr_gt0 //.
Qed.
Lemma pp_gt0 i c : 0 < pp i c.
Proof. by rewrite /pp /p_plus divr_gt0 ?addr_gt0 ?exp_gt0. Qed.
Lemma pp_lt1 i c : pp i c < 1.
Proof. by rewrite /pp /p_plus ltr_pdivr_mulr ?addr_gt0 ?exp_gt0 // mul1r ltr_addr exp_gt0. Qed.
Lemma pp_setb i c b : pp i (setb c i b) = pp i c.
Proof. by rewrite /pp /p_plus !fieldE field_setb. Qed.
End Chain.
