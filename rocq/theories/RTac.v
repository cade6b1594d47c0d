(** Tactics turning goals over the mathcomp structure on [R] into goals of the
    standard library, so that [ring], [field], [lra] and [nra] apply.
    Infrastructure only. *)
From Coq Require Import Reals Lra.
From mathcomp Require Import all_ssreflect all_algebra.
From Verif Require Import RStruct.
Import Order.TTheory GRing.Theory Num.Theory.

Set Implicit Arguments.
Unset Strict Implicit.
Unset Printing Implicit Defensive.

Local Open Scope ring_scope.

Lemma R0E : (GRing.zero R_zmodType : R) = R0. Proof. by []. Qed.
Lemma R1E : (GRing.one R_ringType : R) = R1. Proof. by []. Qed.
Lemma RaddE (x y : R) : x + y = Rplus x y. Proof. by []. Qed.
Lemma RmulE (x y : R) : x * y = Rmult x y. Proof. by []. Qed.
Lemma RoppE' (x : R) : - x = Ropp x. Proof. by []. Qed.
Lemma RinvE' (x : R) : x^-1 = Rinv x. Proof. by rewrite Rinv_inv. Qed.
Lemma RsqrE (x : R) : x ^+ 2 = Rmult x x. Proof. by rewrite expr2. Qed.
Lemma RnatE (n : nat) : (n%:R : R) = INR n.
Proof.
elim: n => [|n IH] //; rewrite -addn1 natrD IH plus_INR.
by rewrite RaddE.
Qed.
Lemma RnormE' (x : R) : `|x| = Rabs x. Proof. by []. Qed.
Lemma RneqP (x y : R) : reflect (x <> y) (x != y).
Proof. by apply: (iffP idP) => /eqP. Qed.

Ltac toR_prop :=
  repeat match goal with
  | H : is_true (@Order.le _ _ _ _) |- _ => move/RleP: H => H
  | H : is_true (@Order.lt _ _ _ _) |- _ => move/RltP: H => H
  | H : is_true (negb (@eq_op R_eqType _ _)) |- _ => move/RneqP: H => H
  | H : is_true (negb (@eq_op _ (_ : R) _)) |- _ => move/RneqP: H => H
  | H : is_true (@eq_op R_eqType _ _) |- _ => move/eqP: H => H
  | H : is_true (@eq_op _ (_ : R) _) |- _ => move/eqP: H => H
  | |- is_true (@Order.le _ _ _ _) => apply/RleP
  | |- is_true (@Order.lt _ _ _ _) => apply/RltP
  | |- is_true (negb (@eq_op _ (_ : R) _)) => apply/RneqP
  | |- is_true (@eq_op _ (_ : R) _) => apply/eqP
  end.

Ltac toR_term :=
  rewrite ?(RaddE, RmulE, RoppE', RinvE', RsqrE, RnatE, RnormE', R0E, R1E).

Ltac is_R T := unify T R.
Ltac toR_revert :=
  repeat match goal with
  | H : Rle _ _ |- _ => revert H
  | H : Rlt _ _ |- _ => revert H
  | H : @eq ?T ?a ?b |- _ => is_R T; change (@eq R a b) in H; revert H
  | H : not (@eq ?T ?a ?b) |- _ => is_R T; change (not (@eq R a b)) in H; revert H
  | H : @eq ?T ?a ?b -> False |- _ => is_R T; change (not (@eq R a b)) in H; revert H
  end.
Ltac toR_goal :=
  try match goal with
  | |- @eq ?T ?a ?b => is_R T; change (@eq R a b)
  | |- not (@eq ?T ?a ?b) => is_R T; change (not (@eq R a b))
  end.
Ltac toR_phant := change (Phant (GRing.Ring.sort R_ringType)) with (Phant R).
Ltac toR := toR_prop; toR_goal; toR_revert; toR_term; toR_phant; simpl INR; intros.

Ltac mclra := by toR; lra.
Ltac mcnra := by toR; nra.
Ltac mcring := by toR; ring.
Ltac mcfield := toR; field.
