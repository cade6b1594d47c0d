(** The standard library's real numbers, equipped with the mathcomp
    structures needed to use them as coefficients of mathcomp matrices.
    Nothing in this file models code of /repo: it is infrastructure. *)
From Coq Require Import Reals Lra Epsilon FunctionalExtensionality.
From mathcomp Require Import all_ssreflect all_algebra.

Set Implicit Arguments.
Unset Strict Implicit.
Unset Printing Implicit Defensive.

Local Open Scope R_scope.

Definition eqR (x y : R) : bool := if Req_EM_T x y is left _ then true else false.
Lemma eqRP : Equality.axiom eqR.
Proof. by move=> x y; rewrite /eqR; case: Req_EM_T => h; constructor. Qed.
Definition R_eqMixin := EqMixin eqRP.
Canonical R_eqType := Eval hnf in EqType R R_eqMixin.

Definition pickR (P : pred R) (n : nat) : option R :=
  let x := epsilon (inhabits 0) (fun x => P x) in if P x then Some x else None.
Fact pickR_some P n x : pickR P n = Some x -> P x.
Proof. by rewrite /pickR; case: ifP => // h [<-]. Qed.
Fact pickR_ex (P : pred R) : (exists x : R, P x) -> exists n, pickR P n.
Proof.
move=> hx; exists 0%N; rewrite /pickR.
by have -> := epsilon_spec (inhabits 0) (fun x => P x) hx.
Qed.
Fact pickR_ext (P Q : pred R) : P =1 Q -> pickR P =1 pickR Q.
Proof.
move=> h n; have -> : P = Q by apply: functional_extensionality.
by [].
Qed.
Definition R_choiceMixin : choiceMixin R := Choice.Mixin pickR_some pickR_ex pickR_ext.
Canonical R_choiceType := Eval hnf in ChoiceType R R_choiceMixin.

Fact RplusA : associative Rplus. Proof. by move=> *; ring. Qed.
Definition R_zmodMixin := ZmodMixin RplusA Rplus_comm Rplus_0_l Rplus_opp_l.
Canonical R_zmodType := Eval hnf in ZmodType R R_zmodMixin.

Fact RmultA : associative Rmult. Proof. by move=> *; ring. Qed.
Fact R1_neq_0 : R1 != R0.
Proof. by apply/eqP; exact: R1_neq_R0. Qed.
Definition R_ringMixin := RingMixin RmultA Rmult_1_l Rmult_1_r
  Rmult_plus_distr_r Rmult_plus_distr_l R1_neq_0.
Canonical R_ringType := Eval hnf in RingType R R_ringMixin.
Canonical R_comRingType := Eval hnf in ComRingType R Rmult_comm.

Definition Rinvx (r : R) : R := if r != 0 then / r else r.
Definition unit_R (r : R) : bool := r != 0.
Lemma RmultRinvx : {in unit_R, left_inverse 1 Rinvx Rmult}.
Proof.
move=> r; rewrite -topredE /unit_R /Rinvx => /= rNZ /=.
by rewrite rNZ; apply: Rinv_l; apply/eqP.
Qed.
Lemma RinvxRmult : {in unit_R, right_inverse 1 Rinvx Rmult}.
Proof.
move=> r; rewrite -topredE /unit_R /Rinvx => /= rNZ /=.
by rewrite rNZ; apply: Rinv_r; apply/eqP.
Qed.
Lemma intro_unit_R x y : y * x = 1 /\ x * y = 1 -> unit_R x.
Proof.
move=> [yx1 _]; apply/eqP => x0; move: yx1; rewrite x0 Rmult_0_r => h.
by have := R1_neq_R0; rewrite -h.
Qed.
Lemma Rinvx_out : {in predC unit_R, Rinvx =1 id}.
Proof. by move=> x; rewrite inE /= /Rinvx /unit_R; case: (x != 0). Qed.
Definition R_unitRingMixin :=
  UnitRingMixin RmultRinvx RinvxRmult intro_unit_R Rinvx_out.
Canonical R_unitRingType := Eval hnf in UnitRingType R R_unitRingMixin.
Canonical R_comUnitRingType := Eval hnf in [comUnitRingType of R].
Lemma R_idomainMixin (x y : R) : x * y = 0 -> (x == 0) || (y == 0).
Proof.
case/Rmult_integral => ->; by rewrite eqxx // orbT.
Qed.
Canonical R_idomainType := Eval hnf in IdomainType R R_idomainMixin.
Lemma R_fieldMixin : GRing.Field.mixin_of [unitRingType of R].
Proof. by done. Qed.
Definition R_fieldIdomainMixin := FieldIdomainMixin R_fieldMixin.
Canonical R_fieldType := FieldType R R_fieldMixin.

Definition Rleb (x y : R) : bool := if Rle_dec x y is left _ then true else false.
Definition Rltb (x y : R) : bool := if Rlt_dec x y is left _ then true else false.
Lemma RlebP x y : reflect (x <= y) (Rleb x y).
Proof. by rewrite /Rleb; case: Rle_dec => h; constructor. Qed.
Lemma RltbP x y : reflect (x < y) (Rltb x y).
Proof. by rewrite /Rltb; case: Rlt_dec => h; constructor. Qed.

Fact Rle0D x y : Rleb 0 x -> Rleb 0 y -> Rleb 0 (x + y).
Proof. move=> /RlebP h1 /RlebP h2; apply/RlebP; lra. Qed.
Fact Rle0M x y : Rleb 0 x -> Rleb 0 y -> Rleb 0 (x * y).
Proof. by move=> /RlebP h1 /RlebP h2; apply/RlebP; apply: Rmult_le_pos. Qed.
Fact Rle0_anti x : Rleb 0 x -> Rleb x 0 -> x = 0.
Proof. move=> /RlebP h1 /RlebP h2; lra. Qed.
Fact Rsub_ge0 x y : Rleb 0 (y + - x) = Rleb x y.
Proof. by apply/RlebP/RlebP => h; lra. Qed.
Fact Rle0_total x : Rleb 0 x || Rleb x 0.
Proof. by apply/orP; case: (Rle_or_lt 0 x) => h; [left|right]; apply/RlebP; lra. Qed.
Fact Rge0_norm x : Rleb 0 x -> Rabs x = x.
Proof. by move=> /RlebP h; apply: Rabs_pos_eq. Qed.
Fact Rlt_def x y : Rltb x y = (y != x) && Rleb x y.
Proof.
apply/RltbP/andP => [h|[/eqP h1 /RlebP h2]]; last by lra.
by split; [apply/eqP; lra | apply/RlebP; lra].
Qed.

Definition R_leMixin : realLeMixin [idomainType of R] :=
  RealLeMixin Rle0D Rle0M Rle0_anti Rsub_ge0 Rle0_total Rabs_Ropp Rge0_norm Rlt_def.

Lemma Rleb_total : total Rleb.
Proof. by move=> x y; apply/orP; case: (Rle_or_lt x y) => h; [left|right]; apply/RlebP; lra. Qed.

Canonical R_porderType := POrderType ring_display R R_leMixin.
Canonical R_latticeType := LatticeType R R_leMixin.
Canonical R_distrLatticeType := DistrLatticeType R R_leMixin.
Canonical R_orderType := OrderType R Rleb_total.
Canonical R_numDomainType := NumDomainType R R_leMixin.
Canonical R_normedZmodType := NormedZmodType R R R_leMixin.
Canonical R_numFieldType := [numFieldType of R].
Canonical R_realDomainType := [realDomainType of R].
Canonical R_realFieldType := [realFieldType of R].

Import Order.TTheory GRing.Theory Num.Theory.
Local Open Scope ring_scope.

Lemma RplusE (x y : R) : (x + y)%R = x + y. Proof. by []. Qed.
Lemma RmultE (x y : R) : Rmult x y = x * y. Proof. by []. Qed.
Lemma RoppE (x : R) : Ropp x = - x. Proof. by []. Qed.
Lemma RinvE (x : R) : x != 0 -> Rinv x = x^-1.
Proof. by move=> h; rewrite /GRing.inv /= /Rinvx h. Qed.
Lemma Rinv_inv (x : R) : Rinv x = x^-1.
Proof.
case: (eqVneq x 0) => [->|]; last exact: RinvE.
by rewrite invr0; exact: Rinv_0.
Qed.
Lemma RdivE (x y : R) : Rdiv x y = x / y.
Proof. by rewrite /Rdiv Rinv_inv. Qed.
Lemma RleP (x y : R) : reflect (Rle x y) (x <= y).
Proof. exact: RlebP. Qed.
Lemma RltP (x y : R) : reflect (Rlt x y) (x < y).
Proof. exact: RltbP. Qed.
Lemma RnormE (x : R) : `|x| = Rabs x. Proof. by []. Qed.

(** Polynomials are continuous, so [R] is real closed. *)
Lemma horner_cont (p : {poly R}) : continuity (fun x => p.[x]).
Proof.
elim/poly_ind: p => [|p c ih].
  have -> : (fun x : R => (0 : {poly R}).[x]) = (fun _ => R0).
    by apply: functional_extensionality => x; rewrite horner0.
  by apply: continuity_const.
have -> : (fun x : R => (p * 'X + c%:P).[x])
  = Ranalysis1.plus_fct (Ranalysis1.mult_fct (fun x => p.[x]) Ranalysis1.id)
                        (fct_cte c).
  by apply: functional_extensionality => x; rewrite hornerMXaddC.
apply: continuity_plus; last by apply: continuity_const.
apply: continuity_mult; first exact: ih.
exact: derivable_continuous derivable_id.
Qed.

Lemma R_real_closed : Num.real_closed_axiom R_numDomainType.
Proof.
move=> p a b /RleP hab /andP[/RleP h1 /RleP h2].
have hc := horner_cont p.
case: (Rle_lt_or_eq_dec _ _ hab) => [lab|eab]; last first.
  exists a; first by rewrite lexx /=; apply/RleP.
  by rewrite /root; apply/eqP; subst b; apply: Rle_antisym.
case: (Rle_lt_or_eq_dec _ _ h1) => [l1|e1]; last first.
  exists a; first by rewrite lexx /=; apply/RleP.
  by rewrite /root e1.
case: (Rle_lt_or_eq_dec _ _ h2) => [l2|e2]; last first.
  exists b; first by rewrite lexx andbT; apply/RleP.
  by rewrite /root -e2.
case: (IVT (fun x => p.[x]) a b hc lab l1 l2) => z [[hz1 hz2] hz].
exists z; first by apply/andP; split; apply/RleP.
by rewrite /root hz.
Qed.
Canonical R_rcfType := RcfType R R_real_closed.

(** literals and operators at type [R] are read in mathcomp's [ring_scope] from here on *)
Bind Scope ring_scope with R.
Delimit Scope ring_scope with R.
