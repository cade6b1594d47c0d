(** A reflective tactic [lin] for linear identities in an R-module. Infrastructure only. *)
From Coq Require Import Reals Lra.
From mathcomp Require Import all_ssreflect all_algebra.
From Verif Require Import RStruct RTac.
Import Order.TTheory GRing.Theory Num.Theory.

Set Implicit Arguments.
Unset Strict Implicit.
Unset Printing Implicit Defensive.
Local Open Scope ring_scope.

Inductive lexp := LV of nat | LZ | LA of lexp & lexp | LN of lexp | LS of R & lexp.

Section Eval.
Variable V : lmodType R.
Fixpoint leval (env : seq V) (e : lexp) : V :=
  match e with
  | LV i => nth 0 env i
  | LZ => 0
  | LA a b => leval env a + leval env b
  | LN a => - leval env a
  | LS r a => r *: leval env a
  end.
Fixpoint lcoef (e : lexp) (k : nat) : R :=
  match e with
  | LV i => if Nat.eqb i k then 1 else 0
  | LZ => 0
  | LA a b => lcoef a k + lcoef b k
  | LN a => - lcoef a k
  | LS r a => r * lcoef a k
  end.
Fixpoint coefs_eq (n : nat) (a b : lexp) : Prop :=
  match n with
  | 0%N => True
  | n'.+1 => lcoef a n' = lcoef b n' /\ coefs_eq n' a b
  end.
Lemma leval_coef env e : leval env e = \sum_(i < size env) lcoef e i *: nth 0 env i.
Proof.
elim: e => [i||a IHa b IHb|a IHa|r a IHa] /=.
- case: (ltnP i (size env)) => h.
    rewrite (bigD1 (Ordinal h)) //= PeanoNat.Nat.eqb_refl scale1r big1 ?addr0 //.
    move=> j /eqP hj; case: PeanoNat.Nat.eqb_spec => [e|_]; last by rewrite scale0r.
    by case: hj; apply: val_inj.
  rewrite nth_default // big1 // => j _.
  case: PeanoNat.Nat.eqb_spec => [e|_]; last by rewrite scale0r.
  by move: h; rewrite e leqNgt ltn_ord.
- by rewrite big1 // => j _; rewrite scale0r.
- by rewrite IHa IHb -big_split; apply: eq_bigr => j _; rewrite scalerDl.
- by rewrite IHa -sumrN; apply: eq_bigr => j _; rewrite scaleNr.
- by rewrite IHa scaler_sumr; apply: eq_bigr => j _; rewrite scalerA.
Qed.
Lemma coefs_eqP n a b i : coefs_eq n a b -> (i < n)%N -> lcoef a i = lcoef b i.
Proof.
elim: n => // n IH [h1 h2]; rewrite ltnS leq_eqVlt => /orP[/eqP -> //|]; exact: IH.
Qed.
Lemma lin_eq env a b : coefs_eq (size env) a b -> leval env a = leval env b.
Proof.
move=> h; rewrite !leval_coef; apply: eq_bigr => i _; congr (_ *: _).
exact: (coefs_eqP h).
Qed.
End Eval.

Ltac lin_mem x env :=
  match env with
  | nil => constr:(false)
  | cons x _ => constr:(true)
  | cons _ ?t => lin_mem x t
  end.
Ltac lin_find x env :=
  match env with
  | cons x _ => constr:(0%N)
  | cons _ ?t => let n := lin_find x t in constr:(S n)
  end.
Ltac lin_env t env :=
  match t with
  | @GRing.add _ ?a ?b => let e := lin_env a env in lin_env b e
  | @GRing.opp _ ?a => lin_env a env
  | @GRing.scale _ _ _ ?a => lin_env a env
  | @GRing.zero _ => env
  | ?x => let m := lin_mem x env in
          match m with true => env | false => constr:(cons x env) end
  end.
Ltac lin_reify t env :=
  match t with
  | @GRing.add _ ?a ?b => let p := lin_reify a env in let q := lin_reify b env in constr:(LA p q)
  | @GRing.opp _ ?a => let p := lin_reify a env in constr:(LN p)
  | @GRing.scale _ _ ?r ?a => let p := lin_reify a env in constr:(LS r p)
  | @GRing.zero _ => constr:(LZ)
  | ?x => let n := lin_find x env in constr:(LV n)
  end.
Ltac lin_pre :=
  match goal with
  | |- @eq ?T ?a ?b =>
    let e0 := lin_env a constr:(@nil T) in
    let e1 := lin_env b e0 in
    let p := lin_reify a e1 in
    let q := lin_reify b e1 in
    apply: (@lin_eq _ e1 p q);
    cbv [coefs_eq lcoef size Nat.eqb]
  end.
(** closes linear identities; side identities between scalars go to [ring], then [field] *)
Ltac lin := lin_pre; repeat split; toR; first [ring | by field].

