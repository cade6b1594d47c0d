(** Coq strings and ascii as mathcomp eqTypes. Infrastructure only. *)
From Coq Require Import String Ascii.
From mathcomp Require Import all_ssreflect.

Lemma ascii_eqP : Equality.axiom Ascii.eqb.
Proof. by move=> x y; apply: (iffP idP); move/Ascii.eqb_eq. Qed.
Canonical ascii_eqType := Eval hnf in EqType ascii (EqMixin ascii_eqP).
Lemma string_eqP : Equality.axiom String.eqb.
Proof. by move=> x y; apply: (iffP idP); move/String.eqb_eq. Qed.
Canonical string_eqType := Eval hnf in EqType string (EqMixin string_eqP).
