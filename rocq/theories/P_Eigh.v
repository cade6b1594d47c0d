(** The assumption on eigh is satisfiable: spectral theorem. *)
From Coq Require Import Reals Epsilon.
From mathcomp Require Import all_ssreflect all_algebra.
From Verif Require Import RStruct RTac Spectral S_Mat RMx.
Import Order.TTheory GRing.Theory Num.Theory.

Set Implicit Arguments.
Unset Strict Implicit.
Unset Printing Implicit Defensive.
Local Open Scope ring_scope.

Lemma eigh_exists n : exists eigh, @eigh_ok n eigh.
Proof.
pose P (A : 'M[R]_n) (r : 'rV[R]_n * 'M[R]_n) :=
  r.2^T *m r.2 = 1%:M /\ A = r.2 *m diag_mx r.1 *m r.2^T.
exists (fun A => epsilon (inhabits (0, 0)) (P A)) => A sA.
have : exists r, P A r.
  by have [Q [d [oQ eA]]] := spectral sA; exists (d, Q); split => //=; apply: orthogonalT.
by move/(epsilon_spec (inhabits (0, 0))); case: (epsilon _ _) => d Q [].
Qed.
