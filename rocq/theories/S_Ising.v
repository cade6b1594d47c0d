(** The Ising law. Specification, independent of the samplers. *)
From Coq Require Import Reals.
From mathcomp Require Import all_ssreflect all_algebra.
From Verif Require Import RStruct.
Import Order.TTheory GRing.Theory Num.Theory.

Set Implicit Arguments.
Unset Strict Implicit.
Unset Printing Implicit Defensive.
Local Open Scope ring_scope.

Section Law.
Variable p : nat.
(** a configuration says, for each variable, which of the two responses it takes (true: the second) *)
Definition config : predArgType := {ffun 'I_p -> bool}.
(** a partial configuration: the variables that are fixed *)
Definition pconfig : predArgType := {ffun 'I_p -> option bool}.
Definition agrees (x : pconfig) (c : config) : bool :=
  [forall i, if x i is Some b then c i == b else true].

Variables (theta : 'M[R]_p) (thresholds : 'I_p -> R) (beta : R) (responses : R * R).
Definition response (b : bool) : R := if b then responses.2 else responses.1.
(** the array of the values of a configuration *)
Definition values (c : config) : {ffun 'I_p -> R} := [ffun i => response (c i)].
(** the array of a partial configuration, an unknown variable being marked by [mark] *)
Definition pvalues (mark : R) (x : pconfig) : {ffun 'I_p -> R} :=
  [ffun i => if x i is Some b then response b else mark].

(** exp (beta (sum_i t_i s_i + sum_(i < j) theta_ij s_i s_j)): each pair of variables is counted once *)
Definition weight (c : config) : R :=
  exp (beta * (\sum_i thresholds i * response (c i) +
               \sum_(i : 'I_p) \sum_(j : 'I_p | (i < j)%N) theta i j * response (c i) * response (c j))).
(** the Ising law, conditioned on the fixed variables *)
Definition ising_law (x : pconfig) (c : config) : R :=
  if agrees x c then weight c / \sum_(c' | agrees x c') weight c' else 0.
(** no variable is fixed *)
Definition free : pconfig := [ffun=> None].
End Law.

(** the numbers used by coupling from the past in [K] passes, named by (block, sweep, variable), oldest first *)
Definition past p (max_iter K : nat) : seq (nat * nat * 'I_p) :=
  flatten [seq [seq (t, it, i) | it <- iota 0 max_iter, i <- enum 'I_p] | t <- rev (iota 0 K)].
