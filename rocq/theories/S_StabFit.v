(** Specification for the table of the stability selection. *)
From Coq Require Import Reals String.
From mathcomp Require Import all_ssreflect all_algebra.
From Verif Require Import RStruct Str M_Stab M_StabFit.
Import GRing.Theory.

Set Implicit Arguments.
Unset Strict Implicit.
Unset Printing Implicit Defensive.
Local Open Scope ring_scope.

(** the weight of a split ([None]: equal weights), and weights that can be used: one for each split, with a nonzero sum *)
Definition weight_of (w : option (seq R)) (i : nat) : R := if w is Some w then nth 0 w i else 1.
Definition weights_ok (w : option (seq R)) (n : nat) : Prop := if w is Some w then size w = n /\ \sum_(x <- w) x != 0 else True.
(** the entry of column [k] for candidate [c]; [None]: masked, or no such column *)
Definition cell V (d : pydict (seq (option V))) (k : string) (c : nat) : option V :=
  if dict_get d k is Some row then nth None row c else None.
