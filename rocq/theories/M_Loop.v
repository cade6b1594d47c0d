(** Python's [for iteration_ in range(max_iter): ... break ... else: warn] and the [Convergence]
    record, shared by the solver models. *)
From Coq Require Import Reals.
From mathcomp Require Import all_ssreflect all_algebra.
From Verif Require Import RStruct NP.
Import Order.TTheory GRing.Theory Num.Theory.

Set Implicit Arguments.
Unset Strict Implicit.
Unset Printing Implicit Defensive.
Local Open Scope ring_scope.

(** what the body of the loop does: [break] out, or fall through to the next iteration *)
Inductive outcome (S : Type) := Break of S | Next of S.

(** state and log when the loop is left, last value of the loop variable ([None]: never bound),
    and whether the [else:] clause ran *)
Record loop_end (S C : Type) := LoopEnd {
  le_state : S; le_checks : seq C; le_iter : option nat; le_else : bool }.

(** [for iteration_ in range(it, it + todo)]; each iteration appends one entry to [checks] *)
Fixpoint py_for (S C : Type) (body : nat -> S -> outcome S * C) (todo it : nat) (s : S)
    (checks : seq C) (last : option nat) : loop_end S C :=
  match todo with
  | 0 => LoopEnd s checks last true
  | todo'.+1 =>
    let: (o, c) := body it s in
    match o with
    | Break s' => LoopEnd s' (rcons checks c) (Some it) false
    | Next s' => py_for body todo' it.+1 s' (rcons checks c) (Some it)
    end
  end.

(** utils.py:99-105 *)
Record convergence := Convergence {
  c_obj : xR; c_rnorm : R; c_snorm : R; c_e_pri : R; c_e_dual : R }.

(** the stopping test [check.rnorm <= check.e_pri and check.snorm <= check.e_dual] *)
Definition stop_test (c : convergence) : bool :=
  (c_rnorm c <= c_e_pri c) && (c_snorm c <= c_e_dual c).

(** result of a solver call: the returned list, or the exception raised because the loop
    variable [iteration_] was never bound *)
Inductive py_result (T : Type) := Ok of T | UnboundLocalError.
