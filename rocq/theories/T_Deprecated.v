(** C206: the comparison plots. *)
From Coq Require Import String.
From mathcomp Require Import all_ssreflect.
From Verif Require Import M_Utils M_Deprecated.

Set Implicit Arguments.
Unset Strict Implicit.
Unset Printing Implicit Defensive.

(** refuted: a function under the bare decorator draws nothing, whatever its body [f] and the arguments of the call. With the truth and the predictions, and in
    fact with any number of arguments but one, the call raises TypeError *)
Theorem C206_bare_refuted Drawing Data Code (body : Code -> seq (value Drawing Data Code) -> seq (string * value Drawing Data Code) -> res (value Drawing Data Code)) (f : Code) g :
  bare_decorator (Fun Drawing Data f) = Val g -> forall positional keywords,
  (forall d, call body g positional keywords <> Val (Drawn Data Code d)) /\
  (size positional + size keywords <> 1 -> call body g positional keywords = Raise TypeError).
Proof.
case=> <- [|a [|b l]] [|[k c] [|k2 l2]] /=; (split=> [d|]); try (by []).
- by case: String.eqb => //; case: c => [||||||? []|].
- by case: a => [||||||? []|].
Qed.
Print Assumptions C206_bare_refuted.
(** the only keyword the call knows is obj, which no one plotting passes *)
Theorem C206_keyword Drawing Data Code (body : Code -> seq (value Drawing Data Code) -> seq (string * value Drawing Data Code) -> res (value Drawing Data Code)) (f : Code) g k v :
  bare_decorator (Fun Drawing Data f) = Val g -> k <> "obj"%string -> call body g [::] [:: (k, v)] = Raise TypeError.
Proof. by case=> <- /= /String.eqb_neq ->. Qed.
Print Assumptions C206_keyword.
(** it does not depend on the body: the two comparison plots are the same function, and a call with one argument only decorates that argument *)
Theorem C206_one_argument Drawing Data Code (body : Code -> seq (value Drawing Data Code) -> seq (string * value Drawing Data Code) -> res (value Drawing Data Code)) (f f' : Code) g g' :
  bare_decorator (Fun Drawing Data f) = Val g -> bare_decorator (Fun Drawing Data f') = Val g' ->
  (forall positional keywords, call body g positional keywords = call body g' positional keywords) /\
  (forall h, call body g [:: Fun Drawing Data h] [::] = Val (Wrapped (Fun Drawing Data h))) /\ (forall d, call body g [:: Object Drawing Code d false] [::] = Raise AttributeError).
Proof. by case=> <- [<-]; split. Qed.
Print Assumptions C206_one_argument.
(** with parentheses, as in the other places, the decorated function does what its body does *)
Theorem C206_called Drawing Data Code (body : Code -> seq (value Drawing Data Code) -> seq (string * value Drawing Data Code) -> res (value Drawing Data Code)) (f : Code) extra :
  size extra <= 1 -> exists g, called_decorator body extra (Fun Drawing Data f) = Val g /\ forall positional keywords, call body g positional keywords = body f positional keywords.
Proof. by case: extra => [|e [|]] // _; eexists. Qed.
Print Assumptions C206_called.
Example C206_case : let body := fun (_ : unit) _ _ => Val (Drawn bool unit 5) in let truth := Object nat unit true false in let pred := Object nat unit false false in
  exists g h, [/\ bare_decorator (Fun nat bool tt) = Val g, call body g [:: truth; pred] [::] = Raise TypeError,
    called_decorator body [::] (Fun nat bool tt) = Val h & call body h [:: truth; pred] [::] = Val (Drawn bool unit 5)].
Proof. by do 2 eexists. Qed.
