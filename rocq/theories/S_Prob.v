(** Probabilities of events that depend on finitely many independent numbers, each uniform on [0, 1), and only through
    comparisons with given cut points. Specification. *)
From Coq Require Import Reals.
From mathcomp Require Import all_ssreflect all_algebra.
From Verif Require Import RStruct.
Import Order.TTheory GRing.Theory Num.Theory.

Set Implicit Arguments.
Unset Strict Implicit.
Unset Printing Implicit Defensive.
Local Open Scope ring_scope.

(** an increasing list of cut points from 0 to 1 *)
Definition grid_ok (g : seq R) : Prop :=
  [/\ (1 < size g)%N, sorted <=%O g, nth 0 g 0 = 0 & nth 0 g (size g).-1 = 1].
(** the integral over [0, 1) of a function that is constant on each cell [g_k, g_(k+1)): length times value at the left
    end, summed over the cells *)
Definition expect1 (g : seq R) (f : R -> R) : R :=
  \sum_(k < (size g).-1) (nth 0 g k.+1 - nth 0 g k) * f (nth 0 g k).

Section Key.
Variable K : eqType.
(** the numbers are named by keys; [assign d k u] gives the number u to the key k *)
Definition assign (d : K -> R) (k : K) (u : R) : K -> R := fun k' => if k' == k then u else d k'.
(** the expectation of [f] when the numbers of the keys [ks] are independent and uniform, those of the other keys being
    given by [d] *)
Fixpoint expect (g : seq R) (ks : seq K) (f : (K -> R) -> R) (d : K -> R) : R :=
  if ks is k :: ks' then expect1 g (fun u => expect g ks' f (assign d k u)) else f d.
(** the probability of an event *)
Definition prob (g : seq R) (ks : seq K) (A : (K -> R) -> bool) : R := expect g ks (fun d => (A d)%:R) (fun=> 0).
End Key.
