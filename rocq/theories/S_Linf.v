(** Specification of prox_linf_1d: the Matlab reference of its docstring (regain/prox.py:88-109). *)
From Coq Require Import Reals.
From mathcomp Require Import all_ssreflect all_algebra.
From Verif Require Import RStruct.
Import Order.TTheory GRing.Theory Num.Theory.

Set Implicit Arguments.
Unset Strict Implicit.
Unset Printing Implicit Defensive.
Local Open Scope ring_scope.

(** sort(wabs, 'descend') *)
Definition abs_descending n (w : 'cV[R]_n) : seq R := sort (fun x y => y <= x) [seq `|w i 0| | i <- enum 'I_n].
(** ws = (cumsum(...) - t) ./ (1:N)'; alphaopt = max(ws) *)
Definition alphaopt n (w : 'cV[R]_n.+1) (t : R) : R :=
  let ws k := (\sum_(x <- take k.+1 (abs_descending w)) x - t) / k.+1%:R in
  \big[Num.max/ws 0%N]_(k < n.+1) ws k.
(** xk = min(wabs, alphaopt) .* sign(w), or zeros *)
Definition prox_infinityNorm n (w : 'cV[R]_n.+1) (t : R) : 'cV[R]_n.+1 :=
  let a := alphaopt w t in
  if 0 < a then \col_i (Num.min `|w i 0| a * Num.sg (w i 0)) else 0.
(** the point of the l1 ball of radius r that is closest to w *)
Definition l1v n (x : 'cV[R]_n) : R := \sum_i `|x i 0|.
