(** numpy/IEEE primitives used by the models.
    Rounding is not modelled: finite numbers are exact reals. The type [xR] adds the
    special values, for code whose observable result can be inf or nan. *)
From Coq Require Import Reals.
From mathcomp Require Import all_ssreflect all_algebra.
From Verif Require Import RStruct.
Import Order.TTheory GRing.Theory Num.Theory.

Set Implicit Arguments.
Unset Strict Implicit.
Unset Printing Implicit Defensive.
Local Open Scope ring_scope.

(** np.sign *)
Definition np_sign (x : R) : R := if x == 0 then 0 else if 0 < x then 1 else -1.
(** np.maximum / builtin max, on finite numbers *)
Definition np_max (x y : R) : R := if x < y then y else x.
Definition np_min (x y : R) : R := if y < x then y else x.

(** extended numbers *)
Inductive xR := Fin of R | PInf | NInf | NaN.

(** IEEE addition, negation, product, quotient and maximum on [xR] (sign of zero ignored:
    a zero denominator is +0, which is what numpy norms and counts produce) *)
Definition xneg (x : xR) : xR :=
  match x with Fin a => Fin (- a) | PInf => NInf | NInf => PInf | NaN => NaN end.
Definition xadd (x y : xR) : xR :=
  match x, y with
  | Fin a, Fin b => Fin (a + b)
  | NaN, _ | _, NaN => NaN
  | PInf, NInf | NInf, PInf => NaN
  | PInf, _ | _, PInf => PInf
  | NInf, _ | _, NInf => NInf
  end.
Definition xsub (x y : xR) : xR := xadd x (xneg y).
(** product of an infinity of sign [s] (true = positive) with the finite number [a] *)
Definition xinfmul (s : bool) (a : R) : xR :=
  if a == 0 then NaN else if (0 < a) == s then PInf else NInf.
Definition xmul (x y : xR) : xR :=
  match x, y with
  | Fin a, Fin b => Fin (a * b)
  | NaN, _ | _, NaN => NaN
  | PInf, Fin a | Fin a, PInf => xinfmul true a
  | NInf, Fin a | Fin a, NInf => xinfmul false a
  | PInf, PInf | NInf, NInf => PInf
  | PInf, NInf | NInf, PInf => NInf
  end.
(** a / b for finite a, b *)
Definition xdiv (a b : R) : xR :=
  if b == 0 then (if a == 0 then NaN else if 0 < a then PInf else NInf) else Fin (a / b).
(** np.maximum propagates NaN *)
Definition xmax (x y : xR) : xR :=
  match x, y with
  | NaN, _ | _, NaN => NaN
  | PInf, _ | _, PInf => PInf
  | NInf, z | z, NInf => z
  | Fin a, Fin b => Fin (np_max a b)
  end.
