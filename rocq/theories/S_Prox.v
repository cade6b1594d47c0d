(** Specification vocabulary for the proximal operators and step-size rules. *)
From Coq Require Import Reals.
From mathcomp Require Import all_ssreflect all_algebra.
From Verif Require Import RStruct S_Mat NP M_Prox.
Import Order.TTheory GRing.Theory Num.Theory.

Set Implicit Arguments.
Unset Strict Implicit.
Unset Printing Implicit Defensive.
Local Open Scope ring_scope.

(** [prox] is the exact proximal operator of [norm]: finite, and the unique minimiser *)
Definition exact_prox n (norm : 'M[R]_n -> R) (prox : 'M[R]_n -> R -> 'I_n -> 'I_n -> xR) : Prop :=
  forall a lam, 0 <= lam -> exists Y : 'M[R]_n,
    (forall i j, prox a lam i j = Fin (Y i j)) /\
    unique_minimiser (@everywhere _) (fun X => lam * norm X + fnorm2 (X - a) / 2%:R) Y.

(** largest absolute entry of a vector *)
Definition vec_inf n (x : 'cV[R]_n) : R := \big[np_max/0]_i `|x i 0|.

(** the penalty after a history [res] of (rnorm, snorm) residuals *)
Definition rho_run (o : rho_options) (rho : R) (res : seq (R * R)) : R :=
  foldl (fun rho p => update_rho o rho p.1 p.2) rho res.

(** the step after [k] consecutive iterations numbered k0, k0+1, ... *)
Fixpoint gamma_run (gamma : R) (k0 : nat) (k : nat) (eps : R) : R :=
  if k is k'.+1 then update_gamma (gamma_run gamma k0 k' eps) (k0 + k') eps else gamma.

