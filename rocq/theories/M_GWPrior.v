(** Model of GWishartScore with score_method laplace or diaglaplace (regain/bayesian/gwishart_inference.py:168-347): the constant of the prior,
    computed from no data. *)
From Coq Require Import Reals.
From mathcomp Require Import all_ssreflect all_algebra.
From Verif Require Import RStruct NP M_Utils M_GL M_GWishart.
Import Order.TTheory GRing.Theory Num.Theory.

Set Implicit Arguments.
Unset Strict Implicit.
Unset Printing Implicit Defensive.
Local Open Scope ring_scope.

Section Prior.
(** [empcov]: sklearn's empirical_covariance; None is a matrix of nan, which np.cov makes of no samples (later versions of sklearn raise ValueError
    before). [minimize]: scipy.optimize.minimize(fun, x0, jac=True), its result x. [svd], [chol]: scipy.linalg.svd and cholesky *)
Variables (p : nat) (empcov : seq 'rV[R]_p -> res (option 'M[R]_p)) (pinvh : 'M[R]_p -> 'M[R]_p).
Variables (minimize : ('M[R]_p -> xR * 'M[R]_p) -> 'M[R]_p -> 'M[R]_p).
Variables (svd : 'M[R]_p -> 'M[R]_p * 'rV[R]_p * 'M[R]_p) (chol : forall d, 'M[R]_d -> 'M[R]_d).

(** lines 131-151: with nan in C the value is nan, the test f < inf fails and the gradient is 0 *)
Definition covsel_nan (N : 'M[bool]_p) (C : option 'M[R]_p) (x : 'M[R]_p) : xR * 'M[R]_p :=
  if C is Some c then covsel pinvh N c x else (NaN, 0).
(** lines 168-198, mode covsel, for G and S0 of the right shape. Arithmetic with nan gives nan *)
Definition gw_fit (X : seq 'rV[R]_p) (N : 'M[bool]_p) (d0 : R) (S0 : 'M[R]_p) : res ('M[R]_p * option 'M[R]_p) :=
  match empcov X with
  | Raise e => Raise e
  | Val E =>
    let dn := (size X)%:R + d0 in
    let S := omap (fun E => (size X)%:R *: E) E in
    let C := omap (fun S => (dn - 2%:R)^-1 *: (S + S0)) S in
    Val (precision_selection N (minimize (covsel_nan N C) 1%:M), S)
  end.
(** lines 205-234 and 256-311: lognormconst. [V] lists the entries of np.triu(G) *)
Definition gw_constant (diag : bool) (P : 'M[R]_p) (dn : R) (dof : nat) (V : 'I_dof -> 'I_p * 'I_p) : R :=
  let: (U, s, Vh) := svd P in
  let invP := gw_invP U s Vh in
  gw_lognormconst dof (gw_logh p dn (gw_logdetP s))
    (if diag then gw_logdetHdiag (laplace_diag invP dn V) else gw_logdetH (chol (- laplace_H invP dn V))).
(** lines 323-347: the score and P *)
Definition gwishart_score (diag : bool) (X : seq 'rV[R]_p) (N : 'M[bool]_p) (d0 : R) (S0 : 'M[R]_p) (dof : nat) (V : 'I_dof -> 'I_p * 'I_p) :
    res (R * 'M[R]_p) :=
  match gw_fit [::] N d0 S0 with
  | Raise e => Raise e
  | Val (P0, _) =>
    let prior := gw_constant diag P0 d0 V in
    match gw_fit X N d0 S0 with
    | Raise e => Raise e
    | Val (P, _) => Val (gw_score p (gw_constant diag P ((size X)%:R + d0) V) prior (size X), P)
    end
  end.
End Prior.
