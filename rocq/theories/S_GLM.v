(** Specifications for the generalised linear models. *)
From Coq Require Import Reals.
From mathcomp Require Import all_ssreflect all_algebra.
From Verif Require Import RStruct S_Mat.
Import Order.TTheory GRing.Theory Num.Theory.

Set Implicit Arguments.
Unset Strict Implicit.
Unset Printing Implicit Defensive.
Local Open Scope ring_scope.

(** [g] is the gradient of [f] at [x] along the directions in [D]: the derivative of
    t |-> f (x + t v) at 0 is <g, v>. [derivable_pt_lim] is the standard library's derivative. *)
Definition gradient_along m n (D : 'M[R]_(m, n) -> Prop) (f : 'M[R]_(m, n) -> R)
    (x g : 'M[R]_(m, n)) : Prop :=
  forall v, D v -> derivable_pt_lim (fun t => f (x + t *: v)) 0 (fdot g v).
Definition gradient_at m n (f : 'M[R]_(m, n) -> R) := gradient_along (@everywhere _) f.

(** average of a quantity over the samples *)
Definition sample_mean n (F : 'I_n -> R) : R := (\sum_i F i) / n%:R.

(** minus the average log pseudo-likelihood of an Ising model with interactions [theta]: variable r
    given the others is +1 or -1 with odds exp(2 m), m = sum over j <> r of x_j theta_jr *)
Definition field d (x : 'rV[R]_d) (theta : 'M[R]_d) (r : 'I_d) : R :=
  \sum_(j | j != r) x 0 j * theta j r.
Definition ising_nll n d (X : 'M[R]_(n, d)) (theta : 'M[R]_d) : R :=
  sample_mean (fun i : 'I_n => \sum_r
    (ln (exp (field (row i X) theta r) + exp (- field (row i X) theta r))
     - X i r * field (row i X) theta r)).

(** symmetric with zero diagonal: a matrix of interactions *)
Definition interactions d (theta : 'M[R]_d) : Prop := sym theta /\ forall i, theta i i = 0.

(** the recorded values are finite numbers that never increase *)
Definition nonincreasing (s : seq R) : Prop :=
  forall i j, (i <= j < size s)%N -> nth 0 s j <= nth 0 s i.

(** least squares with l1 penalty, y = column r of X, Z = the other columns *)
Definition lasso_cost n d (Z : 'M[R]_(n, d)) (y : 'cV[R]_n) (alpha : R) (theta : 'cV[R]_d) : R :=
  fnorm2 (y - Z *m theta) / (2%:R * n%:R) + alpha * l1 theta.
(** Poisson regression with log link, l1 penalty *)
Definition poisson_nll n d (Z : 'M[R]_(n, d)) (y : 'cV[R]_n) (theta : 'cV[R]_d) : R :=
  sample_mean (fun i : 'I_n => exp ((Z *m theta) i 0) - y i 0 * (Z *m theta) i 0).
