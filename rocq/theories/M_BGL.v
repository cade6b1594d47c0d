(** Model of bayesian_graphical_lasso and of the estimator BayesianGraphicalLasso (regain/bayesian/gwishart_inference.py:323-509). *)
From Coq Require Import Reals.
From mathcomp Require Import all_ssreflect all_algebra.
From Verif Require Import RStruct NP M_Utils M_Prox M_Loop M_GL M_GWishart M_GWPrior M_GWGL.
Import Order.TTheory GRing.Theory Num.Theory.

Set Implicit Arguments.
Unset Strict Implicit.
Unset Printing Implicit Defensive.
Local Open Scope ring_scope.

Inductive gw_mode := Covsel | GL.
Inductive gw_scoring := Bic | DiagLaplace | Laplace.

Section BGL.
(** the back ends of M_GWPrior and M_GWGL; [V N]: the entries of np.triu(N) with their number *)
Variables (p : nat) (empcov : seq 'rV[R]_p -> res (option 'M[R]_p)) (eigh : eigh_t p) (pinvh : 'M[R]_p -> 'M[R]_p).
Variables (minimize : ('M[R]_p -> xR * 'M[R]_p) -> 'M[R]_p -> 'M[R]_p).
Variables (svd : 'M[R]_p -> 'M[R]_p * 'rV[R]_p * 'M[R]_p) (chol : forall d, 'M[R]_d -> 'M[R]_d).
Variables (V : 'M[bool]_p -> {dof & 'I_dof -> 'I_p * 'I_p}).

(** lines 168-200 by mode. A nan covariance in mode "gl" reaches eigh, which raises; S as in gw_fit *)
Definition gw_fit_mode (mode : gw_mode) (X : seq 'rV[R]_p) (N : 'M[bool]_p) (d0 : R) (S0 : 'M[R]_p) : res ('M[R]_p * option 'M[R]_p) :=
  match mode with
  | Covsel => gw_fit empcov pinvh minimize X N d0 S0
  | GL =>
    match empcov X with
    | Raise e => Raise e
    | Val None => Raise ValueError
    | Val (Some E) =>
      match gw_fit_gl (fun=> Val E) eigh pinvh X N d0 S0 with
      | Val (Ok (P, _, _)) => Val (P, Some ((size X)%:R *: E))
      | Val (UnboundLocalError) => Raise UnboundLocal
      | Raise e => Raise e
      end
    end
  end.
(** lines 323-347: the score (None: not a number) and P. The prior is always fitted with the default mode, "covsel" *)
Definition gw_score_mode (mode : gw_mode) (scoring : gw_scoring) (X : seq 'rV[R]_p) (d0 : R) (S0 : 'M[R]_p) (N : 'M[bool]_p) : res (xR * 'M[R]_p) :=
  let: existT dof VN := V N in
  let diag := if scoring is DiagLaplace then true else false in
  match (if scoring is Bic then Val 0
         else match gw_fit empcov pinvh minimize [::] N d0 S0 with Raise e => Raise e | Val (P0, _) => Val (gw_constant svd chol diag P0 d0 VN) end) with
  | Raise e => Raise e
  | Val prior =>
    match gw_fit_mode mode X N d0 S0 with
    | Raise e => Raise e
    | Val (P, Sm) =>
      Val (if scoring is Bic then (if Sm is Some Sd then gw_bic (size X) Sd P dof else NaN)
           else Fin (gw_score p (gw_constant svd chol diag P ((size X)%:R + d0) VN) prior (size X)), P)
    end
  end.
Fixpoint collect (T U : Type) (f : T -> res U) (l : seq T) : res (seq U) :=
  if l is x :: l' then
    match f x with Raise e => Raise e | Val y => match collect f l' with Raise e => Raise e | Val r => Val (y :: r) end end
  else Val [::].
(** lines 348-395. [precisions]: those of the graphical lasso for each alpha (line 369); [unique]: np.unique; [idx]: the random choices of blankets;
    [order]: sorted(res, key=score)[::-1], python's sort of the results (whatever it does with nan). None: np.mean of no matrix, nan *)
Definition bayesian_graphical_lasso (precisions : seq 'M[R]_p) (unique : seq 'M[bool]_p -> seq 'M[bool]_p) (idx : 'I_p -> nat -> nat)
    (order : seq (xR * 'M[R]_p) -> seq (xR * 'M[R]_p)) (X : seq 'rV[R]_p) (tol : R) (n_resampling : nat) (mode : gw_mode) (top_n : nat)
    (scoring : gw_scoring) : res (option 'M[R]_p) :=
  let mblankets := markov_blankets precisions tol (Some unique) in
  let graphs := get_graphs mblankets idx n_resampling in
  let nonzeros_all := [seq nonzeros_of g | g <- graphs] in
  match collect (gw_score_mode mode scoring X (p%:R + 2%:R) 1%:M) nonzeros_all with
  | Raise e => Raise e
  | Val res =>
    let top := [seq x.2 | x <- take top_n (order res)] in
    Val (if top is [::] then None else Some ((size top)%:R^-1 *: \sum_(P <- top) P))
  end.
End BGL.

(** the attributes of an estimator after fit, those of lines 454-464 and location_; None: not set. precision_ may be nan, see above *)
Record fitted p := Fitted { at_precision : option (option 'M[R]_p); at_covariance : option 'M[R]_p; at_n_iter : option nat; at_location : option 'rV[R]_p }.
(** lines 482-509: fit sets precision_ only. [n_samples], of [p] features each: check_array refuses fewer than two of either *)
Definition bgl_fit p (n_samples : nat) (result : res (option 'M[R]_p)) : res (fitted p) :=
  if (n_samples < 2)%N || (p < 2)%N then Raise ValueError
  else match result with Raise e => Raise e | Val P => Val (Fitted (Some P) None None None) end.
(** graphical_lasso_.py:294-338: the estimator it derives from sets all four; the result of graphical_lasso with return_n_iter *)
Definition gl_estimator_fit p (n_samples : nat) (location : 'rV[R]_p) (result : res ('M[R]_p * 'M[R]_p * nat)) : res (fitted p) :=
  if (n_samples < 2)%N || (p < 2)%N then Raise ValueError
  else match result with
    | Raise e => Raise e
    | Val (precision, covariance, n_iter) => Val (Fitted (Some (Some precision)) (Some covariance) (Some n_iter) (Some location))
    end.
(** reading an attribute, and the methods inherited from sklearn.covariance.EmpiricalCovariance, by the attributes they read: score and mahalanobis read
    location_ and precision_, error_norm reads covariance_, get_precision reads precision_ *)
Inductive use := ReadPrecision | ReadCovariance | ReadNIter | Score | Mahalanobis | ErrorNorm | GetPrecision.
Definition needs (u : use) : bool * bool * bool * bool :=
  match u with
  | ReadPrecision | GetPrecision => (true, false, false, false)
  | ReadCovariance | ErrorNorm => (false, true, false, false)
  | ReadNIter => (false, false, true, false)
  | Score | Mahalanobis => (true, false, false, true)
  end.
Definition works p (f : fitted p) (u : use) : res unit :=
  let: (a, b, c, d) := needs u in
  if [&& a ==> isSome (at_precision f), b ==> isSome (at_covariance f), c ==> isSome (at_n_iter f) & d ==> isSome (at_location f)] then Val tt
  else Raise AttributeError.
