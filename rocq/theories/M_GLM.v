(** Model of regain/generalized_linear_model: glm_ising.py, glm_gaussian.py, glm_poisson.py (solvers
    and the estimators' fit). Numbers are exact reals, so exp never overflows. *)
From Coq Require Import Reals.
From mathcomp Require Import all_ssreflect all_algebra.
From Verif Require Import RStruct NP M_Prox M_Loop M_LGL M_Stab.
Import Order.TTheory GRing.Theory Num.Theory.

Set Implicit Arguments.
Unset Strict Implicit.
Unset Printing Implicit Defensive.
Local Open Scope ring_scope.

(** base.py:8-13; [gc_iter_r_norm] is a quotient, so it can be inf or nan *)
Record glm_check := GLMCheck {
  gc_iter : nat; gc_obj : xR; gc_iter_norm : R; gc_iter_r_norm : xR }.

(** the variables carried by the loops: theta, gamma, the list thetas and the list checks. At the head
    of the loop thetas[-1] is theta, so it is read from there. *)
Record glm_state m n := GLMState {
  gs_theta : 'M[R]_(m, n); gs_gamma : R; gs_thetas : seq 'M[R]_(m, n); gs_checks : seq glm_check }.

(** [for iter_ in range(it, it + todo)]. The body says whether it breaks, and the new variables;
    [None] is a body that does not return (its inner [while True] ran out of [fuel], below). The
    result holds the variables and the last value of iter_ ([None]: never bound). *)
Fixpoint glm_for (S : Type) (body : nat -> S -> option (bool * S)) (todo it : nat) (s : S)
    (last : option nat) : option (S * option nat) :=
  match todo with
  | 0 => Some (s, last)
  | todo'.+1 =>
    match body it s with
    | None => None
    | Some (true, s') => Some (s', Some it)
    | Some (false, s') => glm_for body todo' it.+1 s' (Some it)
    end
  end.

(** the returned list: thetas[-1], then thetas and checks, then iter_ *)
Record glm_result m n := GLMResult {
  gr_theta : 'M[R]_(m, n); gr_history : option (seq 'M[R]_(m, n) * seq glm_check);
  gr_n_iter : option nat }.
(** glm_ising.py:165-173, glm_gaussian.py:93-100, glm_poisson.py:143-150 *)
Definition glm_return m n (return_history return_n_iter : bool) (e : glm_state m n * option nat) :
    py_result (glm_result m n) :=
  let: (s, it) := e in
  let hist := if return_history then Some (gs_thetas s, gs_checks s) else None in
  if return_n_iter then
    match it with
    | Some i => Ok (GLMResult (gs_theta s) hist (Some i))
    | None => UnboundLocalError _
    end
  else Ok (GLMResult (gs_theta s) hist None).

(** * glm_ising.py *)

(** a [for] loop over a list whose body may execute [return]: [Some s] when it did, [None] when the
    loop ended and the function fell off its end (returning Python's None) *)
Inductive ctl (S : Type) := Return of S | Continue of S.
Fixpoint for_return (T S : Type) (body : T -> S -> ctl S) (l : seq T) (s : S) : option S :=
  match l with
  | [::] => None
  | x :: l' => match body x s with Return s' => Some s' | Continue s' => for_return body l' s' end
  end.

(** X[i, selector].dot(theta[selector, r]), where selector lists the j != r *)
Definition ising_XT n d (X : 'M[R]_(n, d)) (theta : 'M[R]_d) (i : 'I_n) (r : 'I_d) : R :=
  \sum_(j | j != r) X i j * theta j r.

(** lines 46-59. [np.float("inf")] is +inf (the alias is gone in recent numpy, where this line
    raises AttributeError). *)
Definition ising_loss n d (X : 'M[R]_(n, d)) (theta : 'M[R]_d) : xR :=
  if theta != theta^T then PInf
  else Fin (1 / n%:R * (\sum_r \sum_i
         (ln (exp (ising_XT X theta i r) + exp (- ising_XT X theta i r))
          - X i r * ising_XT X theta i r))).

(** lines 62-65 *)
Definition ising_objective n d (X : 'M[R]_(n, d)) (theta : 'M[R]_d) (alpha : R) : xR :=
  xadd (ising_loss X theta) (Fin (alpha * l1_od_norm theta)).

(** lines 72-79: the row of coefficients of variable r; only the entries j != r are used. The
    [return sum_] is inside the loop. *)
Definition ising_gradient_row n d (X : 'M[R]_(n, d)) (theta : 'M[R]_d) (r : 'I_d) :
    option ('I_d -> R) :=
  for_return (fun i (sum_ : 'I_d -> R) =>
    let XT := ising_XT X theta i r in
    let EXT := exp XT in
    let E_XT := exp (- XT) in
    Return (fun j => sum_ j + 1 / n%:R * X i j * ((EXT - E_XT) / (EXT + E_XT) - X i r)))
    (enum 'I_n) (fun=> 0).

(** lines 68-87. Without samples the row is None; check_array rejects that in fit, and the model
    returns 0. *)
Definition gradient_ising n d (X : 'M[R]_(n, d)) (theta : 'M[R]_d) (A : option 'M[R]_d)
    (rho T : R) : 'M[R]_d :=
  let theta_new : 'M[R]_d := \matrix_(ix, j)
    if j != ix then (if ising_gradient_row X theta ix is Some v then v j else 0) else 0 in
  match A with
  | None => theta_new
  | Some a => theta_new + (rho * T) *: (theta - a)
  end.

(** keyword arguments, lines 90-107 (verbose only prints; compute_objective and adjust_gamma are
    not used) *)
Record ising_params d := IsingParams {
  ig_alpha : R; ig_gamma : R; ig_tol : R; ig_max_iter : nat; ig_return_history : bool;
  ig_return_n_iter : bool; ig_A : option 'M[R]_d; ig_T : R; ig_rho : R; ig_update_gamma : R;
  ig_line_search : bool }.

(** lines 121-124 and 127-130 *)
Definition ising_step n d (X : 'M[R]_(n, d)) (p : ising_params d) (gamma : R) (theta : 'M[R]_d) :
    'M[R]_d :=
  let grad := gradient_ising X theta (ig_A p) (ig_rho p) (ig_T p) in
  let theta_new := theta - gamma *: grad in
  soft_thresholding_off_diagonal (symmetrise theta_new) (ig_alpha p * gamma).

(** x > y on numpy floats *)
Definition xgt (x y : xR) : bool :=
  match x, y with
  | NaN, _ | _, NaN => false
  | Fin a, Fin b => b < a
  | PInf, PInf => false
  | PInf, _ => true
  | Fin _, NInf => true
  | _, _ => false
  end.
Definition xfinite (x : xR) : bool := if x is Fin _ then true else false.

(** lines 126-146, the inner [while True], run for at most [fuel] passes; returns theta and gamma *)
Fixpoint ising_line_search n d (X : 'M[R]_(n, d)) (p : ising_params d) (fuel : nat)
    (theta_old theta : 'M[R]_d) (gamma : R) : option ('M[R]_d * R) :=
  match fuel with
  | 0 => None
  | fuel'.+1 =>
    let grad := gradient_ising X theta (ig_A p) (ig_rho p) (ig_T p) in
    let theta1 := ising_step X p gamma theta in
    let loss_new := ising_loss X theta1 in
    let loss_old := ising_loss X theta_old in
    let diff_theta2 := np_norm (theta_old - theta1) ^+ 2 in
    let grad_diff := \tr (grad *m (theta_old - theta1)) in
    let diff := xadd loss_old (Fin (- grad_diff + diff_theta2 / (2%:R * gamma))) in
    if xgt loss_new diff || ~~ xfinite loss_new then
      let gamma' := ig_update_gamma p * gamma in
      ising_line_search X p fuel' theta_old
        (soft_thresholding_off_diagonal (theta_old - gamma' *: grad) (ig_alpha p * gamma')) gamma'
    else Some (theta1, gamma)
  end.

(** lines 118-163 *)
Definition ising_body n d (X : 'M[R]_(n, d)) (p : ising_params d) (fuel iter_ : nat)
    (s : glm_state d d) : option (bool * glm_state d d) :=
  let theta_old := gs_theta s in
  let next := if ~~ ig_line_search p then Some (ising_step X p (gs_gamma s) (gs_theta s), gs_gamma s)
              else ising_line_search X p fuel theta_old (gs_theta s) (gs_gamma s) in
  match next with
  | None => None
  | Some (theta, gamma) =>
    let norm_diff := np_norm (theta_old - theta) in
    let check := GLMCheck iter_ (ising_objective X theta (ig_alpha p)) norm_diff
                   (xdiv norm_diff (np_norm theta)) in
    Some (`|norm_diff| < ig_tol p,
          GLMState theta gamma (rcons (gs_thetas s) theta) (rcons (gs_checks s) check))
  end.

(** lines 90-173 *)
Definition ising_fit n d (X : 'M[R]_(n, d)) (p : ising_params d) (fuel : nat)
    (warm_start : option 'M[R]_d) : option (py_result (glm_result d d)) :=
  let theta := odflt 0 warm_start in
  omap (glm_return (ig_return_history p) (ig_return_n_iter p))
    (glm_for (ising_body X p fuel) (ig_max_iter p) 0 (GLMState theta (ig_gamma p) [:: theta] [::]) None).

(** IsingGraphicalModel.fit, lines 263-280, mode "symmetric_fbs" (the default): precision_. No line
    search there. *)
Definition ising_estimator_params d (alpha tol gamma : R) (max_iter : nat) : ising_params d :=
  IsingParams alpha gamma tol max_iter true false None 0 1 (1 / 2%:R) false.
Definition ising_estimator_fit n d (X : 'M[R]_(n, d)) (alpha tol gamma : R) (max_iter : nat) :
    option 'M[R]_d :=
  if ising_fit X (ising_estimator_params d alpha tol gamma max_iter) 0 None is Some (Ok r)
  then Some (gr_theta r) else None.

(** * glm_gaussian.py *)

(** lines 42-45; X[:, selector] is [col' r X] *)
Definition gaussian_objective n d (X : 'M[R]_(n, d.+1)) (theta : 'cV[R]_d) (r : 'I_d.+1) (alpha : R) :
    R :=
  let XXT := ((col r X)^T *m col' r X *m theta) 0 0 in
  let TXXT := (theta^T *m (col' r X)^T *m col' r X *m theta) 0 0 in
  - (1 / n%:R) * XXT + 1 / (2%:R * n%:R) * TXXT + alpha * l1_norm theta.

(** lines 65-68 *)
Definition gaussian_gradient n d (X : 'M[R]_(n, d.+1)) (theta : 'cV[R]_d) (r : 'I_d.+1) : 'cV[R]_d :=
  let XX := ((col r X)^T *m col' r X)^T in
  let XXT := (col' r X)^T *m col' r X *m theta in
  - (1 / n%:R) *: XX + (1 / n%:R) *: XXT.

(** lines 48-60 (compute_objective, adjust_gamma and verbose have no effect) *)
Record gaussian_params := GaussianParams {
  ga_alpha : R; ga_gamma : R; ga_tol : R; ga_max_iter : nat; ga_return_history : bool;
  ga_return_n_iter : bool }.

(** lines 72-91 *)
Definition gaussian_body n d (X : 'M[R]_(n, d.+1)) (r : 'I_d.+1) (p : gaussian_params) (iter_ : nat)
    (s : glm_state d 1) : option (bool * glm_state d 1) :=
  let theta_new := gs_theta s - gs_gamma s *: gaussian_gradient X (gs_theta s) r in
  let theta := soft_thresholding theta_new (ga_alpha p * gs_gamma s) in
  let norm_diff := np_norm (gs_theta s - theta) in
  let check := GLMCheck iter_ (Fin (gaussian_objective X theta r (ga_alpha p))) norm_diff
                 (xdiv norm_diff (np_norm theta)) in
  Some (norm_diff < ga_tol p,
        GLMState theta (gs_gamma s) (rcons (gs_thetas s) theta) (rcons (gs_checks s) check)).

(** line 61: np.zeros(d - 1) + 1e-15 *)
Definition gaussian_start d : 'cV[R]_d := const_mx (1 / 10%:R ^+ 15).
(** lines 48-100 *)
Definition gaussian_fit_each n d (X : 'M[R]_(n, d.+1)) (r : 'I_d.+1) (p : gaussian_params) :
    option (py_result (glm_result d 1)) :=
  omap (glm_return (ga_return_history p) (ga_return_n_iter p))
    (glm_for (gaussian_body X r p) (ga_max_iter p) 0
       (GLMState (gaussian_start d) (ga_gamma p) [:: gaussian_start d] [::]) None).

(** Gaussian_GLM_GM, lines 103-202: constructor arguments and fit. fit(X, y, gamma) calls
    fit_each_variable(X, ix, self.alpha) and nothing else is passed, so the defaults of lines 51-57
    apply. *)
Record gaussian_glm := GaussianGLM {
  gg_alpha : R; gg_tol : R; gg_rtol : R; gg_reconstruction : how; gg_max_iter : nat }.
Definition gaussian_defaults (alpha : R) : gaussian_params :=
  GaussianParams alpha (1 / 1000%:R) (1 / 1000%:R) 1000 true false.
Definition theta_of m n (r : option (py_result (glm_result m n))) : option 'M[R]_(m, n) :=
  if r is Some (Ok r') then Some (gr_theta r') else None.
(** all rows, or None if one of the calls does not return *)
Definition all_some (T : finType) (A : Type) (f : T -> option A) (dflt : A) : option (T -> A) :=
  if [forall t, isSome (f t)] then Some (fun t => odflt dflt (f t)) else None.
Definition glm_precision d (rows : 'I_d.+1 -> option 'cV[R]_d) (h : how) : option 'M[R]_d.+1 :=
  omap (fun nb => build_adjacency_matrix (fun i => (nb i)^T) h) (all_some rows 0).
Definition gaussian_glm_fit n d (e : gaussian_glm) (X : 'M[R]_(n, d.+1)) (gamma : R) :
    option 'M[R]_d.+1 :=
  glm_precision (fun ix => theta_of (gaussian_fit_each X ix (gaussian_defaults (gg_alpha e))))
    (gg_reconstruction e).

(** * glm_poisson.py *)

(** lines 44-50 *)
Definition poisson_loss1 n d (X : 'M[R]_(n, d.+1)) (theta : 'cV[R]_d) (r : 'I_d.+1) : R :=
  1 / n%:R * (\sum_i (exp ((col' r X *m theta) i 0) - X i r * (col' r X *m theta) i 0)).
(** lines 64-70 *)
Definition poisson_objective1 n d (X : 'M[R]_(n, d.+1)) (theta : 'cV[R]_d) (r : 'I_d.+1) (alpha : R) :
    R :=
  1 / n%:R * (\sum_i (exp ((col' r X *m theta) i 0) - X i r * (col' r X *m theta) i 0))
  + alpha * l1_norm theta.

(** lines 73-89 (compute_objective, adjust_gamma and verbose have no effect) *)
Record poisson_params d := PoissonParams {
  po_alpha : R; po_gamma : R; po_tol : R; po_max_iter : nat; po_update_gamma : R;
  po_return_history : bool; po_return_n_iter : bool; po_A : option 'M[R]_d.+1; po_T : R; po_rho : R }.

(** lines 94-100 *)
Definition poisson_gradient n d (X : 'M[R]_(n, d.+1)) (theta : 'cV[R]_d) (r : 'I_d.+1)
    (A : option 'M[R]_d.+1) (T rho : R) : 'cV[R]_d :=
  let XTX := (col' r X)^T *m col r X in
  let EXK := (col' r X)^T *m map_mx exp (col' r X *m theta) in
  let to_add : 'cV[R]_d := match A with
    | None => 0
    | Some a => n%:R^-1 *: ((rho * T) *: (theta - (col' r (row r a))^T))
    end in
  - (1 / n%:R) *: (XTX - EXK) + to_add.

(** lines 107-125, the inner [while True]; returns theta and gamma. [loss_new] is never inf or nan
    here (exact exp). *)
Fixpoint poisson_line_search n d (X : 'M[R]_(n, d.+1)) (r : 'I_d.+1) (p : poisson_params d)
    (fuel : nat) (grad theta_old theta : 'cV[R]_d) (gamma : R) : option ('cV[R]_d * R) :=
  match fuel with
  | 0 => None
  | fuel'.+1 =>
    let theta_new := theta - gamma *: grad in
    let theta1 := soft_thresholding theta_new (po_alpha p * gamma) in
    let loss_new := poisson_loss1 X theta1 r in
    let loss_old := poisson_loss1 X theta_old r in
    let diff_theta2 := np_norm (theta_old - theta1) ^+ 2 in
    let grad_diff := (grad^T *m (theta_old - theta1)) 0 0 in
    let diff := loss_old - grad_diff + diff_theta2 / (2%:R * gamma) in
    if diff < loss_new then
      let gamma' := po_update_gamma p * gamma in
      poisson_line_search X r p fuel' grad theta_old
        (soft_thresholding (theta_old - gamma' *: grad) (po_alpha p * gamma')) gamma'
    else Some (theta1, gamma)
  end.

(** lines 104-141 *)
Definition poisson_body n d (X : 'M[R]_(n, d.+1)) (r : 'I_d.+1) (p : poisson_params d)
    (fuel iter_ : nat) (s : glm_state d 1) : option (bool * glm_state d 1) :=
  let theta_old := gs_theta s in
  let grad := poisson_gradient X (gs_theta s) r (po_A p) (po_T p) (po_rho p) in
  match poisson_line_search X r p fuel grad theta_old (gs_theta s) (gs_gamma s) with
  | None => None
  | Some (theta, gamma) =>
    let norm_diff := np_norm (theta_old - theta) in
    let check := GLMCheck iter_ (Fin (poisson_objective1 X theta r (po_alpha p))) norm_diff
                   (xdiv norm_diff (np_norm theta_old)) in
    if (0 < iter_)%N then
      Some (`|norm_diff| < po_tol p,
            GLMState theta gamma (rcons (gs_thetas s) theta) (rcons (gs_checks s) check))
    else Some (false, GLMState theta gamma (rcons (gs_thetas s) theta) (gs_checks s))
  end.

(** lines 73-150 *)
Definition poisson_fit_each n d (X : 'M[R]_(n, d.+1)) (r : 'I_d.+1) (p : poisson_params d)
    (fuel : nat) : option (py_result (glm_result d 1)) :=
  omap (glm_return (po_return_history p) (po_return_n_iter p))
    (glm_for (poisson_body X r p fuel) (po_max_iter p) 0 (GLMState 0 (po_gamma p) [:: 0] [::]) None).

(** lines 153-160 *)
Definition poisson_loss n d (X : 'M[R]_(n, d.+1)) (theta : 'M[R]_d.+1) : R :=
  \sum_r poisson_loss1 X (col' r (row r theta))^T r.
(** lines 53-61 *)
Definition poisson_objective n d (X : 'M[R]_(n, d.+1)) (theta : 'M[R]_d.+1) (alpha : R) : xR :=
  if theta != theta^T then PInf
  else Fin ((\sum_r poisson_objective1 X (col' r (row r theta))^T r 0) + alpha * l1_od_norm theta).

(** PoissonGraphicalModel.fit, lines 250-278, mode "coordinate_descent" without intercept: the
    estimator's gamma and max_iter are not passed on *)
Definition poisson_defaults d (alpha tol : R) : poisson_params d :=
  PoissonParams alpha 1 tol 100 (1 / 2%:R) true false None 0 1.
Definition poisson_estimator_fit n d (X : 'M[R]_(n, d.+1)) (alpha tol : R) (h : how) (fuel : nat) :
    option 'M[R]_d.+1 :=
  glm_precision (fun ix => theta_of (poisson_fit_each X ix (poisson_defaults d alpha tol) fuel)) h.
