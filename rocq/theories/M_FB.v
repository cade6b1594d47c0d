(** Model of regain/forward_backward: forward_backward.py (line searches) and
    time_graphical_lasso_.py (the forward-backward solver). Scalar alpha and beta.
    [p] is the argument time_norm: [pn] is np.linalg.norm(., ord=p) of a vector, [tv] is the external
    total variation solver tvgen called with that p (prox.py:253). *)
From Coq Require Import Reals String.
From mathcomp Require Import all_ssreflect all_algebra.
From Verif Require Import RStruct NP Str M_Prox M_Loop M_GL M_LGL M_TGL.
Import Order.TTheory GRing.Theory Num.Theory.

Set Implicit Arguments.
Unset Strict Implicit.
Unset Printing Implicit Defensive.
Local Open Scope ring_scope.

(** IEEE [x <= y] *)
Definition xleb (x y : xR) : bool :=
  match x, y with
  | NaN, _ | _, NaN => false
  | NInf, _ | _, PInf => true
  | Fin a, Fin b => a <= b
  | _, _ => false
  end.
(** abs of a float *)
Definition xabs (x : xR) : xR := match x with Fin a => Fin `|a| | NaN => NaN | _ => PInf end.

(** * forward_backward.py *)

(** lines 36-38 *)
Definition scalar_product n T (x y : stack n T) : R := \sum_t np_sum_mul (x t) (y t).

(** lines 41-43 *)
Definition fista_step n T (Y Y_diff : stack n T) (t : R) : stack n T * R :=
  let t_next := (1 + sqrt (1 + 4%:R * t * t)) / 2%:R in
  (Y + ((t - 1) / t_next) *: Y_diff, t_next).

(** lines 46-51: np.triu(x, 1) *)
Definition upper_diag_3d n T (x : stack n T) : stack n T :=
  [ffun t => \matrix_(i, j) if (i < j)%N then x t i j else 0].

(** the proximal step: soft_thresholding_off_diagonal (lines 78-79) or prox_FL (lines 81-83) *)
Definition fb_prox n T (tv : 'rV[R]_T -> R -> 'rV[R]_T) (laplacian_penalty : bool)
    (beta alpha gamma : R) (x_hat : stack n T) : stack n T :=
  if laplacian_penalty then [ffun t => soft_thresholding_off_diagonal (x_hat t) (alpha * gamma)]
  else [ffun t => prox_FL tv x_hat (beta * gamma) (alpha * gamma) true true t].

(** lines 91-97: the test of the step length, for choose="gamma" *)
Definition gamma_test n T (function_f : stack n T -> xR) (x grad : stack n T) (lamda delta gamma : R)
    (prox : stack n T) : bool :=
  let y_minus_x := prox - x in
  let loss_diff := xsub (function_f (x + lamda *: y_minus_x)) (function_f x) in
  let tolerance := scalar_product y_minus_x grad
                   + delta / gamma * scalar_product y_minus_x y_minus_x in
  xleb loss_diff (Fin (lamda * tolerance)).

(** lines 54-102, choose="gamma" or "both". [is_pos_def] is utils.is_pos_def (a Cholesky
    factorisation that succeeds). [None]: max_iter = 0, [prox] is not bound. *)
Fixpoint choose_gamma_loop n T (prox_at : R -> stack n T) (accept : R -> stack n T -> bool) (eps : R)
    (max_iter : nat) (gamma : R) (last : option (stack n T)) : R * option (stack n T) :=
  match max_iter with
  | 0 => (gamma, last)
  | k.+1 =>
    let prox := prox_at gamma in
    if accept gamma prox then (gamma, Some prox)
    else choose_gamma_loop prox_at accept eps k (gamma * eps) (Some prox)
  end.
Definition choose_gamma n T (tv : 'rV[R]_T -> R -> 'rV[R]_T) (is_pos_def : 'M[R]_n -> bool)
    (gamma : R) (x : stack n T) (beta alpha lamda : R) (grad : stack n T)
    (function_f : stack n T -> xR) (delta eps : R) (max_iter : nat) (choose : string)
    (laplacian_penalty : bool) : R * option (stack n T) :=
  choose_gamma_loop
    (fun gamma => fb_prox tv laplacian_penalty beta alpha gamma (x - gamma *: grad))
    (fun gamma prox =>
       if choose == "gamma"%string then gamma_test function_f x grad lamda delta gamma prox
       else [forall t, is_pos_def (prox t)])
    eps max_iter gamma None.

(** lines 105-166. The criterion is checked in the loop: an unknown one raises ValueError there. *)
Inductive search_result := SearchOk of R & nat | SearchValueError | SearchUnbound.
Fixpoint choose_lamda_loop (accept : R -> bool) (eps : R) (max_iter : nat) (lamda : R) (i : nat) :
    R * nat :=
  match max_iter with
  | 0 => (lamda, i)
  | k.+1 => if accept lamda then (lamda, i.+1) else choose_lamda_loop accept eps k (lamda * eps) i.+1
  end.
Definition lamda_accept n T (is_pos_def : 'M[R]_n -> bool) (criterion : string)
    (x grad prox : stack n T) (gamma delta : R) (function_f objective_f : stack n T -> xR)
    (function_g : stack n T -> R) (gradient_f : stack n T -> stack n T) (lamda : R) : bool :=
  let y_minus_x := prox - x in
  let x1 := x + lamda *: y_minus_x in
  if criterion == "a"%string then
    let iter_diff := x1 - x in
    let grad_diff := gradient_f x1 - grad in
    let norm_grad_diff := sqrt (scalar_product grad_diff grad_diff) in
    let norm_iter_diff := sqrt (scalar_product iter_diff iter_diff) in
    norm_grad_diff <= delta * norm_iter_diff / (gamma * lamda)
  else if criterion == "b"%string then
    let tolerance := scalar_product y_minus_x grad
                     + delta / gamma * scalar_product y_minus_x y_minus_x in
    xleb (xsub (function_f x1) (function_f x)) (Fin (lamda * tolerance)) &&
      [forall t, is_pos_def (x1 t)]
  else
    let tolerance := (1 - delta) *
      (function_g prox - function_g x + scalar_product y_minus_x grad) in
    xleb (xsub (objective_f x1) (objective_f x)) (Fin (lamda * tolerance)).
Definition choose_lamda n T (is_pos_def : 'M[R]_n -> bool) (lamda : R) (x : stack n T) (gamma : R)
    (delta eps : R) (function_f objective_f : stack n T -> xR)
    (gradient_f : stack n T -> stack n T) (function_g : stack n T -> R) (max_iter : nat)
    (criterion : string) (grad prox : stack n T) : search_result :=
  if max_iter is 0 then SearchUnbound
  else if criterion \notin [:: "a"%string; "b"%string; "c"%string] then SearchValueError
  else
    let: (l, i) := choose_lamda_loop
      (lamda_accept is_pos_def criterion x grad prox gamma delta function_f objective_f function_g
         gradient_f) eps max_iter lamda 0 in
    SearchOk l i.

(** * time_graphical_lasso_.py *)

(** lines 50-54 *)
Definition fb_loss n T (S K : stack n T) (n_samples : option ('I_T -> R)) (vareps : R) : xR :=
  xadd (tgl_loss S K n_samples) (Fin (vareps / 2%:R * scalar_product K K)).

(** lines 57-67 *)
Definition grad_loss n T (x emp_cov : stack n T) (n_samples : 'I_T -> R) (x_inv : stack n T)
    (vareps : R) : stack n T :=
  [ffun t => n_samples t *: (emp_cov t - x_inv t) + vareps *: x t].

(** norm.py:36-39 on a 3-d array: one norm for the series of each entry *)
Definition vector_p_norm n T (pn : 'rV[R]_T -> R) (a : stack n T) : R :=
  \sum_i \sum_j pn (series a i j).

(** lines 70-82 *)
Definition fb_penalty n m (pn : 'rV[R]_m -> R) (precision : stack n m.+1) (alpha beta : R) : R :=
  alpha * (\sum_t l1_od_norm (precision t)) +
  beta * vector_p_norm pn (but_first precision - but_last precision).

(** lines 85-89 *)
Definition fb_objective n m (pn : 'rV[R]_m -> R) (n_samples : option ('I_m.+1 -> R))
    (emp_cov precision : stack n m.+1) (alpha beta vareps : R) : xR :=
  xadd (fb_loss emp_cov precision n_samples vareps) (Fin (fb_penalty pn precision alpha beta)).

(** lines 92-96 *)
Definition loss_laplacian n m (S K : stack n m.+1) (beta : R) (n_samples : option ('I_m.+1 -> R))
    (vareps : R) : xR :=
  xadd (fb_loss S K n_samples vareps) (Fin (beta * stack_sqnorm (but_first K - but_last K))).

(** lines 99-111, at least two times: x[t-1] and x[t+1] where they exist *)
Definition laplacian_aux n m (x : stack n m.+1) (t : 'I_m.+1) : 'M[R]_n :=
  if t == ord0 then x ord0 - x (inord 1)
  else if t == ord_max then x ord_max - x (inord m.-1)
  else 2%:R *: x t - x (inord t.-1) - x (inord t.+1).
Definition grad_loss_laplacian n m (x emp_cov : stack n m.+1) (beta : R) (n_samples : 'I_m.+1 -> R)
    (x_inv : stack n m.+1) (vareps : R) : stack n m.+1 :=
  [ffun t => grad_loss x emp_cov n_samples x_inv vareps t + (2%:R * beta) *: laplacian_aux x t].

(** lines 114-121 *)
Definition penalty_laplacian n T (precision : stack n T) (alpha : R) : R :=
  alpha * (\sum_t l1_od_norm (precision t)).

(** lines 124-130 *)
Definition objective_laplacian n m (n_samples : option ('I_m.+1 -> R)) (emp_cov precision : stack n m.+1)
    (alpha beta vareps : R) : xR :=
  xadd (loss_laplacian emp_cov precision beta n_samples vareps)
       (Fin (penalty_laplacian precision alpha)).

(** keyword arguments, lines 139-163 (verbose only prints, compute_objective is not used) *)
Record fb_params := FBParams {
  fb_alpha : R; fb_beta : R; fb_max_iter : nat; fb_tol : R; fb_delta : R; fb_gamma : R; fb_lamda : R;
  fb_eps : R; fb_debug : bool; fb_return_history : bool; fb_return_n_iter : bool;
  fb_choose : string; fb_return_n_linesearch : bool; fb_vareps : R; fb_stop_at : option R;
  fb_stop_when : R; fb_laplacian : bool }.

(** lines 223-256: the functions chosen by laplacian_penalty *)
Definition fb_obj n m (pn : 'rV[R]_m -> R) (S : stack n m.+1) ns (p : fb_params) (K : stack n m.+1) : xR :=
  if fb_laplacian p then objective_laplacian ns S K (fb_alpha p) (fb_beta p) (fb_vareps p)
  else fb_objective pn ns S K (fb_alpha p) (fb_beta p) (fb_vareps p).
Definition fb_f n m (S : stack n m.+1) ns (p : fb_params) (K : stack n m.+1) : xR :=
  if fb_laplacian p then loss_laplacian S K (fb_beta p) ns (fb_vareps p)
  else fb_loss S K ns (fb_vareps p).
Definition fb_grad n m (pinvh : 'M[R]_n -> 'M[R]_n) (S : stack n m.+1) (ns : 'I_m.+1 -> R)
    (p : fb_params) (K : stack n m.+1) : stack n m.+1 :=
  let x_inv : stack n m.+1 := [ffun t => pinvh (K t)] in
  if fb_laplacian p then grad_loss_laplacian K S (fb_beta p) ns x_inv (fb_vareps p)
  else grad_loss K S ns x_inv (fb_vareps p).
Definition fb_g n m (pn : 'rV[R]_m -> R) (p : fb_params) (K : stack n m.+1) : R :=
  if fb_laplacian p then penalty_laplacian K (fb_alpha p)
  else fb_penalty pn K (fb_alpha p) (fb_beta p).

(** what the loop carries; [None] for max_residual is -inf (line 258) *)
Record fb_state n m := FBState { fb_K : stack n m.+1; fb_gam : R; fb_maxres : option R }.
(** a Convergence entry: the objectives, hence snorm, may be infinite or nan *)
Record fb_check := FBCheck { fc_obj : xR; fc_rnorm : R; fc_snorm : xR; fc_e_pri : R; fc_e_dual : R }.

Definition stack_norm n T (X : stack n T) : R := sqrt (stack_sqnorm X).

(** lines 262-303, for choose = "gamma" or "fixed": the step length and the proximal point. The
    search is given 200 iterations. ("lamda" and "both" do not get this far, see below.) *)
Definition fb_step n m tv is_pos_def (pinvh : 'M[R]_n -> 'M[R]_n) (S : stack n m.+1) ns p
    (iteration_ : nat) (s : fb_state n m) : R * stack n m.+1 :=
  let K := fb_K s in
  let grad := fb_grad pinvh S ns p K in
  if fb_choose p == "gamma"%string then
    let: (gamma, y) := choose_gamma tv is_pos_def
      (if (0 < iteration_)%N then fb_gam s / fb_eps p else fb_gam s) K (fb_beta p) (fb_alpha p)
      (fb_lamda p) grad (fb_f S (Some ns) p) (fb_delta p) (fb_eps p) 200 "gamma" (fb_laplacian p) in
    (gamma, odflt 0 y)
  else (fb_gam s, fb_prox tv (fb_laplacian p) (fb_beta p) (fb_alpha p) (fb_gam s)
                    (K - fb_gam s *: grad)).

(** lines 262-372: one iteration. The test of lines 349-372 divides by [gamma], taken nonzero, and
    by [max_residual]: 0 / 0 is nan in the code and 0 here, but then [r_norm] is 0 and the test has the
    same outcome. *)
Definition fb_body n m tv pn is_pos_def (pinvh : 'M[R]_n -> 'M[R]_n) (S : stack n m.+1) ns
    (p : fb_params) (iteration_ : nat) (s : fb_state n m) : outcome (fb_state n m) * fb_check :=
  let k_previous := fb_K s in
  let grad := fb_grad pinvh S ns p k_previous in
  let: (gamma, y) := fb_step tv is_pos_def pinvh S ns p iteration_ s in
  let x_hat := k_previous - gamma *: grad in
  let K := k_previous + np_min (np_max (fb_lamda p) 0) 1 *: (y - k_previous) in
  let check := {|
    fc_obj := fb_obj pn S (Some ns) p K;
    fc_rnorm := stack_norm (upper_diag_3d K - upper_diag_3d k_previous);
    fc_snorm := xabs (xsub (fb_obj pn S (Some ns) p K) (fb_obj pn S (Some ns) p k_previous));
    fc_e_pri := sqrt ((m.+1 * (n * n))%:R) * fb_tol p +
      fb_tol p * np_max (stack_norm (upper_diag_3d K)) (stack_norm (upper_diag_3d k_previous));
    fc_e_dual := fb_tol p |} in
  if fb_stop_at p is Some _ then
    let s' := FBState K gamma (fb_maxres s) in
    if stop_at_test (fc_obj check) (fb_stop_at p) (fb_stop_when p) then (Break s', check)
    else (Next s', check)
  else
    let subgrad := gamma^-1 *: (x_hat - K) in
    let res_norm := stack_norm (K - k_previous) / gamma in
    let max_residual := oapp (fun r => np_max r res_norm) res_norm (fb_maxres s) in
    let normalizer := np_max (stack_norm grad) (stack_norm subgrad) + (10%:R ^+ 6)^-1 in
    let r_rel := res_norm / max_residual in
    let r_norm := res_norm / normalizer in
    let s' := FBState K gamma (Some max_residual) in
    if ~~ fb_debug p && ((r_rel <= fb_tol p) || (r_norm <= fb_tol p)) && (0 < iteration_)%N
    then (Break s', check) else (Next s', check).

Definition fb_loop n m tv pn is_pos_def pinvh (S : stack n m.+1) ns p (s : fb_state n m) :
    loop_end (fb_state n m) fb_check :=
  py_for (fb_body tv pn is_pos_def pinvh S ns p) (fb_max_iter p) 0 s [::] None.

Record fb_result n m := FBResult {
  fr_precision : stack n m.+1; fr_covariance : stack n m.+1; fr_history : option (seq fb_check);
  fr_n_iter : option nat; fr_n_linesearch : option nat; fr_warned : bool }.
Inductive fb_outcome n m :=
| FBOk of fb_result n m | FBValueError | FBTypeError | FBIndexError | FBAxisError | FBUnbound.

(** lines 139-390. In the order in which the code meets them:
    - line 218: unknown [choose];
    - line 260 (not Laplacian): the objective with a single time takes the norm of an empty array along
      a missing axis;
    - line 264, line 63: [n_samples] is None and is indexed;
    - line 264, line 104 (Laplacian): x[1] with a single time;
    - line 306: choose_lamda is called with the keyword vareps, which it does not have.
    The last three are in the body of the loop: they are raised if max_iter > 0.
    n_linesearch is only increased after choose_lamda returns (line 323), so it stays 0. *)
Definition tgl_forward_backward n m tv pn is_pos_def (pinvh : 'M[R]_n -> 'M[R]_n) (S : stack n m.+1)
    (n_samples : option ('I_m.+1 -> R)) (p : fb_params) (init : init_mode3 n m.+1) :
    fb_outcome n m :=
  if fb_choose p \notin [:: "gamma"%string; "lamda"%string; "fixed"%string; "both"%string] then
    FBValueError _ _
  else if (m == 0)%N && ~~ fb_laplacian p then FBAxisError _ _
  else if (0 < fb_max_iter p)%N && ~~ isSome n_samples then FBTypeError _ _
  else if [&& (0 < fb_max_iter p)%N, (m == 0)%N & fb_laplacian p] then FBIndexError _ _
  else if (0 < fb_max_iter p)%N && (fb_choose p \in [:: "lamda"%string; "both"%string]) then
    FBTypeError _ _
  else
    let K := init_precision3 pinvh S init in
    let check0 := FBCheck (fb_obj pn S n_samples p K) 0 (Fin 0) 0 0 in
    let e := fb_loop tv pn is_pos_def pinvh S (odflt (fun=> 1) n_samples) p
               (FBState K (fb_gamma p) None) in
    let K := fb_K (le_state e) in
    let hist := if fb_return_history p then Some (check0 :: le_checks e) else None in
    let nls := if fb_return_n_linesearch p then Some 0%N else None in
    let res n_iter := FBResult K [ffun t => pinvh (K t)] hist n_iter nls (le_else e) in
    if fb_return_n_iter p then
      match le_iter e with
      | Some it => FBOk (res (Some it.+1))
      | None => FBUnbound _ _
      end
    else FBOk (res None).
