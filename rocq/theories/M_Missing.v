(** Model of regain/covariance/missing_graphical_lasso_.py. *)
From Coq Require Import Reals.
From mathcomp Require Import all_ssreflect all_algebra.
From Verif Require Import RStruct NP M_Prox M_Loop M_GL.
Import Order.TTheory GRing.Theory Num.Theory.

Set Implicit Arguments.
Unset Strict Implicit.
Unset Printing Implicit Defensive.
Local Open Scope ring_scope.

(** a data matrix with missing entries: [None] is nan. No entry is infinite. *)
Definition mdata N d := 'I_N -> 'I_d -> option R.
(** np.isnan *)
Definition isnan (x : option R) : bool := if x is None then true else false.
(** np.nan_to_num *)
Definition nan_to_num (x : option R) : R := odflt 0 x.

(** np.where(np.isnan(x))[0] and np.where(np.logical_not(np.isnan(x)))[0] *)
Definition nans d (x : 'I_d -> option R) : seq 'I_d := [seq v <- enum 'I_d | isnan (x v)].
Definition obss d (x : 'I_d -> option R) : seq 'I_d := [seq v <- enum 'I_d | ~~ isnan (x v)].
(** the a-th element of an index array *)
Definition at_ d (s : seq 'I_d) (a : 'I_(size s)) : 'I_d := tnth (in_tuple s) a.
(** xx, yy = np.meshgrid(cols, rows) followed by K[xx, yy]: entry (a, b) is K[cols[b], rows[a]] *)
Definition mesh_index d (K : 'M[R]_d) (cols rows : seq 'I_d) : 'M[R]_(size rows, size cols) :=
  \matrix_(a, b) K (at_ b) (at_ a).
(** np.linalg.pinv *)
Definition pinv_t := forall m : nat, 'M[R]_m -> 'M[R]_m.

(** lines 67-72: one row of cs before the division of line 73. The row has zeros at the observed positions. *)
Definition cs_row d (pinv : pinv_t) (K : 'M[R]_d) (means : 'I_d -> R) (x : 'I_d -> option R) (v : 'I_d) : R :=
  let KK := pinv _ (mesh_index K (nans x) (nans x)) *m mesh_index K (obss x) (nans x) in
  let w := (\col_a means (at_ a)) - KK *m (\col_b (nan_to_num (x (at_ b)) - means (at_ b))) in
  if [pick a : 'I_(size (nans x)) | at_ a == v] is Some a then w a 0 else 0.

(** np.max(np.abs(cs)); 0 for an array without entries, where numpy raises *)
Definition max_abs N d (cs : 'I_N -> 'I_d -> R) : R := \big[Num.max/0]_(iv : 'I_N * 'I_d) `|cs iv.1 iv.2|.

(** lines 64-73 *)
Definition compute_cs N d (pinv : pinv_t) (means : 'I_d -> R) (K : 'M[R]_d) (X : mdata N d) : 'I_N -> 'I_d -> R :=
  let cs i v := cs_row pinv K means (X i) v in
  fun i v => cs i v / np_max (max_abs cs) 1.

(** lines 46-47, 77-78 and 187-188 *)
Definition filled N d (X : mdata N d) (cs : 'I_N -> 'I_d -> R) (i : 'I_N) (v : 'I_d) : R := nan_to_num (X i v) + cs i v.

(** lines 76-79 *)
Definition compute_mean N d (X : mdata N d) (cs : 'I_N -> 'I_d -> R) (v : 'I_d) : R := \sum_i filled X cs i v.

(** lines 52-56: entry (v, s) of the pseudo-inverse of the block of the missing variables *)
Definition inv_entry d (pinv : pinv_t) (K : 'M[R]_d) (x : 'I_d -> option R) (v s : 'I_d) : R :=
  let P := pinv _ (mesh_index K (nans x) (nans x)) in
  match [pick a : 'I_(size (nans x)) | at_ a == v], [pick b : 'I_(size (nans x)) | at_ b == s] with
  | Some a, Some b => P a b
  | _, _ => 0
  end.

(** lines 44-60: the sum before the division of line 61 *)
Definition emp_sum N d (pinv : pinv_t) (X : mdata N d) (K : 'M[R]_d) (cs : 'I_N -> 'I_d -> R) : 'M[R]_d :=
  \matrix_(v, s) \sum_i
    if isnan (X i v) && isnan (X i s) then inv_entry pinv K (X i) v s + cs i v * cs i s
    else filled X cs i v * filled X cs i s.

(** np.max of a non-empty square array *)
Definition np_amax d (A : 'M[R]_d.+1) : R := \big[Num.max/A 0 0]_(vs : 'I_d.+1 * 'I_d.+1) A vs.1 vs.2.

(** lines 44-61; [None]: the maximum is zero and the quotients are not finite *)
Definition compute_empirical_covariance N d (pinv : pinv_t) (X : mdata N d.+1) (K : 'M[R]_d.+1) (cs : 'I_N -> 'I_d.+1 -> R) :
    option 'M[R]_d.+1 :=
  let E := emp_sum pinv X K cs in
  if np_amax E == 0 then None else Some ((np_amax E)^-1 *: E).

(** np.abs(x) < tol, for an extended x *)
Definition xabs_lt (x : xR) (tol : R) : bool := if x is Fin a then `|a| < tol else false.

(** the variables that live across iterations: K, means, loglik, cs, emp_cov. The last two are not bound before the first one. *)
Record ms_state N d := MState {
  ms_K : 'M[R]_d; ms_means : 'I_d -> R; ms_loglik : xR; ms_cs : 'I_N -> 'I_d -> R; ms_emp : 'M[R]_d }.

(** an entry of the history, line 178. (The "log_likelihood" of the entry is the function logl, not the value: not kept.) *)
Record ms_check := MCheck { mc_iteration : nat; mc_difference : xR }.

(** the returned list, lines 189-194, and whether the warning of line 186 was emitted *)
Record ms_result N d := MResult {
  mr_K : 'M[R]_d; mr_emp : 'M[R]_d; mr_filled : 'I_N -> 'I_d -> R;
  mr_history : option (seq ms_check); mr_n_iter : option nat; mr_warned : bool }.

(** what a call may do: return, raise UnboundLocalError, or compute with values that are not finite (not modelled further) *)
Inductive ms_outcome (T : Type) := MOk of T | MUnbound | MNotFinite.
Arguments MUnbound {T}. Arguments MNotFinite {T}.

(** the arguments of the inner call, lines 161-175 *)
Definition inner_params (p : gl_params) : gl_params :=
  GLParams (gl_alpha p) (gl_rho0 p) (gl_over_relax p) (gl_max_iter p) (gl_tol p) (gl_rtol p) false false
    (gl_rho_options p) (gl_compute_objective p).

Section Solver.
Variables (N d : nat) (eigh : eigh_t d.+1) (pinvh : 'M[R]_d.+1 -> 'M[R]_d.+1) (pinv : pinv_t) (X : mdata N d.+1) (p : gl_params).

(** lines 156-176: one iteration *)
Definition ms_step (s : ms_state N d.+1) : ms_outcome (ms_state N d.+1) :=
  let cs := compute_cs pinv (ms_means s) (ms_K s) X in
  let means := compute_mean X cs in
  match compute_empirical_covariance pinv X (ms_K s) cs with
  | None => MNotFinite
  | Some emp =>
    match graphical_lasso eigh pinvh emp (inner_params p) (InitArray (ms_K s)) with
    | Ok r => MOk (MState (gl_precision r) means (logl emp (gl_precision r)) cs emp)
    | UnboundLocalError => MUnbound
    end
  end.

(** lines 155-186: [todo] iterations from number [it] *)
Fixpoint ms_loop (todo it : nat) (s : ms_state N d.+1) (checks : seq ms_check) (last : option nat) :
    ms_outcome (loop_end (ms_state N d.+1) ms_check) :=
  match todo with
  | 0 => MOk (LoopEnd s checks last true)
  | todo'.+1 =>
    match ms_step s with
    | MOk s' =>
      let diff := xsub (ms_loglik s) (ms_loglik s') in
      let checks' := rcons checks (MCheck it diff) in
      if xabs_lt diff (gl_tol p) then MOk (LoopEnd s' checks' (Some it) false)
      else ms_loop todo' it.+1 s' checks' (Some it)
    | MUnbound => MUnbound
    | MNotFinite => MNotFinite
    end
  end.

(** lines 150-153; the last two components are never read *)
Definition ms_init : ms_state N d.+1 := MState 1%:M (fun=> 0) NInf (fun _ _ => 0) 0.

(** lines 82-194. Without an iteration, cs is not bound at line 188. The argument [init] is not used. *)
Definition missing_graphical_lasso : ms_outcome (ms_result N d.+1) :=
  match ms_loop (gl_max_iter p) 0 ms_init [::] None with
  | MOk e =>
    if le_iter e is Some it then
      let s := le_state e in
      MOk (MResult (ms_K s) (ms_emp s) (filled X (ms_cs s))
        (if gl_return_history p then Some (le_checks e) else None)
        (if gl_return_n_iter p then Some it else None) (le_else e))
    else MUnbound
  | MUnbound => MUnbound
  | MNotFinite => MNotFinite
  end.
End Solver.
