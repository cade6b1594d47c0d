(** Model of prox_node_penalty (regain/prox.py:167-239) and node_penalty (regain/norm.py:58-78). *)
From Coq Require Import Reals.
From mathcomp Require Import all_ssreflect all_algebra.
From Verif Require Import RStruct NP M_Prox M_Loop M_TGL.
Import Order.TTheory GRing.Theory Num.Theory.

Set Implicit Arguments.
Unset Strict Implicit.
Unset Printing Implicit Defensive.
Local Open Scope ring_scope.

(** * norm.py *)

(** norm.py:58-78 calls scipy's [minimize] on the sum of the column norms ([axis=0]) under one scalar constraint, the sum of
    all the entries of x + x^T - X. The constraint and the function: *)
Definition node_constraint n (X x : 'M[R]_n) : R := \sum_i \sum_j (x + x^T - X) i j.
Definition node_function n (x : 'M[R]_n) : R := \sum_j col_norm x j.

(** * prox.py *)

(** prox.py:72-78 when no column is zero; [None]: some column is zero and NaN appears (inf * 0), after which every comparison is
    false: the caller iterates to max_iter and returns NaN *)
Definition bsts n (a : 'M[R]_n) (lamda : R) : option 'M[R]_n :=
  if [exists j, col_norm a j == 0] then None
  else Some (\matrix_(i, j) (a i j * ((1 - lamda / col_norm a j) * (if lamda < col_norm a j then 1 else 0)))).

(** line 179: C = np.hstack((eye, -eye, eye)); line 180: the inverse of C.T C + 2 I *)
Definition node_C n : 'M[R]_(n, n + n + n) := row_mx (row_mx 1%:M (- 1%:M)) 1%:M.
Definition node_inverse n : 'M[R]_(n + n + n) := invmx ((node_C n)^T *m node_C n + (2%:R)%:M).

(** the variables of one time *)
Record node_slice n := NodeSlice {
  nd_V : 'M[R]_n; nd_W : 'M[R]_n; nd_Y1 : 'M[R]_n; nd_Y2 : 'M[R]_n; nd_U1 : 'M[R]_n; nd_U2 : 'M[R]_n }.

(** lines 174-177, 182-183 *)
Definition node_start n : node_slice n :=
  let c := const_mx (1 / n%:R) in NodeSlice 0 0 c c c c.

(** lines 188-209 at one time: [A_1], [A_2] are the two halves of A_12. Line 190: the transpose of (W^T - U_2) is added, so
    that W cancels. *)
Definition node_step n (A_1 A_2 : 'M[R]_n) (lamda : R) (s : node_slice n) : option (node_slice n) :=
  let A := 2%:R^-1 *: (nd_Y1 s - nd_Y2 s - nd_W s - nd_U1 s + ((nd_W s)^T - nd_U2 s)^T) in
  if bsts A lamda is Some V then
    let A := col_mx (col_mx ((V + nd_U2 s)^T) A_1) A_2 in
    let D := V + nd_U1 s in
    let Z := node_inverse n *m (2%:R *: A - (node_C n)^T *m D) in
    let W := usubmx (usubmx Z) in
    let Y1 := dsubmx (usubmx Z) in
    let Y2 := dsubmx Z in
    Some (NodeSlice V W Y1 Y2 (nd_U1 s + (V + W - (Y1 - Y2))) (nd_U2 s + (V - W^T)))
  else None.

(** the state of the loop: the slices, W_old and V_old are those of the previous iteration (zero before the first), rho *)
Record node_state n T := NodeState { ns_slices : 'I_T -> node_slice n; ns_rho : R }.
Definition sum_over T (f : 'I_T -> R) : R := \sum_t f t.

(** lines 187-236: one iteration on all times. *)
Definition node_check n T (rho tol rtol : R) (old new : 'I_T -> node_slice n) : convergence :=
  let V t := nd_V (new t) in let W t := nd_W (new t) in
  let dY t := nd_Y1 (new t) - nd_Y2 (new t) in
  let rnorm := sqrt (sum_over (fun t => squared_norm (V t + W t - dY t)) + sum_over (fun t => squared_norm (V t - (W t)^T))) in
  let snorm := rho * sqrt (sum_over (fun t => squared_norm (W t - nd_W (old t))) +
                           sum_over (fun t => squared_norm (V t + W t - nd_V (old t) - nd_W (old t)))) in
  {| c_obj := NaN; c_rnorm := rnorm; c_snorm := snorm;
     c_e_pri := sqrt ((2 * (T * (n * n)))%:R) * tol +
       rtol * np_max (sqrt (sum_over (fun t => squared_norm (W t)) + sum_over (fun t => squared_norm (V t + W t))))
                     (sqrt (sum_over (fun t => squared_norm (V t)) + sum_over (fun t => squared_norm (dY t))));
     c_e_dual := sqrt ((2 * (T * (n * n)))%:R) * tol +
       rtol * rho * sqrt (sum_over (fun t => squared_norm (nd_U1 (new t))) + sum_over (fun t => squared_norm (nd_U2 (new t)))) |}.
Definition node_rescale n (c : R) (s : node_slice n) : node_slice n :=
  NodeSlice (nd_V s) (nd_W s) (nd_Y1 s) (nd_Y2 s) (c *: nd_U1 s) (c *: nd_U2 s).
(** [None]: NaN at some time *)
Definition node_all n T (A_1 A_2 : stack n T) lamda (ss : 'I_T -> node_slice n) : option ('I_T -> node_slice n) :=
  if [forall t, isSome (node_step (A_1 t) (A_2 t) lamda (ss t))]
  then Some (fun t => odflt (ss t) (node_step (A_1 t) (A_2 t) lamda (ss t))) else None.

(** lines 187-239; returns (Y_1, Y_2) and whether it warned. [None]: NaN. rho does not appear in the updates, only in the
    test and in the rescaling of U_1, U_2 (update_rho with its default options). *)
Definition rho_defaults : rho_options := RhoOptions 10%:R 2%:R 2%:R.
Fixpoint node_loop n T (A_1 A_2 : stack n T) (lamda tol rtol : R) (todo : nat) (s : node_state n T) :
    option (stack n T * stack n T * bool) :=
  let out (ss : 'I_T -> node_slice n) (w : bool) := ([ffun t => nd_Y1 (ss t)], [ffun t => nd_Y2 (ss t)], w) in
  match todo with
  | 0 => Some (out (ns_slices s) true)
  | todo'.+1 =>
    if node_all A_1 A_2 lamda (ns_slices s) is Some new then
      let check := node_check (ns_rho s) tol rtol (ns_slices s) new in
      if stop_test check then Some (out new false)
      else
        let rho_new := update_rho rho_defaults (ns_rho s) (c_rnorm check) (c_snorm check) in
        node_loop A_1 A_2 lamda tol rtol todo' (NodeState (fun t => node_rescale (ns_rho s / rho_new) (new t)) rho_new)
    else None
  end.
Definition prox_node_penalty n T (A_1 A_2 : stack n T) (lamda rho tol rtol : R) (max_iter : nat) :=
  node_loop A_1 A_2 lamda tol rtol max_iter (NodeState (fun=> node_start n) rho).
