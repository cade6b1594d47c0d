(** Model of regain/linear_model: lasso_.py, group_lasso_.py and the ADMM solver of group_lasso_overlap_.py. *)
From Coq Require Import Reals.
From mathcomp Require Import all_ssreflect all_algebra.
From Verif Require Import RStruct NP M_Prox M_Loop.
Import Order.TTheory GRing.Theory Num.Theory.

Set Implicit Arguments.
Unset Strict Implicit.
Unset Printing Implicit Defensive.
Local Open Scope ring_scope.

(** numpy.linalg.cholesky (lower factor) and the first component of numpy.linalg.lstsq, here only called on square
    systems; both are arguments of the model. Not modelled: LinAlgError, which cholesky raises on a matrix that is not
    positive definite. *)
Definition cholesky_t := forall k, 'M[R]_k -> 'M[R]_k.
Definition lstsq_t := forall k, 'M[R]_k -> 'cV[R]_k -> 'cV[R]_k.

(** keyword arguments of lasso (lasso_.py:41) and group_lasso (group_lasso_.py:43-45) *)
Record ls_params := LSParams {
  ls_lamda : R; ls_rho : R; ls_alpha : R; ls_max_iter : nat; ls_tol : R; ls_rtol : R; ls_return_history : bool }.

(** lasso_.py:127-134, lu_factor, and lines 92-97 (group_lasso_.py:109-114 is the same text): the x-update. [q] is
    [Atb + rho * (z - u)]. *)
Definition ls_x m n (chol : cholesky_t) (lstsq : lstsq_t) (A : 'M[R]_(m, n)) (b : 'cV[R]_m) (rho : R) (z u : 'cV[R]_n) :
    'cV[R]_n :=
  let q := A^T *m b + rho *: (z - u) in
  if (n <= m)%N then
    let L := chol n (A^T *m A + rho *: 1%:M) in
    lstsq n L^T (lstsq n L q)
  else
    let L := chol m (1%:M + (1 / rho) *: (A *m A^T)) in
    rho^-1 *: (q - rho^-1 *: (A^T *m lstsq m L^T (lstsq m L (A *m q)))).

(** local variables that live across iterations; [ls_hist] is the last value of the local [history] *)
Record ls_state n := LSState { ls_xv : 'cV[R]_n; ls_z : 'cV[R]_n; ls_u : 'cV[R]_n; ls_hist : option convergence }.

(** history[1] < history[3] and history[2] < history[4] (lasso_.py:117, group_lasso_.py:135) *)
Definition ls_stop (c : convergence) : bool := (c_rnorm c < c_e_pri c) && (c_snorm c < c_e_dual c).

(** lasso_.py:123-124 *)
Definition lasso_objective m n (A : 'M[R]_(m, n)) (b : 'cV[R]_m) (alpha : R) (x z : 'cV[R]_n) : R :=
  2%:R^-1 * (\sum_i ((A *m x - b) i 0) ^+ 2) + alpha * \sum_i `|z i 0|.

(** lasso_.py:90-118: one iteration *)
Definition lasso_body m n chol lstsq (A : 'M[R]_(m, n)) (b : 'cV[R]_m) (p : ls_params) (it : nat) (s : ls_state n) :
    outcome (ls_state n) * convergence :=
  let rho := ls_rho p in
  let x := ls_x chol lstsq A b rho (ls_z s) (ls_u s) in
  let zold := ls_z s in
  let x_hat := ls_alpha p *: x + (1 - ls_alpha p) *: zold in
  let z := soft_thresholding (x_hat + ls_u s) (ls_lamda p / rho) in
  let u := ls_u s + (x_hat - z) in
  let history := {|
    c_obj := Fin (lasso_objective A b (ls_lamda p) x z);
    c_rnorm := np_norm (x - z);
    c_snorm := np_norm (- rho *: (z - zold));
    c_e_pri := sqrt n%:R * ls_tol p + ls_rtol p * np_max (np_norm x) (np_norm (- z));
    c_e_dual := sqrt n%:R * ls_tol p + ls_rtol p * np_norm (rho *: u) |} in
  let s' := LSState x z u (Some history) in
  if ls_stop history then (Break s', history) else (Next s', history).

(** lasso_.py:81-84 *)
Definition ls_init n : ls_state n := LSState 0 0 0 None.
Definition lasso_loop m n chol lstsq (A : 'M[R]_(m, n)) b p :=
  py_for (lasso_body chol lstsq A b p) (ls_max_iter p) 0 (ls_init n) [::] None.

(** what comes second in the returned pair *)
Inductive ls_second n := LastEntry of convergence | AllEntries of seq convergence | Coefs of 'cV[R]_n.

(** lasso_.py:120, [return z, history if return_history else z]: python reads this as the pair of [z] and
    [history if return_history else z]; [history] is the tuple of the last iteration, unbound if there was none *)
Definition lasso m n chol lstsq (A : 'M[R]_(m, n)) b p : py_result ('cV[R]_n * ls_second n) :=
  let s := le_state (lasso_loop chol lstsq A b p) in
  if ls_return_history p then
    if ls_hist s is Some h then Ok (ls_z s, LastEntry n h) else UnboundLocalError _
  else Ok (ls_z s, Coefs (ls_z s)).

(** * group_lasso_.py *)

(** numpy.allclose of two integer vectors, default tolerances: |a - b| <= 1e-8 + 1e-5 |b|. Vectors of different lengths
    cannot be compared (ValueError) unless one of them has one element, which is then compared with every element of the
    other. [None]: ValueError. *)
Definition close_nat (a b : nat) : bool :=
  (`|(a%:R : R) - b%:R| <= (10%:R ^+ 8)^-1 + (10%:R ^+ 5)^-1 * `|b%:R : R|).
Definition np_allclose_nat (a b : seq nat) : option bool :=
  if size a == size b then Some (all (fun p : nat * nat => close_nat p.1 p.2) (zip a b))
  else match a, b with
       | [:: x], _ => Some (all (close_nat x) b)
       | _, [:: y] => Some (all (fun x => close_nat x y) a)
       | _, _ => None
       end.

(** group_lasso_.py:89-93: the check passes. Groups are lists of non-negative integers. *)
Definition partition_check (n : nat) (groups : seq (seq nat)) : bool :=
  odflt false (np_allclose_nat (flatten groups) (iota 0 n)).

(** group_lasso_.py:119-120: [z[group] = soft_thresholding(x_hat[group] + u[group], lamda / rho)] for each group, in place.
    Not modelled: IndexError for an index that is not smaller than n. *)
Definition group_assign n (x_hat u : 'cV[R]_n) (t : R) (z : 'cV[R]_n) (group : seq nat) : 'cV[R]_n :=
  \col_i if (i : nat) \in group then soft1 (x_hat i 0 + u i 0) t else z i 0.
Definition group_z n (groups : seq (seq nat)) (x_hat u : 'cV[R]_n) (t : R) (z : 'cV[R]_n) : 'cV[R]_n :=
  foldl (group_assign x_hat u t) z groups.

(** np.linalg.norm(z[g]); entries of [g] that are not indices are not modelled *)
Definition norm_at n (z : 'cV[R]_n) (g : seq nat) : R := sqrt (\sum_(i <- pmap (insub : nat -> option 'I_n) g) (z i 0) ^+ 2).
(** group_lasso_.py:141-144 *)
Definition group_objective m n (A : 'M[R]_(m, n)) (b : 'cV[R]_m) (alpha : R) (groups : seq (seq nat)) (x z : 'cV[R]_n) : R :=
  2%:R^-1 * (\sum_i ((A *m x - b) i 0) ^+ 2) + alpha * \sum_(g <- groups) norm_at z g.

(** group_lasso_.py:107-136: one iteration. [zold = z] names the array that the assignments [z[group] = ...] then
    modify, so that on line 129 [zold] is [z]. *)
Definition group_lasso_body m n chol lstsq (A : 'M[R]_(m, n)) (b : 'cV[R]_m) groups (p : ls_params) (it : nat)
    (s : ls_state n) : outcome (ls_state n) * convergence :=
  let rho := ls_rho p in
  let x := ls_x chol lstsq A b rho (ls_z s) (ls_u s) in
  let x_hat := ls_alpha p *: x + (1 - ls_alpha p) *: ls_z s in
  let z := group_z groups x_hat (ls_u s) (ls_lamda p / rho) (ls_z s) in
  let zold := z in
  let u := ls_u s + (x_hat - z) in
  let history := {|
    c_obj := Fin (group_objective A b (ls_lamda p) groups x z);
    c_rnorm := np_norm (x - z);
    c_snorm := np_norm (- rho *: (z - zold));
    c_e_pri := sqrt n%:R * ls_tol p + ls_rtol p * np_max (np_norm x) (np_norm (- z));
    c_e_dual := sqrt n%:R * ls_tol p + ls_rtol p * np_norm (rho *: u) |} in
  let s' := LSState x z u (Some history) in
  if ls_stop history then (Break s', history) else (Next s', history).

Definition group_lasso_loop m n chol lstsq (A : 'M[R]_(m, n)) b groups p :=
  py_for (group_lasso_body chol lstsq A b groups p) (ls_max_iter p) 0 (ls_init n) [::] None.

(** group_lasso_.py:87-138; [None]: ValueError *)
Definition group_lasso m n chol lstsq (A : 'M[R]_(m, n)) b groups p : option ('cV[R]_n * ls_second n) :=
  if ~~ partition_check n groups then None
  else
    let e := group_lasso_loop chol lstsq A b groups p in
    Some (ls_z (le_state e), if ls_return_history p then AllEntries n (le_checks e) else Coefs (ls_z (le_state e))).

(** * group_lasso_overlap_.py *)

(** lines 57-62. [data] is given by its columns. *)
Definition unused_idx (groups : seq (seq nat)) : seq nat := sort leq (undup (flatten groups)).
Definition remove_unused_features (C : Type) (data : nat -> C) (groups : seq (seq nat)) : seq C * seq (seq nat) :=
  let unique_idx := unused_idx groups in
  ([seq data i | i <- unique_idx], [seq [seq index g unique_idx | g <- group] | group <- groups]).

(** lines 65-72 *)
Definition D_function (groups : seq (seq nat)) (dimension : nat) : R :=
  foldl (fun D group => if dimension \in group then D + 1 else D) 0 groups.

(** lines 75-88; one pass of the loop over [enumerate(groups)] accumulates (ss, count) *)
Definition P_star_acc (x : seq (seq R)) (dim : nat) (acc : R * nat) (ig : nat * seq nat) : R * nat :=
  if dim \in ig.2 then (acc.1 + nth 0 (nth [::] x ig.1) (index dim ig.2), acc.2.+1) else acc.
Definition P_star_x_bar (x : seq (seq R)) (groups : seq (seq nat)) (dim : nat) : R :=
  let: (ss, count) := foldl (P_star_acc x dim) (0, 0%N) (zip (iota 0 (size groups)) groups) in
  if (0 < count)%N then ss / count%:R else ss.
Definition P_star_vec d (x : seq (seq R)) (groups : seq (seq nat)) : 'cV[R]_d := \col_i P_star_x_bar x groups i.

(** keyword arguments of group_lasso_overlap, line 91 (verbose only prints) *)
Record ov_params := OVParams { ov_lamda : R; ov_rho : R; ov_max_iter : nat; ov_tol : R; ov_rtol : R }.
Record ov_state d := OVState { ov_x : seq (seq R); ov_z : 'cV[R]_d; ov_y : seq (seq R); ov_count : nat }.

(** z[j] *)
Definition at_idx d (z : 'cV[R]_d) (j : nat) : R := if insub j is Some i then z i 0 else 0.

(** lines 145-156; [inv] is np.linalg.inv(A.T.dot(A) + rho * D), an argument (LinAlgError of a singular matrix is not
    modelled) *)
Definition ov_D d groups : 'M[R]_d := diag_mx (\row_i D_function groups i).
Definition ov_x_update (lamda rho : R) (x y : seq (seq R)) : seq (seq R) :=
  [seq [seq soft1 (a.1 - a.2 / rho) (lamda / rho) | a <- zip xy.1 xy.2] | xy <- zip x y].
Definition ov_z_update m d (A : 'M[R]_(m, d)) (b : 'cV[R]_m) groups (inv : 'M[R]_d) (rho : R) (x y : seq (seq R)) : 'cV[R]_d :=
  inv *m (A^T *m b + ov_D d groups *m (P_star_vec d y groups + rho *: P_star_vec d x groups)).
Definition ov_y_update d (rho : R) (groups : seq (seq nat)) (x y : seq (seq R)) (z : 'cV[R]_d) : seq (seq R) :=
  [seq [seq a.1 + rho * (a.2.1 - at_idx z a.2.2) | a <- zip yxg.1 (zip yxg.2.1 yxg.2.2)] | yxg <- zip y (zip x groups)].

(** lines 144-178: one iteration. The recorded objective (lines 561-564) takes np.linalg.norm of the list of local
    vectors, which depends on the numpy version when their lengths differ: it is an argument [obj]. *)
Definition ov_body m d (A : 'M[R]_(m, d)) (b : 'cV[R]_m) groups (inv : 'M[R]_d) obj (p : ov_params) (k : nat) (s : ov_state d) :
    outcome (ov_state d) * convergence :=
  let rho := ov_rho p in
  let x := ov_x_update (ov_lamda p) rho (ov_x s) (ov_y s) in
  let zold := ov_z s in
  let x_consensus := P_star_vec d x groups in
  let y_consensus := P_star_vec d (ov_y s) groups in
  let z := ov_z_update A b groups inv rho x (ov_y s) in
  let y := ov_y_update rho groups x (ov_y s) z in
  let history := {|
    c_obj := obj x z;
    c_rnorm := np_norm (x_consensus - z);
    c_snorm := np_norm (- rho *: (z - zold));
    c_e_pri := sqrt d%:R * ov_tol p + ov_rtol p * np_max (np_norm x_consensus) (np_norm (- z));
    c_e_dual := sqrt d%:R * ov_tol p + ov_rtol p * np_norm (rho *: y_consensus) |} in
  if ls_stop history then
    if (10 < ov_count s)%N then (Break (OVState x z y (ov_count s)), history)
    else (Next (OVState x z y (ov_count s).+1), history)
  else (Next (OVState x z y 0), history).

(** lines 135-137, 143 *)
Definition ov_init d (groups : seq (seq nat)) : ov_state d :=
  OVState [seq nseq (size g) 0 | g <- groups] 0 [seq nseq (size g) 0 | g <- groups] 0.
Definition ov_loop m d (A : 'M[R]_(m, d)) b groups inv obj p :=
  py_for (ov_body A b groups inv obj p) (ov_max_iter p) 0 (ov_init d groups) [::] None.
(** lines 133-180; returns (z, hist, k) *)
Definition group_lasso_overlap m d (A : 'M[R]_(m, d)) b groups (inv : 'M[R]_d -> 'M[R]_d) obj (p : ov_params) :
    py_result ('cV[R]_d * seq convergence * nat) :=
  let e := ov_loop A b groups (inv (A^T *m A + ov_rho p *: ov_D d groups)) obj p in
  if le_iter e is Some k then Ok (ov_z (le_state e), le_checks e, k) else UnboundLocalError _.
