(** Model of the estimator layer: GraphicalLasso.fit (graphical_lasso_.py), TimeGraphicalLasso.fit
    and .score (time_graphical_lasso_.py), DiscriminantAnalysis.fit (discriminant_analysis.py).
    A labelled data set is the list of its rows, each with its label; labels are ordered. Values are
    finite numbers (check_X_y and check_array reject nan and inf). *)
From Coq Require Import Reals.
From mathcomp Require Import all_ssreflect all_algebra.
From Verif Require Import RStruct NP M_Prox M_Loop M_GL M_LGL M_TGL M_Utils.
Import Order.TTheory GRing.Theory Num.Theory.

Set Implicit Arguments.
Unset Strict Implicit.
Unset Printing Implicit Defensive.
Local Open Scope ring_scope.

(** X.mean(0), for a non-empty X *)
Definition col_mean n (X : seq 'rV[R]_n) : 'rV[R]_n := (size X)%:R^-1 *: \sum_(x <- X) x.
(** sklearn.covariance.empirical_covariance on a non-empty X (called at graphical_lasso_.py:337 and
    time_graphical_lasso_.py:495): np.dot(X.T, X) / n if assume_centered, else np.cov(X.T, bias=1) *)
Definition empirical_covariance n (X : seq 'rV[R]_n) (assume_centered : bool) : 'M[R]_n :=
  if assume_centered then (size X)%:R^-1 *: \sum_(x <- X) x^T *m x
  else (size X)%:R^-1 *: \sum_(x <- X) (x - col_mean X)^T *m (x - col_mean X).

(** a fitted GraphicalLasso: location_, precision_, covariance_, n_iter_ and whether fit warned *)
Record gl_fitted n := GLFitted {
  gf_location : 'rV[R]_n; gf_precision : 'M[R]_n; gf_covariance : 'M[R]_n; gf_n_iter : nat;
  gf_warned : bool }.

(** graphical_lasso_.py:296-338. check_array refuses fewer than two rows or two columns. _fit asks
    for n_iter and no history. *)
Definition gl_fit n (eigh : eigh_t n) (pinvh : 'M[R]_n -> 'M[R]_n) (p : gl_params)
    (init : init_mode n) (assume_centered : bool) (X : seq 'rV[R]_n) : res (gl_fitted n) :=
  if (n < 2)%N || (size X < 2)%N then Raise ValueError else
  let location := if assume_centered then 0 else col_mean X in
  let emp_cov := empirical_covariance X assume_centered in
  let p' := GLParams (gl_alpha p) (gl_rho0 p) (gl_over_relax p) (gl_max_iter p) (gl_tol p) (gl_rtol p)
              false true (gl_rho_options p) (gl_compute_objective p) in
  match graphical_lasso eigh pinvh emp_cov p' init with
  | Ok r => Val (GLFitted location (gl_precision r) (gl_covariance r) (odflt 0%N (gl_n_iter r))
                          (gl_warned r))
  | UnboundLocalError => Raise UnboundLocal
  end.

Section Labelled.
Variables (n : nat) (d : unit) (L : orderType d).

(** y, and X[y == cl] *)
Definition labels (D : seq ('rV[R]_n * L)) : seq L := [seq r.2 | r <- D].
Definition rows_of (D : seq ('rV[R]_n * L)) (cl : L) : seq 'rV[R]_n := [seq r.1 | r <- D & r.2 == cl].
(** np.unique(y, return_counts=True): sorted distinct values and how often each occurs *)
Definition np_unique (y : seq L) : seq L := sort <=%O (undup y).
Definition np_unique_counts (y : seq L) : seq nat := [seq count_mem cl y | cl <- np_unique y].

(** a fitted time estimator; arrays over time are lists in the order of classes_ *)
Record time_fitted := TimeFitted {
  tf_classes : seq L; tf_location : seq 'rV[R]_n; tf_precision : seq 'M[R]_n;
  tf_covariance : seq 'M[R]_n; tf_history : option (seq convergence); tf_n_iter : option nat;
  tf_warned : bool }.

(** a list of T matrices, as the array the solver receives *)
Definition to_stack m (l : seq 'M[R]_n) : stack n m.+1 := [ffun t : 'I_m.+1 => nth 0 l t].
Definition of_stack m (K : stack n m.+1) : seq 'M[R]_n := [seq K t | t <- enum 'I_m.+1].

(** time_graphical_lasso_.py:461-500; [solver] is what self._fit calls. check_X_y refuses fewer than
    two columns or an empty data set, so there is at least one class. *)
Definition time_fit
    (solver : forall m, stack n m.+1 -> ('I_m.+1 -> R) -> py_result (tgl_result n m))
    (assume_centered : bool) (D : seq ('rV[R]_n * L)) : res time_fitted :=
  if (n < 2)%N || (size D == 0)%N then Raise ValueError else
  let classes := np_unique (labels D) in
  let n_samples := np_unique_counts (labels D) in
  let m := (size classes).-1 in
  let location := [seq if assume_centered then 0 else col_mean (rows_of D cl) | cl <- classes] in
  let emp_cov := [seq empirical_covariance (rows_of D cl) assume_centered | cl <- classes] in
  match solver m (to_stack m emp_cov) (fun t => (nth 0%N n_samples t)%:R) with
  | Ok r => Val (TimeFitted classes location (of_stack (tgl_precision r)) (of_stack (tgl_covariance r))
                   (tgl_history r) (tgl_n_iter r) (tgl_warned r))
  | UnboundLocalError => Raise UnboundLocal
  end.

(** time_graphical_lasso_.py:425-459: TimeGraphicalLasso._fit asks for n_iter. [init] gives, for the
    number of times found in the data, the initial value. *)
Definition tgl_fit (eigh : eigh_t n) (pinvh : 'M[R]_n -> 'M[R]_n) (px : psi_mode n) (p : tgl_params)
    (init : forall m, init_mode3 n m.+1) : bool -> seq ('rV[R]_n * L) -> res time_fitted :=
  time_fit (fun m emp_cov n_samples =>
    time_graphical_lasso eigh pinvh px emp_cov (Some n_samples)
      (TGLParams (tgl_alpha p) (tgl_rho0 p) (tgl_beta p) (tgl_max_iter p) (tgl_tol p) (tgl_rtol p)
        (tgl_return_history p) true (tgl_compute_objective p) (tgl_stop_at p) (tgl_stop_when p)
        (tgl_rho_options p)) (init m)).

(** time_graphical_lasso_.py:502-550, with get_observed_precision() = precision_ (the latent
    estimators pass precision_ - latent_). A class without a test row makes empirical_covariance
    refuse an empty array. *)
Definition tgl_score (f : time_fitted) (D : seq ('rV[R]_n * L)) : res xR :=
  if (n < 2)%N || (size D == 0)%N || has (fun cl => size (rows_of D cl) == 0%N) (tf_classes f)
  then Raise ValueError else
  let test_cov := [seq empirical_covariance [seq x - cm.2 | x <- rows_of D cm.1] true
                  | cm <- zip (tf_classes f) (tf_location f)] in
  Val (foldl xadd (Fin 0)
    [seq xmul (Fin (size (rows_of D skc.2))%:R) (log_likelihood skc.1.1 skc.1.2)
    | skc <- zip (zip test_cov (tf_precision f)) (tf_classes f)]).

(** discriminant_analysis.py:93-142 up to the call of estimator.fit: classes_, the inverse labels
    (position of the label in classes_) and priors_. *)
Definition da_inverse (D : seq ('rV[R]_n * L)) : seq ('rV[R]_n * nat) :=
  [seq (r.1, index r.2 (np_unique (labels D))) | r <- D].
Definition da_prepare (priors : option (seq R)) (D : seq ('rV[R]_n * L)) :
    res (seq L * seq R * seq ('rV[R]_n * nat)) :=
  if (size D == 0)%N then Raise ValueError else
  let classes := np_unique (labels D) in
  let D' := da_inverse D in
  if (size classes < 2)%N then Raise ValueError else
  let priors_ := match priors with
                 | None => [seq (count (fun r => r.2 == k) D')%:R / (size D)%:R
                           | k <- iota 0 (size classes)]
                 | Some q => q end in
  if has (fun k => count (fun r => r.2 == k) D' == 1%N) (iota 0 (size classes)) then Raise ValueError
  else Val (classes, priors_, D').
End Labelled.
