(** Model of the fit methods of the kernel-driven estimators: KernelTimeGraphicalLasso, SimilarityTimeGraphicalLasso
    (regain/covariance/kernel_time_graphical_lasso_.py, KT below), KernelLatentTimeGraphicalLasso,
    SimilarityLatentTimeGraphicalLasso (regain/covariance/kernel_latent_time_graphical_lasso_.py, KL below), TemporalIsingModel,
    SimilarityTemporalIsingModel, TemporalPoissonModel (regain/generalized_linear_model/glm_time_ising.py, TI below, and
    glm_time_poisson.py, TP below): how they choose the kernel and what they do with the solver's results.

    T is the number of classes; [times] are the class labels. The solvers are arguments: functions of the kernel and of the initial
    value. scipy's minimize_scalar and sklearn's AgglomerativeClustering are arguments as well. *)
From Coq Require Import Reals String List.
From mathcomp Require Import all_ssreflect all_algebra.
From Verif Require Import RStruct NP M_Prox M_Loop M_GL M_LGL M_TGL M_KTGL M_Utils M_Missing.
Import Order.TTheory GRing.Theory Num.Theory.

Set Implicit Arguments.
Unset Strict Implicit.
Unset Printing Implicit Defensive.
Local Open Scope ring_scope.

(** a class of kernels of sklearn.gaussian_process: its value between two times for a length_scale, or for a constant_value; [None]:
    the constructor has no such parameter (TypeError) *)
Record kernel_class := KernelClass { kc_length : option (R -> R -> R -> R); kc_constant : option (R -> R -> R -> R) }.
(** sklearn's RBF(length_scale), ExpSineSquared(length_scale) with periodicity 1, and ConstantKernel(constant_value) *)
Definition rbf (l s t : R) : R := exp (- ((s - t) ^+ 2 / (2%:R * l ^+ 2))).
Definition exp_sine_squared (l s t : R) : R := exp (- (2%:R * (sin (PI * `|s - t|) / l) ^+ 2)).
Definition constant_value (c s t : R) : R := c.
Definition RBF := KernelClass (Some rbf) None.
Definition ExpSineSquared := KernelClass (Some exp_sine_squared) None.
Definition ConstantKernel := KernelClass None (Some constant_value).

(** the parameter kernel: None, a square array, or a callable *)
Inductive kernel_arg := KNone | KArray k of 'M[R]_k | KClass of kernel_class.

Section Kernels.
Variables (T : nat) (times : 'I_T -> R).
(** the matrix of a kernel at the times *)
Definition gram (f : R -> R -> R) (x : 'I_T -> R) : 'M[R]_T := \matrix_(s, t) f (x s) (x t).
(** KT 320-325, 497-502, 536-545; KL 524-533, 545-553; TI 302-307, 494-503; TP 298-303, 489-498: try length_scale, then constant_value *)
Definition kernel_at (c : kernel_class) (theta : R) : res 'M[R]_T :=
  if kc_length c is Some f then Val (gram (f theta) times)
  else if kc_constant c is Some f then Val (gram (f theta) times) else Raise TypeError.

(** KT 535-554, KL 523-563, TI 493-512, TP 488-507: [kernel or np.identity(T)]. The truth value of an array with more than one entry is a
    ValueError; that of an array with one entry is whether it is not 0; an empty array counts as False. *)
Definition choose_kernel (kernel : kernel_arg) (ker_param : R) : res 'M[R]_T :=
  match kernel with
  | KClass c => kernel_at c ker_param
  | KNone => Val 1%:M
  | KArray 0 _ => Val 1%:M
  | KArray 1 A => if A ord0 ord0 == 0 then Val 1%:M else if T == 1%N then Val (A ord0 ord0)%:M else Raise ValueError
  | KArray _ _ => Raise ValueError
  end.
(** KT 783-790, TI 751-758: a kernel given to a Similarity estimator (not None) *)
Definition given_kernel (kernel : kernel_arg) : res 'M[R]_T :=
  match kernel with
  | KArray k A => match k =P T with ReflectT e => Val (castmx (e, e) A) | ReflectF _ => Raise ValueError end
  | _ => Raise AttributeError
  end.
End Kernels.

(** * KernelTimeGraphicalLasso *)

Section KernelFit.
Variables (n T : nat) (times : 'I_T -> R) (psi : 'M[R]_n -> R).
(** what a solver returns, with its precision matrices *)
Variables (Out : Type) (prec : Out -> stack n T).
(** the solver, as a function of the kernel and of the initial value *)
Variable solver : 'M[R]_T -> init_mode3 n T -> res Out.

(** KT 318-332 (the same: TI 300-315, TP 296-310): the objective minimised over theta *)
Definition objective_kernel (c : kernel_class) (K : stack n T) (theta : R) : res R :=
  match kernel_at times c theta with Val k => Val (objective_kernel_value K k psi) | Raise e => Raise e end.

Definition em_tol : R := (10%:R ^+ 5)^-1.
(** KT 475-532: the loop. [minimise K]: the x of minimize_scalar on objective_kernel for the precision matrices K. Returns the precision
    matrices, the solver's last result (None: it was not called), the last parameter used and whether the loop was exhausted. *)
Fixpoint em_loop (c : kernel_class) (minimise : stack n T -> R) (todo i : nat) (K : stack n T) (theta_old : R) (out : option Out) :
    res (stack n T * option Out * R * bool) :=
  match todo with
  | 0%N => Val (K, out, theta_old, true)
  | todo'.+1 =>
    let theta := minimise K in
    if (0 < i)%N && (`|theta_old - theta| < em_tol) then Val (K, out, theta_old, false)
    else
      match kernel_at times c theta with
      | Raise e => Raise e
      | Val k =>
        match solver k (Init3Array K) with
        | Raise e => Raise e
        | Val r => em_loop c minimise todo' i.+1 (prec r) theta (Some r)
        end
      end
  end.

(** KT 467-578: [ker_param] is "auto" (None) or a number; [init_prec] is init_precision(emp_cov, mode=init), [init] the parameter *)
Definition kernel_fit (kernel : kernel_arg) (ker_param : option R) (minimise : stack n T -> R) (max_iter_ext : nat)
    (init : init_mode3 n T) (init_prec : stack n T) : res (stack n T * option Out * bool) :=
  if ker_param is Some theta then
    match choose_kernel times kernel theta with
    | Raise e => Raise e
    | Val k => match solver k init with Val r => Val (prec r, Some r, false) | Raise e => Raise e end
    end
  else if kernel is KClass c then
    match em_loop c minimise max_iter_ext 0 init_prec 0 None with
    | Val (K, out, _, w) => Val (K, out, w)
    | Raise e => Raise e
    end
  else Raise ValueError.
End KernelFit.

(** * the similarity of precision matrices *)

(** np.min (np.max is [np_amax]) *)
Definition np_amin d (A : 'M[R]_d.+1) : R := \big[Num.min/A 0 0]_(st : 'I_d.+1 * 'I_d.+1) A st.1 st.2.
(** KT 350-356: the distances, below and above the diagonal *)
Definition psi_distances n T (psi : 'M[R]_n -> R) (K : stack n T) : 'M[R]_T :=
  \matrix_(s, t) if (s < t)%N then psi (K t - K s) else if (t < s)%N then psi (K s - K t) else 0.
(** KT 349-362, for at least one time: the distances are shifted by their minimum and divided by their maximum. [None]: the maximum is 0 and
    every entry is nan (0 / 0). *)
Definition precision_similarity n T (psi : 'M[R]_n -> R) (K : stack n T.+1) : option 'M[R]_T.+1 :=
  let kernel := psi_distances psi K in
  let low := np_amin kernel in
  let kernel : 'M[R]_T.+1 := \matrix_(s, t) (kernel s t - low) in
  let high := np_amax kernel in
  if high == 0 then None else Some (\matrix_(s, t) (1 - kernel s t / high)).
(** TI 567-577: combinations takes (K s, K t) for s < t, squareform puts the values on both sides; not shifted *)
Definition precision_similarity_ising n T (K : stack n T.+1) : option 'M[R]_T.+1 :=
  let kernel : 'M[R]_T.+1 := \matrix_(s, t) if (s < t)%N then l1_od_norm (K s - K t) else if (t < s)%N then l1_od_norm (K t - K s) else 0 in
  let high := np_amax kernel in
  if high == 0 then None else Some (\matrix_(s, t) (1 - kernel s t / high)).

(** * the Similarity estimators *)

Section SimilarityFit.
Variables (n T : nat).
Variables (Out : Type) (prec : Out -> stack n T.+1).
Variable solver : 'M[R]_T.+1 -> init_mode3 n T.+1 -> res Out.
(** precision_similarity *)
Variable similarity : stack n T.+1 -> option 'M[R]_T.+1.
(** AgglomerativeClustering(n_clusters, affinity="precomputed", linkage="complete").fit_predict on a matrix of distances: the labels, or
    ValueError (more clusters than times). A matrix with nan is a ValueError. *)
Variable cluster : nat -> 'M[R]_T.+1 -> option ('I_T.+1 -> nat).

(** np.linalg.norm(labels_pred - labels_pred_old) / labels_pred.size < eps *)
Definition labels_close (eps : R) (a b : 'I_T.+1 -> nat) : bool := sqrt (\sum_t ((a t)%:R - (b t)%:R) ^+ 2) / T.+1%:R < eps.
(** KT 743-745, KL 780-782: kernels.RBF(0.0001)(labels_pred[:, None]) + kernels.RBF(beta)(np.arange(n_times)[:, None]) *)
Definition cluster_kernel (beta : R) (lab : 'I_T.+1 -> nat) : 'M[R]_T.+1 :=
  gram (rbf ((10%:R ^+ 4)^-1)) (fun t => (lab t)%:R) + gram (rbf beta) (fun t : 'I_T.+1 => (t : nat)%:R).

(** what the fit leaves behind: precision_, the solver's last result, similarity_matrix_, whether it warned *)
Record sim_fitted := SimFitted { sf_precision : stack n T.+1; sf_out : option Out; sf_similarity : 'M[R]_T.+1; sf_warned : bool }.

(** KT 708-779, KL 757-829 (the solver of KL also receives kernel_phi). [kernel]: the value of the variable kernel *)
Fixpoint sim_loop (n_clusters : nat) (beta eps : R) (todo i : nat) (K : stack n T.+1) (out : option Out) (kernel : 'M[R]_T.+1)
    (labels_old : 'I_T.+1 -> nat) : res sim_fitted :=
  match todo with
  | 0%N => Val (SimFitted K out kernel true)
  | todo'.+1 =>
    if similarity K is Some theta then
      if cluster n_clusters theta is Some lab then
        if (0 < i)%N && labels_close eps lab labels_old then Val (SimFitted K out theta false)
        else
          let kernel := cluster_kernel beta lab in
          match solver kernel (Init3Array K) with
          | Raise e => Raise e
          | Val r => sim_loop n_clusters beta eps todo' i.+1 (prec r) (Some r) kernel lab
          end
      else Raise ValueError
    else Raise ValueError
  end.

(** KT 688-814 without a kernel. [n_clusters] is the parameter, which the fit overwrites when it is None: the second component is its
    value after the fit. [None] labels before the first iteration are not read. *)
Definition similarity_fit (n_clusters : option nat) (beta eps : R) (max_iter_ext : nat) (init_prec : stack n T.+1) :
    res sim_fitted * option nat :=
  let k := odflt T.+1 n_clusters in
  (sim_loop k beta eps max_iter_ext 0 init_prec None 1%:M (fun=> 0%N), Some k).

(** TI 700-748: the solver comes first in each iteration, from its own initial value (it receives none) *)
Fixpoint sim_ising_loop (n_clusters : nat) (beta eps : R) (todo i : nat) (K : stack n T.+1) (out : option Out) (kernel : 'M[R]_T.+1)
    (labels_old : 'I_T.+1 -> nat) : res sim_fitted :=
  match todo with
  | 0%N => Val (SimFitted K out kernel true)
  | todo'.+1 =>
    match solver kernel Init3Other with
    | Raise e => Raise e
    | Val r =>
      if similarity (prec r) is Some theta then
        if cluster n_clusters theta is Some lab then
          if (0 < i)%N && labels_close eps lab labels_old then Val (SimFitted (prec r) (Some r) theta false)
          else sim_ising_loop n_clusters beta eps todo' i.+1 (prec r) (Some r) (cluster_kernel beta lab) lab
        else Raise ValueError
      else Raise ValueError
    end
  end.
Definition similarity_ising_fit (n_clusters : option nat) (beta eps : R) (max_iter_ext : nat) (random : stack n T.+1) :
    res sim_fitted * option nat :=
  let k := odflt T.+1 n_clusters in
  (sim_ising_loop k beta eps max_iter_ext 0 random None 1%:M (fun=> 0%N), Some k).
End SimilarityFit.

(** * SimilarityLatentTimeGraphicalLasso *)

(** KL 734-829 without kernel_psi: [solver_phi kernel_phi kernel_psi init] receives the parameter kernel_phi itself; the matrix built from
    eta at lines 738-742 is not used. The solver replaces None by the identity (KL 141-142); it takes np.diag of anything else, a ValueError
    for a callable (when there are two times or more); arrays of the right size only are modelled *)
Definition raw_kernel T (kernel : kernel_arg) : res 'M[R]_T :=
  match kernel with
  | KNone => Val 1%:M
  | KArray k A => given_kernel T (KArray A)
  | KClass _ => Raise ValueError
  end.
Definition latent_similarity_fit n T Out (prec : Out -> stack n T.+1)
    (solver_phi : 'M[R]_T.+1 -> 'M[R]_T.+1 -> init_mode3 n T.+1 -> res Out) similarity cluster
    (kernel_phi : kernel_arg) (eta : R) (n_clusters : option nat) (beta eps : R) (max_iter_ext : nat) (init_prec : stack n T.+1) :
    res (sim_fitted n T Out) * option nat :=
  similarity_fit prec (fun k i => match raw_kernel T.+1 kernel_phi with Val phi => solver_phi phi k i | Raise e => Raise e end)
    similarity cluster n_clusters beta eps max_iter_ext init_prec.
(** KL 830-866, with kernel_psi given: a kernel_phi that is None has no attribute shape *)
Definition latent_given_kernel T (times : 'I_T -> R) (kernel : kernel_arg) (ker_param : R) : res 'M[R]_T :=
  if kernel is KClass c then kernel_at times c ker_param else given_kernel T kernel.

(** * the temporal Ising and Poisson models *)

Section TemporalModels.
Variables (n T : nat) (times : 'I_T -> R) (Out : Type) (prec : Out -> stack n T).
(** _fit_time_ising_model or _fit_time_poisson_model, as a function of the kernel *)
Variable solver : 'M[R]_T -> res Out.

(** TI 411-532: [values] are the entries of X, [counts] the numbers of rows of the classes. np.array of arrays of different shapes is not an
    array with three axes (ValueError, there or where its shape is unpacked). The estimator has no attribute init. *)
Definition temporal_ising_fit (values : seq R) (counts : seq nat) (kernel : kernel_arg) (ker_param : option R) : res Out :=
  if size (undup values) != 2%N then Raise ValueError
  else if ~~ constant counts then Raise ValueError
  else if ker_param is Some theta then
    match choose_kernel times kernel theta with Val k => solver k | Raise e => Raise e end
  else if kernel is KClass c then Raise AttributeError
  else Raise ValueError.

(** np.any(data): a boolean, which is 0 or 1 in a comparison *)
Definition np_any (values : seq R) : nat := has (fun x => x != 0) values.
(** TP 407-528: [previous] is the attribute precision_, if there is one; the result is its value after the fit. [values] are rounded. *)
Definition temporal_poisson_fit (values : seq R) (counts : seq nat) (kernel : kernel_arg) (ker_param : option R)
    (minimise : stack n T -> R) (max_iter_ext : nat) (previous : option (stack n T)) : res (option (stack n T)) :=
  if ((np_any values)%:R < 0 :> R) then Raise ValueError
  else if ~~ constant counts then Raise ValueError
  else if ker_param is Some theta then
    match choose_kernel times kernel theta with
    | Raise e => Raise e
    | Val k => match solver k with Val r => Val (Some (prec r)) | Raise e => Raise e end
    end
  else if kernel is KClass c then
    if previous is Some K then
      match em_loop times prec (fun k _ => solver k) c minimise max_iter_ext 0 K 0 None with
      | Val (K, _, _, _) => Val (Some K)
      | Raise e => Raise e
      end
    else if max_iter_ext == 0%N then Val None else Raise AttributeError
  else Raise ValueError.
End TemporalModels.

(** TI 534-564, TP 530-560: the score, once the data are valid *)
Definition temporal_score n T (precision : stack n T) (X : seq (seq R)) (y : seq nat) : R := - IZR 99999999.

(** a call with keyword arguments: TypeError when one is not a parameter *)
Definition call_keywords (parameters arguments : seq string) : res unit :=
  if all (fun a => existsb (String.eqb a) parameters) arguments then Val tt else Raise TypeError.
(** TP 372-388: the parameters of TemporalPoissonModel *)
Definition temporal_poisson_parameters : seq string :=
  [:: "alpha"; "kernel"; "rho"; "tol"; "rtol"; "gamma"; "psi"; "max_iter"; "verbose"; "return_history"; "compute_objective"; "ker_param";
      "max_iter_ext"; "n_cores"]%string.
(** TP 627-670: SimilarityTemporalPoissonModel passes these to it, whatever its own arguments are *)
Definition similarity_poisson_init : res unit :=
  call_keywords temporal_poisson_parameters
    [:: "alpha"; "rho"; "tol"; "rtol"; "max_iter"; "verbose"; "gamma"; "assume_centered"; "update_rho_options"; "compute_objective";
        "return_history"; "psi"; "init"]%string.
