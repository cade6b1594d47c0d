(** Model of the constructors of the estimators, and of scikit-learn's get_params and clone on them (regain: every __init__ of an estimator). *)
From Coq Require Import String.
From mathcomp Require Import all_ssreflect.
From Verif Require Import M_Utils.

Set Implicit Arguments.
Unset Strict Implicit.
Unset Printing Implicit Defensive.

Section Ctor.
(** [Atom]: None, numbers, texts, which copying does not duplicate; [Content]: what an object with an identity (a list, an array, an estimator) holds;
    [as_array]: np.asarray of an atom or a content; [built]: what a constructor builds instead of an argument; [default_burn_in]: n_iter // 4 *)
Variables (Atom : eqType) (Content : Type) (none one default_burn_in : Atom) (empty : Content) (is_empty is_array : Content -> bool).
Variables (as_array : Atom + Content -> Content) (built : Content).
(** python objects: [Ref i c] is the object number i. Contents are never changed here *)
Inductive value := Imm of Atom | Ref of nat & Content.
(** a is b *)
Definition same (a b : value) : bool :=
  match a, b with Imm x, Imm y => x == y | Ref i _, Ref j _ => i == j | _, _ => false end.
(** what a constructor does with an argument p: self.p = p; nothing; self.p = a constant; self.p = p or []; self.p = np.asarray(p) if it is not None;
    self.p = a constant if it is None; self.p = a new object *)
Inductive action := Keep | Missing | Replace of Atom | OrEmpty | AsArray | IfNone of Atom | Build.
Definition act (a : action) (v : value) (fresh : nat) : option value :=
  match a with
  | Keep => Some v
  | Missing => None
  | Replace x => Some (Imm x)
  | OrEmpty => Some (match v with
      | Imm x => if x == none then Ref fresh empty else v
      | Ref _ c => if is_empty c then Ref fresh empty else v end)
  | AsArray => Some (match v with
      | Imm x => if x == none then v else Ref fresh (as_array (inl x))
      | Ref _ c => if is_array c then v else Ref fresh (as_array (inr c)) end)
  | IfNone x => Some (if v is Imm y then (if y == none then Imm x else v) else v)
  | Build => Some (Ref fresh built)
  end.
(** the attributes named as the parameters, for the arguments in their order; [fresh]: the number of the next object *)
Fixpoint construct (spec : seq action) (args : seq value) (fresh : nat) : seq (option value) :=
  match spec, args with
  | a :: spec', v :: args' => act a v fresh :: construct spec' args' fresh.+1
  | _, _ => [::]
  end.
(** BaseEstimator.get_params: getattr(self, name); before version 0.24 ([strict] false) an attribute that is not set reads as None *)
Fixpoint get_params (strict : bool) (attrs : seq (option value)) : res (seq value) :=
  match attrs with
  | [::] => Val [::]
  | a :: attrs' =>
    match (if a is Some v then Val v else if strict then Raise AttributeError else Val (Imm none)), get_params strict attrs' with
    | Raise e, _ | _, Raise e => Raise e
    | Val v, Val r => Val (v :: r)
    end
  end.
(** clone(param, safe=False): copy.deepcopy, or clone for an estimator *)
Fixpoint copies (l : seq value) (fresh : nat) : seq value :=
  if l is v :: l' then (if v is Ref _ c then Ref fresh c else v) :: copies l' fresh.+1 else [::].
(** sklearn.base.clone of the estimator with these attributes: the parameters of the new one. It raises RuntimeError if the constructor of the copy does not
    store what it is given *)
Definition clone (strict : bool) (spec : seq action) (attrs : seq (option value)) (fresh : nat) : res (seq value) :=
  match get_params strict attrs with
  | Raise e => Raise e
  | Val params =>
    let given := copies params fresh in
    match get_params strict (construct spec given (fresh + size params)) with
    | Raise e => Raise e
    | Val params' => if all (fun ab => same ab.1 ab.2) (zip given params') then Val params' else Raise RuntimeError
    end
  end.

(** * the constructors, each with those it calls by super().__init__, of regain/. SimilarityTemporalPoissonModel, which cannot be constructed, is in
    M_KernelFit. Simplified: a check of mode in GroupLassoOverlap that needs Matlab *)
(** self.p = p for every argument *)
Definition storing : seq (string * seq string) := [::
  (** bayesian/gwishart_inference.py:456-480 *)
  ("BayesianGraphicalLasso"%string, [:: "alpha"%string; "max_iter"%string; "alphas"%string; "n_resampling"%string; "tol"%string; "verbose"%string; "assume_centered"%string; "mode"%string; "scoring"%string; "top_n"%string]);
  (** bayesian/wishart_distribution_.py:44-48 *)
  ("WishartDistribution"%string, [:: "nu"%string; "S"%string]);
  (** bayesian/wishart_distribution_.py:88-89 *)
  ("InverseWishartDistribution"%string, [:: "nu"%string; "S"%string]);
  (** bayesian/wishart_distribution_.py:146-149 *)
  ("NormalInverseWishartDistribution"%string, [:: "mu"%string; "kappa"%string; "nu"%string; "S"%string]);
  (** covariance/graphical_lasso_.py:264-292 *)
  ("GraphicalLasso"%string, [:: "alpha"%string; "rho"%string; "over_relax"%string; "max_iter"%string; "mode"%string; "tol"%string; "rtol"%string; "verbose"%string; "assume_centered"%string; "update_rho_options"%string; "compute_objective"%string; "init"%string]);
  (** covariance/kernel_latent_time_graphical_lasso_.py:467-507 *)
  ("KernelLatentTimeGraphicalLasso"%string, [:: "alpha"%string; "tau"%string; "kernel_psi"%string; "kernel_phi"%string; "rho"%string; "tol"%string; "rtol"%string; "psi"%string; "phi"%string; "max_iter"%string; "verbose"%string; "assume_centered"%string; "return_history"%string; "update_rho_options"%string; "compute_objective"%string; "ker_psi_param"%string; "ker_phi_param"%string; "init"%string]);
  (** covariance/kernel_latent_time_graphical_lasso_.py:670-720 *)
  ("SimilarityLatentTimeGraphicalLasso"%string, [:: "alpha"%string; "beta"%string; "tau"%string; "eta"%string; "kernel_psi"%string; "kernel_phi"%string; "rho"%string; "tol"%string; "rtol"%string; "psi"%string; "phi"%string; "max_iter"%string; "verbose"%string; "assume_centered"%string; "return_history"%string; "update_rho_options"%string; "compute_objective"%string; "ker_psi_param"%string; "ker_phi_param"%string; "max_iter_ext"%string; "init"%string; "eps"%string; "n_clusters"%string]);
  (** covariance/kernel_time_graphical_lasso_.py:429-465 *)
  ("KernelTimeGraphicalLasso"%string, [:: "alpha"%string; "beta"%string; "kernel"%string; "rho"%string; "tol"%string; "rtol"%string; "psi"%string; "max_iter"%string; "verbose"%string; "assume_centered"%string; "return_history"%string; "update_rho_options"%string; "compute_objective"%string; "ker_param"%string; "max_iter_ext"%string; "init"%string]);
  (** covariance/latent_graphical_lasso_.py:250-278 *)
  ("LatentGraphicalLasso"%string, [:: "alpha"%string; "tau"%string; "rho"%string; "tol"%string; "rtol"%string; "max_iter"%string; "verbose"%string; "assume_centered"%string; "mode"%string; "update_rho_options"%string; "compute_objective"%string; "init"%string]);
  (** covariance/latent_time_graphical_lasso_.py:433-469 *)
  ("LatentTimeGraphicalLasso"%string, [:: "alpha"%string; "tau"%string; "beta"%string; "eta"%string; "mode"%string; "rho"%string; "tol"%string; "rtol"%string; "psi"%string; "phi"%string; "max_iter"%string; "verbose"%string; "assume_centered"%string; "update_rho_options"%string; "compute_objective"%string; "init"%string]);
  (** covariance/latent_time_matrix_decomposition.py:402-438 *)
  ("LatentTimeMatrixDecomposition"%string, [:: "alpha"%string; "tau"%string; "beta"%string; "eta"%string; "mode"%string; "rho"%string; "time_on_axis"%string; "tol"%string; "rtol"%string; "psi"%string; "phi"%string; "max_iter"%string; "verbose"%string; "assume_centered"%string; "update_rho_options"%string; "compute_objective"%string]);
  (** covariance/missing_graphical_lasso_.py:258-286 *)
  ("MissingGraphicalLasso"%string, [:: "alpha"%string; "rho"%string; "over_relax"%string; "max_iter"%string; "mode"%string; "tol"%string; "rtol"%string; "verbose"%string; "assume_centered"%string; "update_rho_options"%string; "compute_objective"%string; "init"%string]);
  (** covariance/time_graphical_lasso_.py:374-412 *)
  ("TimeGraphicalLasso"%string, [:: "alpha"%string; "beta"%string; "mode"%string; "rho"%string; "tol"%string; "rtol"%string; "psi"%string; "max_iter"%string; "verbose"%string; "assume_centered"%string; "return_history"%string; "update_rho_options"%string; "compute_objective"%string; "stop_at"%string; "stop_when"%string; "suppress_warn_list"%string; "init"%string]);
  (** forward_backward/time_graphical_lasso_.py:466-514 *)
  ("TimeGraphicalLassoForwardBackward"%string, [:: "alpha"%string; "beta"%string; "tol"%string; "max_iter"%string; "verbose"%string; "assume_centered"%string; "compute_objective"%string; "eps"%string; "choose"%string; "lamda"%string; "delta"%string; "gamma"%string; "lamda_criterion"%string; "time_norm"%string; "return_history"%string; "debug"%string; "return_n_linesearch"%string; "vareps"%string; "stop_at"%string; "stop_when"%string; "init"%string; "laplacian_penalty"%string]);
  (** generalized_linear_model/glm_gaussian.py:157-179 *)
  ("Gaussian_GLM_GM"%string, [:: "alpha"%string; "tol"%string; "rtol"%string; "reconstruction"%string; "max_iter"%string; "verbose"%string; "return_history"%string; "return_n_iter"%string; "compute_objective"%string]);
  (** generalized_linear_model/glm_ising.py:230-258 *)
  ("IsingGraphicalModel"%string, [:: "alpha"%string; "tol"%string; "rtol"%string; "reconstruction"%string; "mode"%string; "rho"%string; "max_iter"%string; "verbose"%string; "return_history"%string; "return_n_iter"%string; "compute_objective"%string; "gamma"%string]);
  (** generalized_linear_model/glm_poisson.py:217-245 *)
  ("PoissonGraphicalModel"%string, [:: "alpha"%string; "tol"%string; "rtol"%string; "reconstruction"%string; "mode"%string; "max_iter"%string; "gamma"%string; "intercept"%string; "verbose"%string; "return_history"%string; "return_n_iter"%string; "compute_objective"%string]);
  (** generalized_linear_model/glm_time_ising.py:374-406 *)
  ("TemporalIsingModel"%string, [:: "distribution"%string; "alpha"%string; "kernel"%string; "rho"%string; "tol"%string; "rtol"%string; "psi"%string; "max_iter"%string; "verbose"%string; "assume_centered"%string; "return_history"%string; "compute_objective"%string; "ker_param"%string; "max_iter_ext"%string; "n_cores"%string]);
  (** generalized_linear_model/glm_time_poisson.py:372-402 *)
  ("TemporalPoissonModel"%string, [:: "alpha"%string; "kernel"%string; "rho"%string; "tol"%string; "rtol"%string; "gamma"%string; "psi"%string; "max_iter"%string; "verbose"%string; "return_history"%string; "compute_objective"%string; "ker_param"%string; "max_iter_ext"%string; "n_cores"%string])].
(** bayesian/wishart_process_.py:225-262 *)
Definition ctor_WishartProcess : seq (string * action) := [:: ("theta"%string, Keep); ("var_prop"%string, Keep); ("mu_prior"%string, Missing); ("var_prior"%string, Missing); ("var_Lprop"%string, Keep); ("mu_Lprior"%string, Missing); ("var_Lprior"%string, Missing); ("n_iter"%string, Keep); ("burn_in"%string, IfNone default_burn_in); ("verbose"%string, Keep); ("assume_centered"%string, Keep); ("kernel"%string, Keep); ("learn_ell"%string, Keep)].
(** covariance/kernel_time_graphical_lasso_.py:645-686 *)
Definition ctor_SimilarityTimeGraphicalLasso : seq (string * action) := [:: ("alpha"%string, Keep); ("beta"%string, Keep); ("kernel"%string, Keep); ("rho"%string, Keep); ("tol"%string, Keep); ("rtol"%string, Keep); ("psi"%string, Keep); ("max_iter"%string, Keep); ("verbose"%string, Keep); ("assume_centered"%string, Keep); ("return_history"%string, Keep); ("update_rho_options"%string, Keep); ("compute_objective"%string, Keep); ("ker_param"%string, Replace one); ("max_iter_ext"%string, Keep); ("init"%string, Keep); ("eps"%string, Keep); ("n_clusters"%string, Keep)].
(** discriminant_analysis.py:88-91 *)
Definition ctor_DiscriminantAnalysis : seq (string * action) := [:: ("estimator"%string, Keep); ("ensure_posdef"%string, Keep); ("priors"%string, AsArray)].
(** discriminant_analysis.py:200-201 *)
Definition ctor_PrecomputedDiscriminantAnalysis : seq (string * action) := [:: ("precision"%string, Missing)].
(** generalized_linear_model/glm_time_ising.py:636-673 *)
Definition ctor_SimilarityTemporalIsingModel : seq (string * action) := [:: ("alpha"%string, Keep); ("beta"%string, Keep); ("kernel"%string, Keep); ("rho"%string, Keep); ("tol"%string, Keep); ("rtol"%string, Keep); ("psi"%string, Keep); ("max_iter"%string, Keep); ("verbose"%string, Keep); ("assume_centered"%string, Keep); ("return_history"%string, Keep); ("compute_objective"%string, Keep); ("ker_param"%string, Replace one); ("max_iter_ext"%string, Keep); ("eps"%string, Keep); ("n_clusters"%string, Keep)].
(** linear_model/group_lasso_overlap_.py:184-237 *)
Definition ctor_GroupLassoOverlap : seq (string * action) := [:: ("alpha"%string, Keep); ("fit_intercept"%string, Keep); ("groups"%string, OrEmpty); ("rho"%string, Keep); ("n_jobs"%string, Keep); ("tol"%string, Keep); ("verbose"%string, Keep); ("rtol"%string, Keep); ("normalize"%string, Keep); ("precompute"%string, Keep); ("max_iter"%string, Keep); ("copy_X"%string, Keep); ("warm_start"%string, Keep); ("positive"%string, Keep); ("random_state"%string, Keep); ("selection"%string, Keep); ("mode"%string, Keep); ("matlab_engine"%string, Keep)].
(** model_selection/stability_optimization.py:272-305 *)
Definition ctor_GraphicalModelStabilitySelection : seq (string * action) := [:: ("estimator"%string, Keep); ("param_grid"%string, Build); ("scoring"%string, Keep); ("n_jobs"%string, Keep); ("iid"%string, Keep); ("refit"%string, Keep); ("cv"%string, Build); ("verbose"%string, Keep); ("pre_dispatch"%string, Keep); ("error_score"%string, Keep); ("mode"%string, Keep); ("return_train_score"%string, Keep); ("n_repetitions"%string, Keep); ("sampling_size"%string, Keep)].
Definition constructors : seq (string * seq (string * action)) :=
  [seq (c.1, [seq (p, Keep) | p <- c.2]) | c <- storing] ++
  [:: ("WishartProcess"%string, ctor_WishartProcess);
      ("SimilarityTimeGraphicalLasso"%string, ctor_SimilarityTimeGraphicalLasso);
      ("DiscriminantAnalysis"%string, ctor_DiscriminantAnalysis);
      ("PrecomputedDiscriminantAnalysis"%string, ctor_PrecomputedDiscriminantAnalysis);
      ("SimilarityTemporalIsingModel"%string, ctor_SimilarityTemporalIsingModel);
      ("GroupLassoOverlap"%string, ctor_GroupLassoOverlap);
      ("GraphicalModelStabilitySelection"%string, ctor_GraphicalModelStabilitySelection)].
End Ctor.
