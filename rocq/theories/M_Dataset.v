(** Model of regain/datasets/base.py (make_dataset), of regain/datasets/multi_class.py, and of the two generators of
    regain/datasets/gaussian.py that check nothing (make_fede, make_sparse_low_rank).

    Random numbers are arguments: what a call of the generator (numpy, networkx, sklearn) returns. Numbers are exact reals. *)
From Coq Require Import Reals String.
From mathcomp Require Import all_ssreflect all_algebra.
From Verif Require Import RStruct NP Str M_Utils M_Ising M_Poisson.
Import Order.TTheory GRing.Theory Num.Theory.

Set Implicit Arguments.
Unset Strict Implicit.
Unset Printing Implicit Defensive.
Local Open Scope ring_scope.

Inductive derr := DErr of ierr | DLinAlgError.
Inductive dres (A : Type) := DOk of A | DRaise of derr.
Arguments DRaise {A} _.

(** * base.py *)

(** np.repeat(range(T), n) *)
Definition np_repeat (T n : nat) : seq nat := flatten [seq nseq n t | t <- iota 0 T].

(** the array data: of shape (T, n, p), or after data.transpose(1, 2, 0) of shape (n, p, T): element i of the list is the
    matrix of row i, given by its rows (one list over time for every variable) *)
Inductive data_array p := TimeFirst of seq (seq 'rV[R]_p) | TimeLast of seq ('I_p -> seq R).
Definition transpose120 p (n : nat) (data : seq (seq 'rV[R]_p)) : seq ('I_p -> seq R) :=
  [seq (fun j : 'I_p => [seq (nth 0 rows i : 'rV[R]_p) 0 j | rows <- data]) | i <- iota 0 n].

(** the returned Bunch; thetas_observed and ells only for the Gaussian distribution *)
Record bunch p := Bunch {
  b_data : data_array p; b_thetas : seq 'M[R]_p; b_X : seq 'rV[R]_p; b_y : seq nat; b_latent : option (seq 'M[R]_p * seq 'M[R]_p) }.

(** lines 115-123, 134-139, 146-151: [flat]: the samples of one time are a vector, not a matrix with one row (ising_sampler with
    n = 1), so that data has two axes and cannot be transposed (ValueError). np.vstack of no array is a ValueError. *)
Definition pack p (n : nat) (axis : string) (flat : bool) (data : seq (seq 'rV[R]_p)) (thetas : seq 'M[R]_p) latent : dres (bunch p) :=
  if size data is 0%N then DRaise (DErr IValueError)
  else
    let X := flatten data in
    let y := np_repeat (size data) n in
    if axis == "last"%string then
      if flat then DRaise (DErr IValueError)
      else DOk (Bunch (TimeLast (transpose120 n data)) thetas X y latent)
    else DOk (Bunch (TimeFirst data) thetas X y latent).

(** what a generator returns: (thetas, thetas_obs, ells), or something that does not unpack into three lists of matrices (a
    tuple of another length; the rows of a single matrix) *)
Inductive gen_value p := Three of seq 'M[R]_p & seq 'M[R]_p & seq 'M[R]_p | NotThree.
(** the parameter mode: None, a string, or a callable (and what it returns) *)
Inductive gmode p := NoMode | Mode of string | Func of ires (gen_value p).
Arguments NoMode {p}. Arguments Mode {p} _.
(** lines 75-87: the keys of the dictionary *)
Definition modes : seq string :=
  [:: "my"; "mys"; "sin"; "fixed_sparsity"; "sincos"; "gp"; "fede"; "sklearn"; "ma"; "mak"; "ticc"]%string.
(** what the functions of the dictionary return: "my" and "mys" return tuples of 6 and 7 (gaussian.py:138, 248), "ticc" one
    matrix (kernels.py:207); [gens s] is what the others return *)
Definition mode_value p (gens : string -> ires (gen_value p)) (s : string) : ires (gen_value p) :=
  if s \in [:: "my"; "mys"; "ticc"]%string then
    (if gens s is IRaise e then IRaise e else IOk (NotThree p))
  else gens s.
(** lines 57-123. [default] is what make_covariance returns; [mvn t sigma i] is row i of the t-th call of
    np.random.multivariate_normal with covariance sigma *)
Definition gaussian_case p (n : nat) (mode : gmode p) (axis : string) (default : ires (gen_value p))
    (gens : string -> ires (gen_value p)) (mvn : nat -> 'M[R]_p -> nat -> 'rV[R]_p) : dres (bunch p) :=
  let out := match mode with
             | NoMode => default
             | Func v => v
             | Mode s => if s \in modes then mode_value gens s else IRaise IValueError
             end in
  match out with
  | IRaise e => DRaise (DErr e)
  | IOk (NotThree) => DRaise (DErr IValueError)
  | IOk (Three thetas obs ells) =>
    if has (fun A : 'M[R]_p => A \notin unitmx) obs then DRaise DLinAlgError
    else
      let sigmas := [seq invmx A | A <- obs] in
      let data := [seq [seq mvn t (nth 0 sigmas t) i | i <- iota 0 n] | t <- iota 0 (size sigmas)] in
      pack n axis false data thetas (Some (obs, ells))
  end.

(** lines 126-139: [thetas]: what ising_theta_generator returns; [d t]: the numbers drawn by the sampler of time t (thresholds 0,
    responses -1 and 1, Metropolis-Hastings with 100 sweeps). The sampler sets the diagonals of the returned thetas to 0. *)
Fixpoint ising_samples p (n : nat) (d : nat -> draws p) (t : nat) (thetas : seq 'M[R]_p) :
    ires (seq (seq 'rV[R]_p) * seq 'M[R]_p) :=
  match thetas with
  | [::] => IOk ([::], [::])
  | theta :: r =>
    match ising_sampler theta (fun=> 0) n 1 100 (- 1, 1) "MH"%string 10 None (d t) 0 with
    | Some (IRaise e, _) => IRaise e
    | Some (IOk s, theta') =>
      let rows := match s with Rows l => l | OneRow x => [:: x] | Lists _ => [::] end in
      match ising_samples n d t.+1 r with
      | IRaise e => IRaise e
      | IOk (data, ths) => IOk ([seq \row_j x j | x : istate p <- rows] :: data, theta' :: ths)
      end
    | None => IOk ([::], [::])
    end
  end.
Definition ising_case p (n : nat) (axis : string) (thetas : ires (seq 'M[R]_p)) (d : nat -> draws p) : dres (bunch p) :=
  match thetas with
  | IRaise e => DRaise (DErr e)
  | IOk thetas =>
    match ising_samples n d 0 thetas with
    | IRaise e => DRaise (DErr e)
    | IOk (data, thetas) => pack n axis (n == 1)%N data thetas None
    end
  end.

(** lines 142-151: the sampler with its default parameters *)
Fixpoint poisson_samples p (n : nat) (pois : nat -> nat -> nat -> R -> nat) (noise : nat -> nat -> 'I_p -> nat) (t : nat)
    (thetas : seq 'M[R]_p) : ires (seq (seq 'rV[R]_p)) :=
  match thetas with
  | [::] => IOk [::]
  | theta :: r =>
    match lpgm_sampler theta 1 (pois t) (noise t) with
    | IRaise e => IRaise e
    | IOk X =>
      match poisson_samples n pois noise t.+1 r with
      | IRaise e => IRaise e
      | IOk data => IOk ([seq \row_j X i j | i <- iota 0 n] :: data)
      end
    end
  end.
Definition poisson_case p (n : nat) (axis : string) (thetas : ires (seq 'M[R]_p)) pois noise : dres (bunch p) :=
  match thetas with
  | IRaise e => DRaise (DErr e)
  | IOk thetas =>
    match poisson_samples n pois noise 0 thetas with
    | IRaise e => DRaise (DErr e)
    | IOk data => pack n axis false data thetas None
    end
  end.

(** lines 154-240. [default degree], [gens degree]: the generators of Gaussian precision matrices, which receive the degree;
    [ising_thetas update_theta], [poisson_thetas update_theta]: the two generators of graphs, called without it. [lower]
    is str.lower of the distribution *)
Definition make_dataset p (n : nat) (mode : gmode p) (axis update_theta : string) (degree : nat) (lower : string)
    (default : nat -> ires (gen_value p)) (gens : nat -> string -> ires (gen_value p)) mvn
    (ising_thetas : string -> ires (seq 'M[R]_p)) d (poisson_thetas : string -> ires (seq 'M[R]_p)) pois noise : dres (bunch p) :=
  if lower == "gaussian"%string then gaussian_case n mode axis (default degree) (gens degree) mvn
  else if lower == "ising"%string then ising_case n axis (ising_thetas update_theta) d
  else if lower == "poisson"%string then poisson_case n axis (poisson_thetas update_theta) pois noise
  else DRaise (DErr IValueError).

(** * multi_class.py *)

(** np.where(B == 0) and np.where(B != 0): positions in row-major order *)
Definition positions p (f : 'I_p -> 'I_p -> bool) : seq ('I_p * 'I_p) :=
  [seq ij <- [seq (i, j) | i <- enum 'I_p, j <- enum 'I_p] | f ij.1 ij.2].
Definition zeros p (B : 'M[R]_p) := positions (fun i j => B i j == 0).
Definition nonzero p (B : 'M[R]_p) := positions (fun i j => B i j != 0).

(** lines 158-161 and 162-165: the loop variable ta is not used: every turn writes at the position of the class number [i].
    [draws k]: whether the k-th draw of np.random.choice([0, 1]) is 1. IndexError when there is no such position. *)
Definition rewrite_edge p (pos : seq ('I_p * 'I_p)) (i turns : nat) (draws : nat -> bool) (K : 'M[R]_p) : ires 'M[R]_p :=
  foldl (fun acc k =>
    match acc with
    | IOk K => if ohead (drop i pos) is Some (r, c) then IOk (set_sym K r c (draws k)%:R) else IRaise IIndexError
    | _ => acc
    end) (IOk K) (iota 0 turns).
(** lines 146-166: the graph is drawn by networkx (lines 138-143). int(0.1 * k) is k div 10. *)
Definition new_class p (B : 'M[R]_p) (i : nat) (add remove : nat -> bool) : ires 'M[R]_p :=
  match rewrite_edge (zeros B) i (size (zeros B) %/ 10) add B with
  | IRaise e => IRaise e
  | IOk K => rewrite_edge (nonzero B) i (size (nonzero B) %/ 10) remove K
  end.
Definition class_binaries p (B : 'M[R]_p) (n_classes : nat) (add remove : nat -> nat -> bool) : ires (seq 'M[R]_p) :=
  foldl (fun acc i =>
    match acc with
    | IOk l => match new_class B i (add i) (remove i) with IOk K => IOk (rcons l K) | IRaise e => IRaise e end
    | _ => acc
    end) (IOk [:: B]) (iota 0 n_classes.-1).

(** lines 170-176 and 183-188: the entries of [A] on the edges, ones on the diagonal *)
Definition weighted p (A B : 'M[R]_p) : 'M[R]_p :=
  \matrix_(i, j) if i == j then 1 else if B i j != 0 then A i j else B i j.
(** lines 171-172, 184-185; [U]: np.random.rand(n_dim_obs, n_dim_obs) *)
Definition gaussian_weights p (U : 'M[R]_p) : 'M[R]_p := let A : 'M[R]_p := \matrix_(i, j) (U i j - 2%:R^-1) in 2%:R^-1 *: (A + A^T).
Definition ising_weights p (U : 'M[R]_p) : 'M[R]_p :=
  let A : 'M[R]_p := \matrix_(i, j) (U i j - 2%:R^-1) in \matrix_(i, j) Num.sg (A i j + A j i).

Record networks p := Networks {
  nw_gaussian : option (seq 'M[R]_p); nw_poisson : option (seq 'M[R]_p); nw_ising : option (seq 'M[R]_p); nw_binary : seq 'M[R]_p }.
(** lines 104-192; [asked s]: s in distribution *)
Definition generate_multiple_class_dataset p (B : 'M[R]_p) (n_classes : nat) (asked : string -> bool) (U U' : 'M[R]_p) add remove :
    ires (networks p) :=
  match class_binaries B n_classes add remove with
  | IRaise e => IRaise e
  | IOk bs =>
    IOk (Networks (if asked "gaussian"%string then Some [seq weighted (gaussian_weights U) b | b <- bs] else None)
                  (if asked "poisson"%string then Some bs else None)
                  (if asked "ising"%string then Some [seq weighted (ising_weights U') b | b <- bs] else None) bs)
  end.

(** lines 223-255: y has [n_classes] labels, whatever the number of networks *)
Definition class_bunch p (n n_classes : nat) (data : seq (seq 'rV[R]_p)) (thetas : seq 'M[R]_p) : dres (bunch p) :=
  if size data is 0%N then DRaise (DErr IValueError)
  else DOk (Bunch (TimeFirst data) thetas (flatten data) (np_repeat n_classes n) None).
Definition class_gaussian p (n n_classes : nat) (nets : seq 'M[R]_p) mvn : dres (bunch p) :=
  if has (fun A : 'M[R]_p => A \notin unitmx) nets then DRaise DLinAlgError
  else class_bunch n n_classes [seq [seq mvn t (invmx (nth 0 nets t)) i | i <- iota 0 n] | t <- iota 0 (size nets)] nets.
Definition class_ising p (n n_classes : nat) (nets : seq 'M[R]_p) (d : nat -> draws p) : dres (bunch p) :=
  match ising_samples n d 0 nets with
  | IRaise e => DRaise (DErr e)
  | IOk (data, nets) => class_bunch n n_classes data nets
  end.
Definition class_poisson p (n n_classes : nat) (nets : seq 'M[R]_p) pois noise : dres (bunch p) :=
  match poisson_samples n pois noise 0 nets with
  | IRaise e => DRaise (DErr e)
  | IOk data => class_bunch n n_classes data nets
  end.
(** the dictionary returned by sample: the Bunch of each distribution that is present *)
Record class_data p := ClassData { cl_gaussian : option (bunch p); cl_poisson : option (bunch p); cl_ising : option (bunch p) }.
Definition generation p (nets : option (seq 'M[R]_p)) (f : seq 'M[R]_p -> dres (bunch p)) : dres (option (bunch p)) :=
  if nets is Some ns then (match f ns with DOk b => DOk (Some b) | DRaise e => DRaise e end) else DOk None.
(** lines 196-266: in the order of the keys *)
Definition sample p (n n_classes : nat) (nets : networks p) mvn (d : nat -> draws p) pois noise : dres (class_data p) :=
  match generation (nw_gaussian nets) (fun ns => class_gaussian n n_classes ns mvn) with
  | DRaise e => DRaise e
  | DOk g =>
    match generation (nw_poisson nets) (fun ns => class_poisson n n_classes ns pois noise) with
    | DRaise e => DRaise e
    | DOk po =>
      match generation (nw_ising nets) (fun ns => class_ising n n_classes ns d) with
      | DRaise e => DRaise e
      | DOk i => DOk (ClassData g po i)
      end
    end
  end.
(** lines 38-103 *)
Definition make_multiclass_dataset p (n : nat) (B : 'M[R]_p) (n_classes : nat) asked U U' add remove mvn d pois noise :
    dres (class_data p * seq 'M[R]_p) :=
  match generate_multiple_class_dataset B n_classes asked U U' add remove with
  | IRaise e => DRaise (DErr e)
  | IOk nets => match sample n n_classes nets mvn d pois noise with DOk r => DOk (r, nw_binary nets) | DRaise e => DRaise e end
  end.

(** * gaussian.py: make_fede, make_sparse_low_rank *)

(** lines 585-587: start_lamda[idx] += draws (the last assignment to a repeated index counts), then the positive part *)
Definition set_at p (v : 'I_p -> R) (idx : seq 'I_p) (x : nat -> R -> R) : 'I_p -> R :=
  fun i => if i \in idx then x (size idx - (index i (rev idx)).+1)%N (v i) else v i.
(** lines 572-593: from [Q], [Rm] (eigenvectors, lines 561-565), [sigma0] (line 567) and [lamda0] (lines 568-570); [us t],
    [ul t]: np.random.rand at lines 585 and 586. Returns (K, K - L, L) for every time. *)
Fixpoint fede_loop p (Q Rm : 'M[R]_p) (epsilon : R) (idx : seq 'I_p) (us : nat -> 'I_p -> R) (ul : nat -> nat -> R)
    (sigma lamda : 'I_p -> R) (turns t : nat) : seq ('M[R]_p * 'M[R]_p * 'M[R]_p) :=
  match turns with
  | 0%N => [::]
  | turns'.+1 =>
    let K : 'M[R]_p := Q *m diag_mx (\row_i sigma i) *m Q^T in
    let L : 'M[R]_p := Rm *m diag_mx (\row_i lamda i) *m Rm^T in
    let K : 'M[R]_p := \matrix_(i, j) if `|K i j| < epsilon then 0 else K i j in
    let sigma' := fun i => sigma i + (1 + us t i) in
    let lamda' := set_at lamda idx (fun k x => x + (ul t k * 2%:R - 1)) in
    (K, K - L, L) :: fede_loop Q Rm epsilon idx us ul sigma' (fun i => Num.max (lamda' i) 0) turns' t.+1
  end.
(** lines 559-593; [eigh] gives Q and R from the matrices b^T b; [u0], [ul0]: np.random.rand at lines 567 and 570 *)
Definition make_fede (eigh : forall n, 'M[R]_n -> 'rV[R]_n * 'M[R]_n) p (T : nat) (epsilon : R) (b b' : 'rV[R]_p)
    (u0 : 'I_p -> R) (idx : seq 'I_p) (ul0 : nat -> R) us ul : seq ('M[R]_p * 'M[R]_p * 'M[R]_p) :=
  let Q := (eigh p (b^T *m b)).2 in
  let Rm := (eigh p (b'^T *m b')).2 in
  fede_loop Q Rm epsilon idx us ul (fun i => u0 i + 1) (set_at (fun=> 0) idx (fun k _ => ul0 k)) T 0.

(** lines 596-618: [spd t], [low t]: what make_sparse_spd_matrix and make_low_rank_matrix return at their t-th call *)
Definition make_sparse_low_rank p (T : nat) (spd low : nat -> 'M[R]_p) : seq ('M[R]_p * 'M[R]_p * 'M[R]_p) :=
  foldl (fun l i =>
    let: (K, _, L) := last (0, 0, 0) l in
    let K := K + spd i in let L := L + low i in rcons l (K, K - L, L))
    [:: (spd 0%N, spd 0%N - low 0%N, low 0%N)] (iota 1 T.-1).
