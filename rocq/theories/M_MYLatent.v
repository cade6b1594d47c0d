(** Model of _compute_probabilities, _permute_locations and data_Meinshausen_Yuan_sparse_latent
    (regain/datasets/gaussian.py:42-66, 141-248). Random numbers are arguments. *)
From Coq Require Import Reals String.
From mathcomp Require Import all_ssreflect all_algebra.
From Verif Require Import RStruct NP Str M_Utils M_Ising M_Gauss.
Import Order.TTheory GRing.Theory Num.Theory.

Set Implicit Arguments.
Unset Strict Implicit.
Unset Printing Implicit Defensive.
Local Open Scope ring_scope.

(** * locations *)

(** lines 56-64: [u k] is the pair drawn in [-0.03, 0.03)^2 for the k-th location *)
Definition permute_location (loc u : R * R) : R * R := (np_max (loc.1 + u.1) 0, np_max (loc.2 + u.2) 0).
Definition permute_locations (locations : seq (R * R)) (u : nat -> R * R) : seq (R * R) :=
  [seq permute_location (nth (0, 0) locations k) (u k) | k <- iota 0 (size locations)].
(** line 49: np.linalg.norm of the difference *)
Definition location_dist (a b : R * R) : R := sqrt ((a.1 - b.1) ^+ 2 + (a.2 - b.2) ^+ 2).
(** scipy.stats.norm.pdf(x, scale=1) *)
Definition norm_pdf (x : R) : R := Rtrigo_def.exp (- (x ^+ 2) / 2%:R) / sqrt (2%:R * PI).
(** lines 42-55: [mask] (None: no mask), [thresholds] drawn in [0, 1) *)
Definition compute_probabilities p (loc : 'I_p -> R * R) (mask : option ('I_p -> 'I_p -> bool)) (thresholds : 'I_p -> 'I_p -> R) : 'M[R]_p :=
  \matrix_(i, j)
    let d := location_dist (loc i) (loc j) in
    let d := if (if mask is Some m then m i j else false) then d / 10%:R else d in
    let q := 2%:R * norm_pdf (d * sqrt p%:R) in
    if q < thresholds i j then 0 else q.

(** * data_Meinshausen_Yuan_sparse_latent *)

(** the ways to fail: the assertions on the block of the latent variables (176, 223), on theta_obs (181, 229) and on sigma
    (183, 233), the ones of _theta_my, IndexError of line 162 and TypeError of line 175 *)
Inductive lerr := LAssertLatent | LAssertObserved | LAssertSigma | LTheta of ierr | LIndexError | LTypeError.
Inductive lres (A : Type) := LOk of A | LRaise of lerr.
Arguments LRaise {A} _.

(** lines 158-167: at most [budget] indices not below i among the first [steps] of [ix] *)
Fixpoint lat_pick m (i : nat) (budget steps : nat) (ix : seq 'I_m) : lres (seq 'I_m) :=
  match budget, steps with
  | b.+1, s.+1 =>
    match ix with
    | [::] => LRaise LIndexError
    | j :: ix' => if (j < i)%N then lat_pick i budget s ix'
                  else match lat_pick i b s ix' with LOk l => LOk (j :: l) | LRaise e => LRaise e end
    end
  | _, _ => LOk [::]
  end.
(** lines 168-171: row i of the array, and column i for the indices that are below h. The columns 0, ..., h - 1 are the block of
    the latent variables. *)
Definition lat_set h p (latent : 'M[R]_(h, h + p)) (i : 'I_h) (ixs : seq 'I_(h + p)) (value : R) : 'M[R]_(h, h + p) :=
  \matrix_(a, b) if (a == i) && (b \in ixs) then value
                 else if (b == lshift p i) && (lshift p a \in ixs) then value else latent a b.
Definition lat_nnz h m (latent : 'M[R]_(h, m)) (i : 'I_h) : nat := #|[set j | latent i j != 0]|.
(** lines 150-171: [ix i]: np.argsort(probs[p + i, :])[::-1]; [nzp i]: the number of nonzero entries of probs[p + i, :]. The bound
    of line 161 on the integer sel is the integer part of (p + h) / 2 - no_nonzero. *)
Definition lat_value (h p : nat) : R := 98%:R / 100%:R / ((p + h)%:R * (1 / 2%:R)).
Definition lat_start h p (ix : 'I_h -> seq 'I_(h + p)) (nzp : 'I_h -> nat) : lres 'M[R]_(h, h + p) :=
  foldl (fun acc (i : 'I_h) =>
    match acc with
    | LRaise e => LRaise e
    | LOk latent =>
      match lat_pick i (minn ((h + p)./2 - lat_nnz latent i) (nzp i)) (h + h) (ix i) with
      | LRaise e => LRaise e
      | LOk ixs => LOk (lat_set latent i ixs (lat_value h p))
      end
    end) (LOk 0) (enum 'I_h).
(** lines 172-178: if some row of THETA has more than (p + h) / 2 nonzero entries the slice with a float raises; the unit
    diagonal *)
Definition unit_diag h p (latent : 'M[R]_(h, h + p)) : 'M[R]_(h, h + p) :=
  \matrix_(a, b) if b == lshift p a then 1 else latent a b.

(** lines 179-184, 228-234: the matrices of one time *)
Definition lat_observed (chol : chol_t) h p (theta : 'M[R]_p) (theta_H : 'M[R]_h) (connections : 'M[R]_(h, p)) :
    lres ('M[R]_p * 'M[R]_p) :=
  let theta_obs := theta - connections^T *m invmx theta_H *m connections in
  if ~~ is_pos_def (chol p) theta_obs then LRaise LAssertObserved
  else let sigma := invmx theta_obs in
    if ~~ is_pos_def (chol p) sigma then LRaise LAssertSigma else LOk (theta_obs, sigma).

(** lines 207-222: [lat_prev] is the block of the previous time *)
Definition lat_fill h (to_put : 'I_h -> nat) (ix : 'I_h -> seq 'I_h) (value : R) : 'M[R]_h :=
  foldl (fun (lat : 'M[R]_h) (i : 'I_h) => set_cross lat i (my_pick i (to_put i - nnz lat i) (ix i)) value) 0 (enum 'I_h).
Definition lat_prune h (to_put : 'I_h -> nat) (shuffle : 'I_h -> seq 'I_h -> seq 'I_h) (lat : 'M[R]_h) : 'M[R]_h :=
  foldl (fun (lat : 'M[R]_h) (t : 'I_h) =>
    let edges := shuffle t [seq j <- enum 'I_h | lat t j != 0] in
    set_cross lat t (take (size edges - 4) edges) 0) lat [seq i <- enum 'I_h | (to_put i < nnz lat i)%N].
Definition lat_next h (lat_prev : 'M[R]_h) (value : R) ix shuffle : 'M[R]_h :=
  let to_put i := nnz lat_prev i in
  fill_diag (lat_prune to_put shuffle (lat_fill to_put ix value)) (fun=> 1).

(** what is stored for one time: theta, theta_H, theta_obs, sigma *)
Record lat_time h p := LatTime { lt_theta : 'M[R]_p; lt_H : 'M[R]_h; lt_obs : 'M[R]_p; lt_sigma : 'M[R]_p }.

(** lines 141-187: the first time; [pix], [pshuffle] are the orders and the shuffles of _theta_my *)
Definition lat_first (chol : chol_t) h p pix pshuffle (ix : 'I_h -> seq 'I_(h + p)) nzp : lres (lat_time h p * 'M[R]_(h, p)) :=
  match theta_my chol pix pshuffle with
  | IRaise e => LRaise (LTheta e)
  | IOk theta =>
    match lat_start ix nzp with
    | LRaise e => LRaise e
    | LOk latent =>
      if [exists i, (h + p < 2 * nnz theta i)%N] then LRaise LTypeError else
      let latent := unit_diag latent in
      let theta_H := lsubmx latent in
      if ~~ is_pos_def (chol h) theta_H then LRaise LAssertLatent else
      let connections := rsubmx latent in
      match lat_observed chol theta theta_H connections with
      | LRaise e => LRaise e
      | LOk (obs, sigma) => LOk (LatTime theta theta_H obs sigma, connections)
      end
    end
  end.
(** lines 193-238: one more time *)
Definition lat_step (chol : chol_t) h p (connections : 'M[R]_(h, p)) (prev : lat_time h p) pix pshuffle ix shuffle :
    lres (lat_time h p) :=
  match theta_my chol pix pshuffle with
  | IRaise e => LRaise (LTheta e)
  | IOk theta =>
    let lat := lat_next (lt_H prev) (lat_value h p) ix shuffle in
    if ~~ is_pos_def (chol h) lat then LRaise LAssertLatent else
    match lat_observed chol theta lat connections with
    | LRaise e => LRaise e
    | LOk (obs, sigma) => LOk (LatTime theta lat obs sigma)
    end
  end.
(** lines 141-240 without the locations and the samples. The draws of time k: [pix k], [psh k] (for theta), [lix k], [lsh k] (for
    the latent block). *)
Fixpoint lat_times (chol : chol_t) h p (connections : 'M[R]_(h, p)) pix psh lix lsh (todo k : nat) (prev : lat_time h p) :
    lres (seq (lat_time h p)) :=
  match todo with
  | 0 => LOk [::]
  | todo'.+1 =>
    match lat_step chol connections prev (pix k) (psh k) (lix k) (lsh k) with
    | LRaise e => LRaise e
    | LOk cur =>
      match lat_times chol connections pix psh lix lsh todo' k.+1 cur with
      | LRaise e => LRaise e
      | LOk l => LOk (cur :: l)
      end
    end
  end.
Definition data_my_latent (chol : chol_t) h p (T : nat) (ix : 'I_h -> seq 'I_(h + p)) nzp
    (pix : nat -> 'I_p -> seq 'I_p) psh (lix : nat -> 'I_h -> seq 'I_h) lsh : lres (seq (lat_time h p) * 'M[R]_(h, p)) :=
  match lat_first chol (pix 0%N) (psh 0%N) ix nzp with
  | LRaise e => LRaise e
  | LOk (first, connections) =>
    match lat_times chol connections pix psh lix lsh (T - 1) 1 first with
    | LRaise e => LRaise e
    | LOk l => LOk (first :: l, connections)
    end
  end.
