(** Model of regain/datasets/gaussian.py (the generators of precision matrices), and of the generators of
    regain/datasets/kernels.py.

    Random numbers are arguments: what a call of numpy's generator returns. Numbers are exact reals. [chol A] is whether
    np.linalg.cholesky succeeds (utils.is_pos_def); [eigh] is np.linalg.eigh / eigvalsh. *)
From Coq Require Import Reals String.
From mathcomp Require Import all_ssreflect all_algebra.
From Verif Require Import RStruct NP Str M_Utils M_Ising.
Import Order.TTheory GRing.Theory Num.Theory.

Set Implicit Arguments.
Unset Strict Implicit.
Unset Printing Implicit Defensive.
Local Open Scope ring_scope.

Definition chol_t := forall n, 'M[R]_n -> bool.
Definition eigh_t := forall n, 'M[R]_n -> 'rV[R]_n * 'M[R]_n.

(** utils.py:590-594 *)
Definition is_pos_semidef (eigh : eigh_t) n (x : 'M[R]_n) (tol : R) : bool :=
  [forall i, 0 <= (let e := (eigh n x).1 0 i in if `|e| < tol then 0 else e)].
Definition tol15 : R := (10%:R ^+ 15)^-1.

(** np.count_nonzero(theta, axis=1)[i] *)
Definition nnz p (theta : 'M[R]_p) (i : 'I_p) : nat := #|[set j | theta i j != 0]|.
(** theta[i, ixs] = theta[ixs, i] = x *)
Definition set_cross p (theta : 'M[R]_p) (i : 'I_p) (ixs : seq 'I_p) (x : R) : 'M[R]_p :=
  \matrix_(a, b) if ((a == i) && (b \in ixs)) || ((b == i) && (a \in ixs)) then x else theta a b.
(** np.fill_diagonal(theta, d) *)
Definition fill_diag p (theta : 'M[R]_p) (d : 'I_p -> R) : 'M[R]_p :=
  \matrix_(i, j) if i == j then d i else theta i j.

(** * Meinshausen and Yuan *)

(** lines 73-82: the first [budget] indices of [ix] that are not below i *)
Fixpoint my_pick p (i : 'I_p) (budget : nat) (ix : seq 'I_p) : seq 'I_p :=
  match ix, budget with
  | j :: ix', b.+1 => if (j < i)%N then my_pick i budget ix' else j :: my_pick i b ix'
  | _, _ => [::]
  end.
(** lines 69-83; [ix i]: np.argsort(probs[i, :])[::-1] *)
Definition my_fill p (ix : 'I_p -> seq 'I_p) (value : R) : 'M[R]_p :=
  foldl (fun (theta : 'M[R]_p) (i : 'I_p) => set_cross theta i (my_pick i (4 - nnz theta i) (ix i)) value) 0 (enum 'I_p).
(** lines 84-89; [shuffle t l]: l after random_state.shuffle. edges[:-4] drops the last four *)
Definition my_prune p (shuffle : 'I_p -> seq 'I_p -> seq 'I_p) (theta : 'M[R]_p) : 'M[R]_p :=
  foldl (fun (theta : 'M[R]_p) (t : 'I_p) =>
    let edges := shuffle t [seq j <- enum 'I_p | theta t j != 0] in
    set_cross theta t (take (size edges - 4) edges) 0) theta [seq i <- enum 'I_p | (4 < nnz theta i)%N].
(** lines 68-93 *)
Definition my_value : R := 245%:R / 1000%:R.
Definition theta_my (chol : chol_t) p ix shuffle : ires 'M[R]_p :=
  let theta := fill_diag (my_prune shuffle (my_fill ix my_value)) (fun=> 1) in
  if is_pos_def (chol p) theta then IOk theta else IRaise IAssertionError.
(** lines 100-111 and 128-133: one time; returns (theta, theta_observed, sigma) *)
Definition my_step (chol : chol_t) p h (latent : 'M[R]_(h, p)) ix shuffle : ires ('M[R]_p * 'M[R]_p * 'M[R]_p) :=
  match theta_my chol ix shuffle with
  | IRaise e => IRaise e
  | IOk theta =>
    let L := latent^T *m latent in
    let theta_observed := theta - L in
    if ~~ is_pos_def (chol p) theta_observed then IRaise IAssertionError
    else let sigma := invmx theta_observed in
      if ~~ is_pos_def (chol p) sigma then IRaise IAssertionError else IOk (theta, theta_observed, sigma)
  end.
(** lines 96-138: the matrices of all the times (at least one); the locations only enter through the orders [ix t] *)
Definition data_my (chol : chol_t) p h (latent : 'M[R]_(h, p)) (T : nat) (ix : nat -> 'I_p -> seq 'I_p)
    (shuffle : nat -> 'I_p -> seq 'I_p -> seq 'I_p) : ires (seq ('M[R]_p * 'M[R]_p * 'M[R]_p)) :=
  foldl (fun acc t =>
    match acc with
    | IOk l => match my_step chol latent (ix t) (shuffle t) with IOk x => IOk (rcons l x) | IRaise e => IRaise e end
    | _ => acc
    end) (IOk [::]) (iota 0 (maxn 1 T)).

(** * make_ell, make_starting *)

(** lines 251-270, from the matrix [K0] with the numbers drawn at lines 253-259 (nonnegative, at most int(0.99 n_dim_obs)
    nonzero entries in each row). A row of sum 0 gives NaN, on which the assertion of line 264 fails (or eigvalsh raises). *)
Definition make_ell (eigh : eigh_t) p h (K0 : 'M[R]_(h, p)) : ires ('M[R]_p * 'M[R]_(h, p)) :=
  if [exists i, \sum_j K0 i j == 0] then IRaise IAssertionError else
  let K : 'M[R]_(h, p) := \matrix_(i, j) (K0 i j / (\sum_k K0 i k / 2%:R)) in
  let L := K^T *m K in
  if ~~ is_pos_semidef eigh L tol15 then IRaise IAssertionError
  else if \rank L != h then IRaise IAssertionError else IOk (L, K).

(** lines 299-306 (and 280-288): the columns that row i can still be linked to *)
Definition possible_idx p (degree : nat) (theta : 'M[R]_p) (i : 'I_p) : seq 'I_p :=
  [seq j <- enum 'I_p | (theta i j == 0) && (nnz theta j <= degree)%N].
(** lines 297-311; [choice i l n]: np.random.choice(l, n). n_choice = degree - (count - 1) *)
Definition start_plain p (degree : nat) (choice : 'I_p -> seq 'I_p -> nat -> seq 'I_p) : 'M[R]_p :=
  foldl (fun (theta : 'M[R]_p) (i : 'I_p) =>
    let l := possible_idx degree theta i in
    let n_choice := (degree.+1 - nnz theta i)%N in
    if (l == [::]) || (n_choice == 0%N) then theta
    else set_cross theta i (choice i l n_choice) (1 / 2%:R / degree%:R)) 1%:M (enum 'I_p).
(** lines 278-294: [indices] keeps its last value when nothing is chosen (UnboundLocalError if there is none; the division
    by degree = 0, ZeroDivisionError, is not modelled) *)
Definition start_normalized p (degree : nat) (choice : 'I_p -> seq 'I_p -> nat -> seq 'I_p) : ires 'M[R]_p :=
  let st := foldl (fun st i =>
    match st with
    | IOk (theta, indices) =>
      let l := possible_idx degree theta i in
      if l == [::] then st else
      let n_choice := (degree.+1 - nnz theta i)%N in
      let indices := if n_choice == 0%N then indices else Some (choice i l n_choice) in
      if indices is Some ixs then IOk (set_cross theta i ixs (1 / degree%:R), indices) else IRaise IUnboundLocalError
    | IRaise e => IRaise e
    end) (IOk (0, None)) (enum 'I_p) in
  match st with
  | IOk (theta, _) => IOk (fill_diag theta (fun i => \sum_j theta i j + 2%:R / 1000%:R))
  | IRaise e => IRaise e
  end.
(** lines 313-314, 351-352: theta += np.diag(np.sum(theta, axis=1) + eps) if theta is not positive definite *)
Definition repair_rowsum (chol : chol_t) p (theta : 'M[R]_p) (eps : R) : 'M[R]_p :=
  if is_pos_def (chol p) theta then theta else theta + diag_mx (\row_i (\sum_j theta i j + eps)).
(** lines 315-316, 434-435 *)
Definition repair_ell (chol : chol_t) p (theta L : 'M[R]_p) (eps : R) : 'M[R]_p :=
  if is_pos_def (chol p) (theta - L) then theta else theta + diag_mx (\row_i (eps + L i i)).
Definition c001 : R := 1 / 100%:R.
(** lines 273-318; returns (theta, L, K_HO); theta_observed is theta - L *)
Definition make_starting chol eigh p h (degree : nat) (normalize : bool) (eps : R) (K0 : 'M[R]_(h, p)) choice :
    ires ('M[R]_p * 'M[R]_p * 'M[R]_(h, p)) :=
  match make_ell eigh K0 with
  | IRaise e => IRaise e
  | IOk (L, K_HO) =>
    match (if normalize then start_normalized degree choice else IOk (start_plain degree choice)) with
    | IRaise e => IRaise e
    | IOk theta =>
      let theta := repair_rowsum chol theta eps in
      let theta := repair_ell chol theta L eps in
      if is_pos_def (chol p) (theta - L) then IOk (theta, L, K_HO) else IRaise IAssertionError
    end
  end.

(** * evolution *)

(** lines 331-336, from the matrix [addition] with the numbers drawn at lines 324-330: the lower triangle is overwritten by
    the upper one, the matrix scaled to norm epsilon, its diagonal set to 0. When the drawn matrix is zero the code divides
    by zero and all entries become NaN; that case is not modelled (the model then divides by 0 as mathcomp does). *)
Definition update_theta_l2 p (theta_old addition : 'M[R]_p) (epsilon : R) : 'M[R]_p :=
  let addition : 'M[R]_p := \matrix_(i, j) if (i <= j)%N then addition i j else addition j i in
  let norm := sqrt (\sum_i \sum_j addition i j ^+ 2) in
  let addition := fill_diag ((epsilon / norm) *: addition) (fun=> 0) in
  let theta := theta_old + addition in
  \matrix_(i, j) if `|theta i j| < 2%:R * epsilon / p%:R then 0 else theta i j.

(** lines 346-350; [pick k]: whether the k-th np.random.choice([0.12, 0, 0]) returned 0.12 *)
Definition c012 : R := 12%:R / 100%:R.
Definition c006 : R := 6%:R / 100%:R.
Definition theta_l1_changes p (theta : 'M[R]_p) (pairs : seq ('I_p * 'I_p)) (pick : nat -> bool) : 'M[R]_p :=
  (foldl (fun tk rc =>
     let: (theta, k) := tk in
     (set_sym theta rc.1 rc.2 (if theta rc.1 rc.2 == 0 then (if pick k then c012 else 0) else c006), k.+1))
   (theta, 0%N) pairs).1.
(** lines 341-345: the pairs are drawn again until none has r = c. [pairs k]: the k-th draw of [no] pairs. [None]: not ended
    after [fuel] draws *)
Fixpoint draw_pairs p (pairs : nat -> seq ('I_p * 'I_p)) (fuel k : nat) : option (seq ('I_p * 'I_p)) :=
  match fuel with
  | 0%N => None
  | fuel'.+1 => if has (fun rc : 'I_p * 'I_p => rc.1 == rc.2) (pairs k) then draw_pairs pairs fuel' k.+1 else Some (pairs k)
  end.
(** lines 339-353 *)
Definition update_theta_l1 chol p (theta_init : 'M[R]_p) (no : nat) pairs pick (fuel : nat) (eps : R) : option 'M[R]_p :=
  match (if no is 0%N then Some [::] else draw_pairs pairs fuel 0) with
  | None => None
  | Some ps => Some (repair_rowsum chol (theta_l1_changes theta_init ps pick) eps)
  end.

(** lines 356-364, [add]: np.random.rand( *K_HO.shape); a division by zero is as above *)
Definition update_ell_l2 p h (K_HO add : 'M[R]_(h, p)) (epsilon : R) : 'M[R]_(h, p) :=
  let K := K_HO + (epsilon / sqrt (\sum_i \sum_j add i j ^+ 2)) *: add in
  let K : 'M[R]_(h, p) := \matrix_(i, j) (K i j / (\sum_k K i k / 2%:R)) in
  \matrix_(i, j) if `|K i j| < epsilon / p%:R then 0 else K i j.
(** lines 414-419: the entries at the positions [picks] are set to 0 if they are not 0, to 0.12 or 0 otherwise *)
Definition update_ell_l1 p h (K_HO : 'M[R]_(h, p)) (picks : seq ('I_h * 'I_p)) (pick : nat -> bool) : 'M[R]_(h, p) :=
  (foldl (fun (tk : 'M[R]_(h, p) * nat) rc =>
     let: (K, k) := tk in
     ((\matrix_(i, j) if (i == rc.1) && (j == rc.2) then
          (if K i j == 0 then (if pick k then c012 else 0) else 0) else K i j) : 'M[R]_(h, p), k.+1)) (K_HO, 0%N) picks).1.
(** lines 424-427 *)
Definition update_ell_yuan p h (K_HO : 'M[R]_(h, p)) (r : 'I_h) (c : 'I_p) : 'M[R]_(h, p) :=
  \matrix_(i, j) if (i == r) && (j == c) then (if K_HO i j == 0 then c012 else 0) else K_HO i j.

(** the random numbers drawn for one time *)
Record cov_draws (p h : nat) := CovDraws {
  cd_pairs : nat -> seq ('I_p * 'I_p); cd_pick : nat -> bool; cd_add : 'M[R]_p;
  cd_ell_add : 'M[R]_(h, p); cd_ell_picks : seq ('I_h * 'I_p); cd_ell_pick : nat -> bool; cd_ell_rc : 'I_h * 'I_p }.
(** lines 393-435, one time: from (theta, L, K_HO) *)
Definition cov_step chol eigh p h (update_ell update_theta : string) (no : nat) (epsilon : R) (fuel : nat)
    (d : cov_draws p h) (st : 'M[R]_p * 'M[R]_p * 'M[R]_(h, p)) : option (ires ('M[R]_p * 'M[R]_p * 'M[R]_(h, p))) :=
  let: (theta, L, K_HO) := st in
  let theta := if update_theta == "l1"%string then
                 (if update_theta_l1 chol theta no (cd_pairs d) (cd_pick d) fuel c001 is Some th then Some (IOk th) else None)
               else if update_theta == "l2"%string then Some (IOk (update_theta_l2 theta (cd_add d) epsilon))
               else Some (IRaise IValueError) in
  match theta with
  | None => None
  | Some (IRaise e) => Some (IRaise e)
  | Some (IOk theta) =>
    let LK := if (update_ell == "fixed"%string) || (h < 1)%N then IOk (L, K_HO)
              else let of_K K := IOk (K^T *m K, K) in
              if update_ell == "l1"%string then of_K (update_ell_l1 K_HO (cd_ell_picks d) (cd_ell_pick d))
              else if update_ell == "l2"%string then of_K (update_ell_l2 K_HO (cd_ell_add d) epsilon)
              else if update_ell == "yuan"%string then of_K (update_ell_yuan K_HO (cd_ell_rc d).1 (cd_ell_rc d).2)
              else IRaise IValueError in
    match LK with
    | IRaise e => Some (IRaise e)
    | IOk (L, K_HO) =>
      if \rank L != h then Some (IRaise IAssertionError)
      else if ~~ is_pos_semidef eigh L tol15 then Some (IRaise IAssertionError)
      else Some (IOk (repair_ell chol theta L epsilon, L, K_HO))
    end
  end.
(** lines 367-442 (update_theta = "l1" does not support keep_sparsity; with "l2" keep_sparsity only restricts the drawn
    [cd_add]). [no] is int(ceil(n_dim_obs / 20)) or 1. Returns the (theta, L, K_HO) of every time; thetas_obs is
    theta - L *)
Definition make_covariance chol eigh p h (T : nat) (update_ell update_theta : string) (normalize : bool) (degree no : nat)
    (epsilon : R) (K0 : 'M[R]_(h, p)) choice (d : nat -> cov_draws p h) (fuel : nat) :
    option (ires (seq ('M[R]_p * 'M[R]_p * 'M[R]_(h, p)))) :=
  match make_starting chol eigh degree normalize c001 K0 choice with
  | IRaise e => Some (IRaise e)
  | IOk st0 =>
    foldl (fun acc t =>
      match acc with
      | Some (IOk l) =>
        match cov_step chol eigh update_ell update_theta no epsilon fuel (d t) (last st0 l) with
        | Some (IOk st) => Some (IOk (rcons l st))
        | Some (IRaise e) => Some (IRaise e)
        | None => None
        end
      | _ => acc
      end) (Some (IOk [:: st0])) (iota 1 T.-1)
  end.

(** * fixed sparsity *)

(** lines 456, 473: np.nonzero(theta - np.diag(theta)); np.diag(theta) is a vector, subtracted from every row *)
Definition fs_nonzero p (theta : 'M[R]_p) (i j : 'I_p) : bool := theta i j - theta j j != 0.
(** lines 462-473; [z]: the numbers of np.random.randn at the positions of [nonzeros]; [plus]: t < T *)
Definition fs_step p (theta L : 'M[R]_p) (z : 'M[R]_p) (plus : bool) (epsilon : R) : 'M[R]_p :=
  let nonzeros := fs_nonzero theta in
  let theta : 'M[R]_p := \matrix_(i, j) if nonzeros i j then
     (if plus then theta i j + z i j * (1 / 10%:R) else theta i j - z i j * (1 / 10%:R)) else theta i j in
  let theta : 'M[R]_p := map_mx (fun x : R => `|x|) theta in
  let theta : 'M[R]_p := 2%:R^-1 *: (theta + theta^T) in
  let theta : 'M[R]_p := \matrix_(i, j) if theta i j < epsilon then 0 else theta i j in
  fill_diag theta (fun i => \sum_j `|theta i j| + \sum_j `|L i j| + 1 / 10%:R).
(** lines 445-480; returns thetas and L; thetas_obs is theta - L *)
Definition make_fixed_sparsity chol eigh p h (T : nat) (degree : nat) (epsilon : R) (changing_time : option R)
    (K0 : 'M[R]_(h, p)) choice (z : nat -> 'M[R]_p) : ires (seq 'M[R]_p * 'M[R]_p) :=
  let t := if changing_time is Some t then t else T%:R / 2%:R in
  match make_starting chol eigh degree false c001 K0 choice with
  | IRaise e => IRaise e
  | IOk (theta, L, _) =>
    let theta : 'M[R]_p := map_mx (fun x : R => `|x|) theta in
    match foldl (fun acc i =>
      match acc with
      | IOk thetas =>
        let theta := fs_step (last theta thetas) L (z i) (t < T%:R) epsilon in
        if is_pos_def (chol p) (theta - L) then IOk (rcons thetas theta) else IRaise IAssertionError
      | _ => acc
      end) (IOk [:: theta]) (iota 1 T.-1) with
    | IOk thetas => IOk (thetas, L)
    | IRaise e => IRaise e
    end
  end.

(** * sines *)

(** scipy.spatial.distance.squareform of a vector, given by its entries [y i j] for i < j *)
Definition squareform p (y : 'I_p -> 'I_p -> R) : 'M[R]_p :=
  \matrix_(i, j) if (i < j)%N then y i j else if (j < i)%N then y j i else 0.
(** lines 499-514: [y t i j] are the sines (lines 487-497). The [normalize] branch builds a lazy map that is never
    consumed, so that it has no effect. Returns Y (both as precisions and observed precisions). *)
Definition make_sin (chol : chol_t) p T (normalize : bool) (y : 'I_T -> 'I_p -> 'I_p -> R) : {ffun 'I_T -> 'M[R]_p} :=
  let Y : {ffun 'I_T -> 'M[R]_p} := [ffun t =>
     let s := squareform (fun i j => Num.max (y t i j) 0) in s + diag_mx (\row_i \sum_j s i j)] in
  ensure_posdef_3d (chol p) Y.
(** lines 536-556: [theta i]: thetas[i] after line 549. Returns thetas and thetas_obs: line 554 builds a new list at every
    iteration (and none when T = 0: UnboundLocalError). *)
Definition make_sin_cos (chol : chol_t) p (T : nat) (L : 'M[R]_p) (theta : nat -> 'M[R]_p) :
    ires (seq 'M[R]_p * seq 'M[R]_p) :=
  let st := foldl (fun acc i =>
    match acc with
    | IOk _ => if ~~ is_pos_def (chol p) (theta i) then IRaise IAssertionError
               else if ~~ is_pos_def (chol p) (theta i - L) then IRaise IAssertionError
               else IOk (Some [:: theta i - L])
    | _ => acc
    end) (IOk None) (iota 0 T) in
  match st with
  | IRaise e => IRaise e
  | IOk None => IRaise IUnboundLocalError
  | IOk (Some thetas_obs) => IOk ([seq theta i | i <- iota 0 T], thetas_obs)
  end.

(** * Ma, Xue and Zou *)

Definition clip11 (x : R) : R := Num.min (Num.max x (- 1)) 1.
(** np.min of the eigenvalues (there is at least one) *)
Definition min_eig (eigh : eigh_t) n (A : 'M[R]_n.+1) : R := \big[Num.min/(eigh n.+1 A).1 0 0]_i (eigh n.+1 A).1 0 i.
(** lines 636-642: [W] and [noise] (po x ph) drawn at lines 629-634 and 637; po = n_dim_obs > 0 *)
Definition ma_K (eigh : eigh_t) po ph (W : 'M[R]_(po.+1 + ph)) (noise : 'M[R]_(po.+1, ph)) : 'M[R]_(po.+1 + ph) :=
  let C := W^T *m W + 2%:R^-1 *: block_mx 0 noise 0 0 in
  let C := 2%:R^-1 *: (C + C^T) in
  let C := map_mx clip11 (C - diag_mx (\row_i C i i)) in
  C + (Num.max (- (12%:R / 10%:R) * min_eig eigh (C : 'M[R]_((po + ph).+1))) (1 / 1000%:R))%:M.
(** lines 643-659 from K; returns (K_O, K_O_tilde, L), repeated T times by the code *)
Definition ma_split chol eigh po ph (K : 'M[R]_(po + ph)) : ires ('M[R]_po * 'M[R]_po * 'M[R]_po) :=
  let K_O := ulsubmx K in let K_OH := ursubmx K in let K_HO := dlsubmx K in let K_H := drsubmx K in
  let L := K_OH *m invmx K_H *m K_HO in
  let K_O_tilde := K_O - L in
  if K_OH != K_HO^T then IRaise IAssertionError
  else if ~~ is_pos_def (chol po) K_O_tilde then IRaise IAssertionError
  else if ~~ is_pos_semidef eigh K_H tol15 then IRaise IAssertionError
  else if \rank L != ph then IRaise IAssertionError
  else IOk (K_O, K_O_tilde, L).
Definition make_ma_xue_zou chol eigh po ph (W : 'M[R]_(po.+1 + ph)) noise := ma_split chol eigh (ma_K eigh W noise).
(** lines 672-687: [sgn i j] for i < j: the entry written at line 676 (1 or -1 at the chosen positions, 0 elsewhere);
    K = A A^T + 1e-6 I is overwritten by line 681 *)
Definition make_ma_xue_zou_rand_k po ph (sgn : 'I_(po + ph) -> 'I_(po + ph) -> R) : 'M[R]_po * 'M[R]_po * 'M[R]_po :=
  let A := fill_diag (squareform sgn) (fun=> 1) in
  let K := A in
  let L := ursubmx K *m invmx (drsubmx K) *m dlsubmx K in
  (ulsubmx K, ulsubmx K - L, L).

(** * kernels.py *)

(** kernels.py:62-69, 109-124: the sparsified matrix, then the diagonal *)
Definition add_dominant p (theta : 'M[R]_p) : 'M[R]_p := theta + diag_mx (\row_i (\sum_j `|theta i j| + c001)).
Definition sparsify p (theta : 'M[R]_p) (eps : 'I_p -> 'I_p -> R) : 'M[R]_p :=
  \matrix_(i, j) if `|theta i j| < eps i j then 0 else theta i j.
(** kernels.py:60-77: [u t i j]: the curves of the Gaussian process; [L] from make_ell *)
Definition make_exp_sine_squared (chol : chol_t) p (L : 'M[R]_p) (sparse : bool) (epsilon : R) (T : nat)
    (u : nat -> 'I_p -> 'I_p -> R) : ires (seq ('M[R]_p * 'M[R]_p)) :=
  foldl (fun acc t =>
    match acc with
    | IOk l =>
      let theta := squareform (u t) in
      let theta := if sparse then sparsify theta (fun _ _ => epsilon) else theta in
      let theta := add_dominant theta in
      if ~~ is_pos_def (chol p) theta then IRaise IAssertionError
      else if ~~ is_pos_def (chol p) (theta - L) then IRaise IAssertionError
      else IOk (rcons l (theta, theta - L))
    | _ => acc
    end) (IOk [::]) (iota 0 T).
(** kernels.py:96-131: the latent variables come first. [inter_links] is a view of the first matrix, whose off-diagonal
    block does not change afterwards. Lines 126-128 read the last matrix [theta], whose off-diagonal blocks are those of
    every time. linalg.pinv is applied to an invertible matrix *)
Definition rbf_sparse h p (theta : 'M[R]_(h + p)) (sparse : bool) (epsilon : R) : 'M[R]_(h + p) :=
  if sparse then
    let s m n (e : R) (x : 'M[R]_(m, n)) : 'M[R]_(m, n) := map_mx (fun a : R => if `|a| < e then 0 else a) x in
    let OH := s _ _ (epsilon / 3%:R) (dlsubmx theta) in
    block_mx (s _ _ (epsilon / 3%:R) (ulsubmx theta)) OH^T OH (s _ _ epsilon (drsubmx theta))
  else theta.
Definition rbf_theta h p (sparse : bool) (epsilon : R) (u : nat -> 'I_(h + p) -> 'I_(h + p) -> R) (t : nat) : 'M[R]_(h + p) :=
  let s k := rbf_sparse (squareform (u k)) sparse epsilon in
  let links := dlsubmx (s 0%N) in
  add_dominant (block_mx (ulsubmx (s t)) links^T links (drsubmx (s t))).
Definition make_RBF (chol : chol_t) h p (sparse : bool) (epsilon : R) (T : nat) u :
    ires (seq 'M[R]_(h + p) * seq ('M[R]_p * 'M[R]_p)) :=
  let thetas := [seq rbf_theta (h := h) (p := p) sparse epsilon u t | t <- iota 0 T] in
  if ~~ all (fun th => is_pos_def (chol (h + p)%N) th) thetas then IRaise IAssertionError else
  let theta := last 0 thetas in
  IOk (thetas, [seq (let L := dlsubmx theta *m invmx (ulsubmx t) *m ursubmx theta in (drsubmx t - L, L)) | t <- thetas]).
(** kernels.py:163-207: the matrix of num_blocks x num_blocks blocks of size n; block (i, j) is [blocks |i - j|] below the
    diagonal and its transpose on and above it (block 0 is symmetric); np.linalg.eig on a symmetric matrix *)
Definition ticc_blocks nb n (blocks : nat -> 'M[R]_n.+1) : 'M[R]_(nb * n.+1) :=
  \matrix_(a, b)
    let ia := (a %/ n.+1)%N in let ib := (b %/ n.+1)%N in
    let ra := inord (a %% n.+1) in let rb := inord (b %% n.+1) in
    if (ib < ia)%N then blocks (ia - ib)%N ra rb else blocks (ib - ia)%N rb ra.
Definition make_ticc (eigh : eigh_t) nb n (blocks : nat -> 'M[R]_n.+1) : 'M[R]_(nb.+1 * n.+1) :=
  let inv := ticc_blocks nb.+1 blocks in
  inv + (1 / 10%:R + `|min_eig eigh (inv : 'M[R]_((n + nb * n.+1).+1))|)%:M.
