(** Model of regain/datasets/ising.py: the samplers and the generator of graphs.

    Random numbers are arguments: each call of numpy's generator is replaced by the value it returns. The numbers
    are exact reals, so exp never overflows. *)
From Coq Require Import Reals String.
From mathcomp Require Import all_ssreflect all_algebra.
From Verif Require Import RStruct NP Str.
Import Order.TTheory GRing.Theory Num.Theory.

Set Implicit Arguments.
Unset Strict Implicit.
Unset Printing Implicit Defensive.
Local Open Scope ring_scope.

Inductive ierr := IAssertionError | IValueError | IIndexError | IUnboundLocalError.
Inductive ires (T : Type) := IOk of T | IRaise of ierr.
Arguments IRaise {T} _.

(** -sys.maxsize - 1, used to mark an unknown entry *)
Definition minimum : R := - (2%:R ^+ 63).

Section Samplers.
Variable p : nat.
(** an array of shape (p,) *)
Definition istate : Type := {ffun 'I_p -> R}.
(** state[i] = x *)
Definition put (state : istate) (i : 'I_p) (x : R) : istate :=
  [ffun j => if j == i then x else state j].

(** arguments shared by the samplers; [responses] is the pair (responses[0], responses[1]) *)
Variables (theta : 'M[R]_p) (thresholds : 'I_p -> R) (beta : R) (responses : R * R).
Let r0 := responses.1.
Let r1 := responses.2.

(** lines 235-247 *)
Definition p_plus_H (i : 'I_p) (state : istate) (r : R) : R :=
  foldl (fun H j => if i == j then H else H + theta i j * r * state j) (thresholds i * r) (enum 'I_p).
Definition p_plus (i : 'I_p) (state : istate) : R :=
  let H0 := p_plus_H i state r0 in
  let H1 := p_plus_H i state r1 in
  exp (beta * H1) / (exp (beta * H0) + exp (beta * H1)).

(** lines 162-198; the accumulator is (H0[0], H0[1], H1[0], H1[1]) *)
Definition minmax_step (i : 'I_p) (state : istate) (H : R * R * R * R) (j : 'I_p) : R * R * R * R :=
  let: (H00, H01, H10, H11) := H in
  if i == j then H
  else if state j != minimum then
    (H00 + theta i j * r0 * state j, H01 + theta i j * r0 * state j,
     H10 + theta i j * r1 * state j, H11 + theta i j * r1 * state j)
  else
    let two0 := theta i j * r1 * r0 in
    let two1 := theta i j * r1 * r1 in
    if two0 < two1 then
      (H00 + theta i j * r0 * r0, H01 + theta i j * r0 * r1, H10 + two0, H11 + two1)
    else
      (H00 + theta i j * r0 * r1, H01 + theta i j * r0 * r0, H10 + two1, H11 + two0).
Definition p_plus_minmax (i : 'I_p) (state : istate) : R * R :=
  let: (H00, H01, H10, H11) :=
    foldl (minmax_step i state)
      (thresholds i * r0, thresholds i * r0, thresholds i * r1, thresholds i * r1) (enum 'I_p) in
  (exp (beta * H10) / (exp (beta * H00) + exp (beta * H10)),
   exp (beta * H11) / (exp (beta * H01) + exp (beta * H11))).

(** lines 250-271. [unif k] is the k-th number drawn. The loop carries the state and the number of draws made. *)
Definition mh_start (constraints : istate) (unif : nat -> R) : istate :=
  let state : istate := [ffun i : 'I_p => if unif i < 1 / 2%:R then r1 else r0] in
  [ffun i => if constraints i != minimum then constraints i else state i].
Definition mh_site (constraints : istate) (unif : nat -> R) (sk : istate * nat) (i : 'I_p) : istate * nat :=
  let: (state, k) := sk in
  if constraints i != minimum then (state, k)
  else (put state i (if unif k < p_plus i state then r1 else r0), k.+1).
Definition mh_sweep constraints unif (sk : istate * nat) : istate * nat :=
  foldl (mh_site constraints unif) sk (enum 'I_p).
Definition ising_metropolis_hastings (max_iter : nat) (constraints : istate) (unif : nat -> R) : istate :=
  (iter max_iter (mh_sweep constraints unif) (mh_start constraints unif, p)).1.

(** lines 201-232. [blocks k] is the array drawn in pass k of the while loop, [start k] the numbers drawn in that
    pass for the initial state (none if exact). The parameters n, max_chain and constraints are not used. *)
Definition exact_site (u : R) (state : istate) (i : 'I_p) : istate :=
  let P := p_plus_minmax i state in
  put state i (if u < P.1 then r1 else if P.2 <= u then r0 else minimum).
Definition exact_block (max_iter : nat) (block : nat -> 'I_p -> R) (state : istate) : istate :=
  foldl (fun state iter_ => foldl (fun state i => exact_site (block iter_ i) state i) state (enum 'I_p))
    state (iota 0 max_iter).
Definition exact_pass (max_iter : nat) (exact : bool) (blocks : nat -> nat -> 'I_p -> R) (start : nat -> 'I_p -> R)
    (min_trials : nat) : istate :=
  let state : istate := [ffun i => if exact then minimum else if 1 / 2%:R < start min_trials i then r0 else r1] in
  foldl (fun state trial => exact_block max_iter (blocks trial) state) state (rev (iota 0 min_trials.+1)).
(** the while loop, run for at most [fuel] passes: [None] if it has not ended by then *)
Fixpoint exact_loop (max_iter : nat) (exact : bool) blocks start (fuel min_trials : nat) (state : istate) :
    option istate :=
  if ~~ [exists i, state i == minimum] then Some state
  else match fuel with
  | 0%N => None
  | fuel'.+1 =>
    exact_loop max_iter exact blocks start fuel' min_trials.+1
      (exact_pass max_iter exact blocks start min_trials)
  end.
Definition ising_exact (max_iter : nat) (exact : bool) blocks start (fuel : nat) : option istate :=
  exact_loop max_iter exact blocks start fuel 0 [ffun=> minimum].

(** lines 136-143; the state is a list of at least p numbers *)
Definition hamiltonian (state : seq R) : R :=
  foldl (fun res (i : 'I_p) =>
    res - thresholds i * nth 0 state i +
    \sum_(j <- enum 'I_p | j != i) - theta i j * nth 0 state i * nth 0 state j) 0 (enum 'I_p).
End Samplers.

(** itertools.product(responses, repeat=k), as lists *)
Fixpoint products (responses : R * R) (k : nat) : seq (seq R) :=
  if k is k'.+1 then [seq r :: s | r <- [:: responses.1; responses.2], s <- products responses k'] else [:: [::]].
(** np.fill_diagonal(theta, 0) *)
Definition zero_diagonal p (theta : 'M[R]_p) : 'M[R]_p := \matrix_(i, j) if i == j then 0 else theta i j.

(** lines 155-157, the probabilities given to np.random.choice *)
Definition direct_probabilities p (theta : 'M[R]_p) thresholds beta responses : seq R :=
  let w := [seq exp (- beta * hamiltonian theta thresholds s) | s <- products responses 10] in
  [seq x / \sum_(y <- w) y | x <- w].
(** lines 146-159 (two responses). [choice probabilities] is what np.random.choice returns: [n] distinct positions.
    IndexError: state[i] for i >= 10. ValueError: more draws than states, without replacement. *)
Definition direct_sampling p (theta : 'M[R]_p) thresholds (n : nat) beta responses
    (choice : seq R -> seq nat) : ires (seq (seq R)) :=
  if theta != theta^T then IRaise IValueError
  else if (10 < p)%N then IRaise IIndexError
  else
    let states := products responses 10 in
    if (size states < n)%N then IRaise IValueError
    else
      let ixs := choice (direct_probabilities (zero_diagonal theta) thresholds beta responses) in
      IOk [seq nth [::] states i | i <- ixs].

(** what the generator returns during one call of ising_sampler: for method MH the numbers of sample s, for CFTP the
    blocks of sample s, for direct the positions *)
Record draws p := Draws {
  dr_unif : nat -> nat -> R; dr_blocks : nat -> nat -> nat -> 'I_p -> R; dr_choice : seq R -> seq nat }.
(** the returned array: n rows, or one row without the first axis *)
Inductive samples p := Rows of seq (istate p) | OneRow of istate p | Lists of seq (seq R).

Fixpoint all_rows (A : Type) (f : nat -> option A) (l : seq nat) : option (seq A) :=
  if l is s :: l' then
    match f s, all_rows f l' with Some x, Some r => Some (x :: r) | _, _ => None end
  else Some [::].

(** lines 274-350, for two responses. [method] in upper case. [fuel] bounds the passes of each call of ising_exact;
    [None]: a call has not returned by then. The first attempt at CFTP is always the last: no entry is nan. With
    n = 0 and MH, constraints[0, :] is an IndexError. np.vstack of a row and a row is a matrix, so that for n = 1 the
    result keeps the shape (p,). The second component of the result is the array theta after the call: it is modified in
    place by line 302. *)
Definition ising_sampler p (theta : 'M[R]_p) (thresholds : 'I_p -> R) (n : nat) (beta : R) (max_iter : nat)
    (responses : R * R) (method : string) (CFTP_retry : nat) (constraints : option (nat -> istate p))
    (d : draws p) (fuel : nat) : option (ires (samples p) * 'M[R]_p) :=
  if theta != theta^T then Some (IRaise IAssertionError, theta)
  else
    let theta := zero_diagonal theta in
    let constraints := odflt (fun=> [ffun=> minimum]) constraints in
    let ret r := Some (r, theta) in
    if method == "CFTP"%string then
      if (CFTP_retry <= 1)%N then ret (IRaise IUnboundLocalError)
      else
        match all_rows (fun s => ising_exact theta thresholds beta responses max_iter true (dr_blocks d s)
                                   (fun _ _ => 0) fuel) (iota 0 n) with
        | Some rows => ret (IOk (Rows rows))
        | None => None
        end
    else if method == "MH"%string then
      let row s := ising_metropolis_hastings theta thresholds beta responses max_iter (constraints s) (dr_unif d s) in
      match n with
      | 0%N => ret (IRaise IIndexError)
      | 1%N => ret (IOk (OneRow (row 0%N)))
      | _ => ret (IOk (Rows [seq row s | s <- iota 0 n]))
      end
    else if method == "DIRECT"%string then
      ret (match direct_sampling theta thresholds n beta responses (dr_choice d) with
           | IOk l => IOk (Lists p l)
           | IRaise e => IRaise e
           end)
    else ret (IRaise IValueError).

(** * the generator of graphs *)

(** lines 47-49, one pass over the drawn pairs. [pick a b] for the k-th pair: what np.random.choice returns on [responses]
    (default: -1, 1), or on [theta[r, c], 0]. *)
Definition set_sym p (theta : 'M[R]_p) (r c : 'I_p) (x : R) : 'M[R]_p :=
  let theta1 : 'M[R]_p := \matrix_(i, j) if (i == r) && (j == c) then x else theta i j in
  \matrix_(i, j) if (i == c) && (j == r) then theta1 r c else theta1 i j.
Definition ising_changes p (theta : 'M[R]_p) (pairs : seq ('I_p * 'I_p)) (pick : nat -> R -> R -> R) : 'M[R]_p :=
  (foldl (fun tk rc =>
     let: (theta, k) := tk in
     (set_sym theta rc.1 rc.2
       (if theta rc.1 rc.2 == 0 then pick k (- 1) 1 else pick k (theta rc.1 rc.2) 0), k.+1)) (theta, 0%N) pairs).1.
(** lines 39-51. The arrays rows and cols start equal (all zeros), so that the while loop is entered unless [no] is 0; its
    body changes theta for the pairs it has just drawn, even those with r = c, and is run again if there is such a pair.
    [pairs k]: the pairs drawn in pass k ([no] of them). [None]: not ended after [fuel] passes. *)
Fixpoint ising_update_loop p (pairs : nat -> seq ('I_p * 'I_p)) (pick : nat -> nat -> R -> R -> R) (fuel k : nat)
    (theta : 'M[R]_p) : option 'M[R]_p :=
  match fuel with
  | 0%N => None
  | fuel'.+1 =>
    let theta := ising_changes theta (pairs k) (pick k) in
    if has (fun rc : 'I_p * 'I_p => rc.1 == rc.2) (pairs k) then ising_update_loop pairs pick fuel' k.+1 theta
    else Some theta
  end.
Definition update_ising_l1 p (theta_init : 'M[R]_p) (no : nat) pairs pick (fuel : nat) : option (ires 'M[R]_p) :=
  match (if no is 0%N then Some theta_init else ising_update_loop pairs pick fuel 0 theta_init) with
  | None => None
  | Some theta => Some (if theta == theta^T then IOk theta else IRaise IAssertionError)
  end.

(** lines 122-133, from the initial adjacency matrix [graph] (drawn by networkx, lines 105-120); [pairs t], [pick t]:
    the draws made for time t. An unknown mode only warns. *)
Definition ising_theta_generator p (graph : 'M[R]_p) (T : nat) (mode : string) (change : nat)
    (pairs : nat -> nat -> seq ('I_p * 'I_p)) pick (fuel : nat) : option (ires (seq 'M[R]_p)) :=
  foldl (fun acc t =>
    match acc with
    | Some (IOk thetas) =>
      if (mode == "switch"%string) || (mode == "diffusion"%string) then Some (IRaise IValueError)
      else match update_ising_l1 (last graph thetas) change (pairs t) (pick t) fuel with
           | Some (IOk theta) => Some (IOk (rcons thetas theta))
           | Some (IRaise e) => Some (IRaise e)
           | None => None
           end
    | _ => acc
    end) (Some (IOk [:: graph])) (iota 1 T.-1).
