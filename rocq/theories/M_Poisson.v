(** Model of regain/datasets/poisson.py: the generator of graphs and the sampler.

    Random numbers are arguments: each call of numpy's generator is replaced by the value it returns. Matrices are
    arrays (the generator starts from a np.matrix, whose slices keep two dimensions; that is not modelled). *)
From Coq Require Import Reals String.
From mathcomp Require Import all_ssreflect all_algebra.
From Verif Require Import RStruct NP Str M_Ising.
Import Order.TTheory GRing.Theory Num.Theory.

Set Implicit Arguments.
Unset Strict Implicit.
Unset Printing Implicit Defensive.
Local Open Scope ring_scope.

(** lines 44-46, one pass over the drawn pairs. [keep k]: np.random.choice([0, G[r, c]]) returned its second argument. *)
Definition poisson_changes p (G : 'M[R]_p) (pairs : seq ('I_p * 'I_p)) (keep : nat -> bool) : 'M[R]_p :=
  (foldl (fun gk rc =>
     let: (G, k) := gk in
     (set_sym G rc.1 rc.2 (if keep k then G rc.1 rc.2 else 0), k.+1)) (G, 0%N) pairs).1.
(** lines 41-46. The body changes G for the pairs it has just drawn, even those with r = c, and is run again if there is
    such a pair. [None]: not ended after [fuel] passes. *)
Fixpoint poisson_update_loop p (pairs : nat -> seq ('I_p * 'I_p)) (keep : nat -> nat -> bool) (fuel k : nat)
    (G : 'M[R]_p) : option 'M[R]_p :=
  match fuel with
  | 0%N => None
  | fuel'.+1 =>
    let G := poisson_changes G (pairs k) (keep k) in
    if has (fun rc : 'I_p * 'I_p => rc.1 == rc.2) (pairs k) then poisson_update_loop pairs keep fuel' k.+1 G
    else Some G
  end.
(** lines 35-48: rows and cols start equal (all zeros), so that the loop is entered unless [how_many] is 0 *)
Definition update_l1 p (G : 'M[R]_p) (how_many : nat) pairs keep (fuel : nat) : option (ires 'M[R]_p) :=
  match (if how_many is 0%N then Some G else poisson_update_loop pairs keep fuel 0 G) with
  | None => None
  | Some G => Some (if G == G^T then IOk G else IRaise IAssertionError)
  end.

(** lines 105-118, from the adjacency matrix [graph] drawn by networkx (lines 94-104); [pairs t], [keep t]: the draws made
    for time t. An unknown mode only warns. *)
Definition poisson_theta_generator p (graph : 'M[R]_p) (T : nat) (mode : string) (n_to_change : nat)
    (pairs : nat -> nat -> seq ('I_p * 'I_p)) keep (fuel : nat) : option (ires (seq 'M[R]_p)) :=
  let graph := zero_diagonal graph in
  foldl (fun acc t =>
    match acc with
    | Some (IOk graphs) =>
      if mode == "reshuffle"%string then Some (IRaise IValueError)
      else match update_l1 (last graph graphs) n_to_change (pairs t) (keep t) fuel with
           | Some (IOk G) => Some (IOk (rcons graphs (zero_diagonal G)))
           | Some (IRaise e) => Some (IRaise e)
           | None => None
           end
    | _ => acc
    end) (Some (IOk [:: graph])) (iota 1 T.-1).

(** lines 121-129: the columns of A, in order. [full]: typ == "full" *)
Definition adjacency_to_A p (graph : 'M[R]_p) (full : bool) : seq ('I_p -> R) :=
  [seq (fun k => (k == i)%:R) | i <- enum 'I_p] ++
  flatten [seq [seq (fun k : 'I_p => ((k == i) || (k == j))%:R)
                   | j <- [seq j : 'I_p <- enum 'I_p | (i < j)%N && (full || (graph i j == 1))]]
          | i : 'I_p <- enum 'I_p].
(** lines 176-192, _type = "LPGM": [pois k s l] is the s-th of the numbers returned by the k-th call
    np.random.poisson(l, n_samples), and [noise s i] the matrix of line 192. Returns the entries of X; the product of
    line 189 raises ValueError when the numbers of columns differ. *)
Definition lpgm_sampler p (theta : 'M[R]_p) (lambda : R) (pois : nat -> nat -> R -> nat) (noise : nat -> 'I_p -> nat) :
    ires (nat -> 'I_p -> R) :=
  let A := adjacency_to_A theta false in
  let sigma := lambda *: theta in
  let ltri := flatten [seq [seq sigma i j | j <- [seq j : 'I_p <- enum 'I_p | (j < i)%N]] | i : 'I_p <- enum 'I_p] in
  let Y_lambda := nseq p lambda ++ [seq x <- ltri | x != 0] in
  let Y s k := pois k s (nth 0 Y_lambda k) in
  if size Y_lambda == size A then
    IOk (fun s i => \sum_(k < size A) (Y s k)%:R * nth (fun=> 0) A k i + (noise s i)%:R)
  else IRaise IValueError.
(** lines 194-205, the other types: one sweep over the variables, for one row of X; [draw i l]: np.random.poisson(l).
    Line 197 has no effect (the reshaped array is discarded). *)
Definition gibbs_sweep p (theta : 'M[R]_p) (variances : 'I_p -> R) (draw : 'I_p -> R -> nat) (x : {ffun 'I_p -> R}) :
    {ffun 'I_p -> R} :=
  foldl (fun x i => put x i (draw i (exp (variances i + \sum_(j | j != i) x j * theta j i)))%:R) x (enum 'I_p).
Definition gibbs_sampler p (theta : 'M[R]_p) (variances : option ('I_p -> R)) (max_iter : nat)
    (start : nat -> 'I_p -> nat) (draw : nat -> nat -> 'I_p -> R -> nat) (s : nat) : {ffun 'I_p -> R} :=
  let variances := if variances is Some v then v else fun=> 0 in
  foldl (fun x it => gibbs_sweep theta variances (draw it s) x) [ffun i => (start s i)%:R] (iota 0 max_iter).
