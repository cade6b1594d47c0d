(** Model of regain/wrapper/paspal/glopridu.py (glo_prox, glopridu_algorithm): the solver behind mode="paspal" of GroupLassoOverlap.
    Blocks are sets of features (a feature listed twice in a block is not modelled). [pinv] is scipy.linalg.pinv, [norm2] np.linalg.norm(X, 2). *)
From Coq Require Import Reals.
From mathcomp Require Import all_ssreflect all_algebra.
From Verif Require Import RStruct NP M_Utils.
Import Order.TTheory GRing.Theory Num.Theory.

Set Implicit Arguments.
Unset Strict Implicit.
Unset Printing Implicit Defensive.
Local Open Scope ring_scope.

Section GloProx.
Variable pinv : forall n, 'M[R]_n -> 'M[R]_n.
Variable d : nat.

(** lines 64-149 for [B] blocks that are left, with their (squared) weights *)
Section Newton.
Variables (B : nat) (blocks : 'I_B -> {set 'I_d}) (weights : 'I_B -> R) (w0 : 'I_d -> R).
Variables (tol beta sigma s_beta epsilon : R).
Implicit Types lamda : 'I_B -> R.

(** I.dot(lamda) *)
Definition block_sum lamda (j : 'I_d) : R := \sum_(g | j \in blocks g) lamda g.
(** lines 75-77 *)
Definition dual_grad lamda (g : 'I_B) : R := weights g - \sum_(j in blocks g) (w0 j * (1 / (1 + block_sum lamda j))) ^+ 2.
(** line 78 *)
Definition dual_epsk lamda : R :=
  np_min epsilon (sqrt (\sum_g (lamda g - np_max 0 (lamda g - dual_grad lamda g)) ^+ 2)).
(** line 79 *)
Definition dual_tmp lamda (j : 'I_d) : R := 2%:R * w0 j ^+ 2 * (1 / (1 + block_sum lamda j)) ^+ 3.
(** lines 81 and 117 *)
Definition inactive lamda : {set 'I_B} := [set g | (dual_grad lamda g <= 0) || (dual_epsk lamda < lamda g)].
Definition active lamda : {set 'I_B} := [set g | (0 < dual_grad lamda g) && (lamda g <= dual_epsk lamda)].
(** lines 83-99: the Hessian restricted to the inactive blocks *)
Definition b_inactive lamda : 'M[R]_#|inactive lamda| :=
  \matrix_(g, k) \sum_(j in blocks (enum_val g) :&: blocks (enum_val k)) dual_tmp lamda j.
(** line 115, written back to the positions of the blocks *)
Definition p_inactive_vec lamda : 'cV[R]_#|inactive lamda| := pinv (b_inactive lamda) *m \col_g dual_grad lamda (enum_val g).
Definition p_inactive lamda (g : 'I_B) : R := \sum_(k < #|inactive lamda|) (if enum_val k == g then p_inactive_vec lamda k 0 else 0).
(** lines 128-130 *)
Definition p_active lamda (g : 'I_B) : R := dual_grad lamda g / \sum_(j in blocks g) dual_tmp lamda j.
(** line 132 *)
Definition x_inactive lamda : R := \sum_(g in inactive lamda) dual_grad lamda g * p_inactive lamda g.
(** lines 139-140, for one step size *)
Definition lamda_m lamda (step : R) (g : 'I_B) : R :=
  if g \in inactive lamda then np_max 0 (lamda g - step * p_inactive lamda g)
  else if g \in active lamda then np_max 0 (lamda g - step * p_active lamda g) else 0.
(** lines 142-144 *)
Definition fdiff lamda (lm : 'I_B -> R) : R :=
  \sum_j w0 j ^+ 2 * (block_sum (fun g => lm g - lamda g) j / ((1 + block_sum lm j) * (1 + block_sum lamda j))) +
  \sum_g weights g * (lamda g - lm g).
(** lines 145-146 *)
Definition ls_rejects lamda (step : R) : bool :=
  let lm := lamda_m lamda step in
  let x_active := \sum_(g in active lamda) dual_grad lamda g * (lamda g - lm g) in
  fdiff lamda lm < sigma * (step * x_inactive lamda + x_active).
(** lines 133-146: the while loop; [None] if it has not ended within [fuel] tests *)
Fixpoint line_search (fuel m : nat) lamda : option ('I_B -> R) :=
  if fuel is fuel'.+1 then
    let step := beta ^+ m.+1 * s_beta in
    if ls_rejects lamda step then line_search fuel' m.+1 lamda else Some (lamda_m lamda step)
  else None.
(** lines 69-150: the for loop, [todo] iterations left, [it] the current one; returns lamda and the last value of iteration_ *)
Fixpoint newton (fuel todo it i_null : nat) lamda : option (('I_B -> R) * nat) :=
  if todo is todo'.+1 then
    let i_null := if #|inactive lamda| == 0%N then i_null.+1 else 0%N in
    if (5 <= i_null)%N then Some (lamda, it)
    else
      match line_search fuel 0 lamda with
      | None => None
      | Some lm =>
        if [forall g, (lm g == 0) ==> (0 <= dual_grad lamda g)] && [forall g, (0 < lm g) ==> (`|dual_grad lamda g| < tol)] then Some (lm, it)
        else newton fuel todo' it.+1 i_null lm
      end
  else Some (lamda, it.-1).
(** line 154 *)
Definition primal lamda (j : 'I_d) : R := w0 j * (1 - 1 / (1 + block_sum lamda j)).
End Newton.

(** the argument lamda0: None or an array *)
Definition lamda_init (B : nat) (lamda0 : option (seq R)) : res (seq R) :=
  match lamda0 with
  | None => Val (nseq B 0)
  | Some [::] => Val (nseq B 0)
  | Some [:: x] => if x == 0 then Val (nseq B 0) else Val [:: x]
  | Some _ => Raise ValueError (* "if not lamda0": the truth value of an array with more than one element is ambiguous *)
  end.
(** lines 40-55: the blocks that are kept, with their squared weights and dual variables *)
Definition block_norm (w0 : 'I_d -> R) (b : {set 'I_d}) : R := sqrt (\sum_(j in b) w0 j ^+ 2).
Definition keep (w0 : 'I_d -> R) (bw : {set 'I_d} * R) : bool := bw.2 <= block_norm w0 bw.1.
(** lamda_tot[to_be_projected] = lamda *)
Fixpoint scatter (mask : seq bool) (l : seq R) : seq R :=
  if mask is b :: mask' then (if b then head 0 l :: scatter mask' (behead l) else 0 :: scatter mask' l) else [::].

(** glo_prox. The result is [None] while a line search has not ended within [fuel] tests *)
Definition glo_prox (fuel : nat) (w0 : 'I_d -> R) (tau : R) (blocks : seq {set 'I_d}) (weights : seq R) (lamda0 : option (seq R))
    (tol : R) (max_iter : nat) (beta sigma s_beta epsilon : R) : option (res (('I_d -> R) * nat * seq R)) :=
  match lamda_init (size blocks) lamda0 with
  | Raise e => Some (Raise e)
  | Val l0 =>
    let bw := [seq (b.1, (b.2 * tau) ^+ 2) | b <- zip blocks weights] in
    let mask := [seq keep w0 b | b <- bw] in
    let kept := [seq b <- bw | keep w0 b] in
    let l := [seq bl.2 | bl <- zip bw l0 & keep w0 bl.1] in
    if size kept == 0%N then Some (Val (fun=> 0, 0%N, nseq (size blocks) 0))
    else
      let bk := fun g : 'I_(size kept) => (tnth (in_tuple kept) g).1 in
      let wk := fun g : 'I_(size kept) => (tnth (in_tuple kept) g).2 in
      match newton bk wk w0 tol beta sigma s_beta epsilon fuel max_iter 0 0 (fun g => nth 0 l g) with
      | None => None
      | Some (lamda, it) => Some (Val (primal bk w0 lamda, it, scatter mask [seq lamda g | g <- enum 'I_(size kept)]))
      end
  end.
End GloProx.

(** glopridu_algorithm, lines 203-251, with weights=None, beta0=None, lamda0=None. [prox it w0 lamda]: the call of glo_prox in iteration [it];
    [sg] is sigma, [ms] mu / sigma. State: beta, h, t, X beta, X h, lamda *)
Section Glopridu.
Variables n d : nat.
Variable prox : nat -> 'cV[R]_d -> seq R -> res ('cV[R]_d * seq R).
Definition l2 m (v : 'cV[R]_m) : R := sqrt (\sum_i v i 0 ^+ 2).
Fixpoint glopridu_loop (X : 'M[R]_(n, d)) (Y : 'cV[R]_n) (sg ms tol_ext : R) (todo it : nat) (beta h : 'cV[R]_d) (t : R) (Xb Xh : 'cV[R]_n) (lamda : seq R) :
    res ('cV[R]_d * seq R * nat) :=
  if todo is todo'.+1 then
    let it := it.+1 in
    let w0 := (1 - ms) *: h + (n%:R * sg)^-1 *: (X^T *m (Y - Xh)) in
    match prox it w0 lamda with
    | Raise e => Raise e
    | Val (beta', lamda') =>
      let Xb' := X *m beta' in
      let t_new := 2%:R^-1 * (1 + sqrt (1 + 4%:R * t * t)) in
      let h' := beta' + ((t - 1) / t_new) *: (beta' - beta) in
      let Xh' := (1 + (t - 1) / t_new) *: Xb' + ((1 - t) / t_new) *: Xb in
      if (l2 (Xb' - Xb) <= l2 Xb * tol_ext) && (1 < it)%N then Val (beta', lamda', it)
      else glopridu_loop X Y sg ms tol_ext todo' it beta' h' t_new Xb' Xh' lamda'
    end
  else Val (beta, lamda, it).
Definition glopridu (norm2 : 'M[R]_(n, d) -> R) (X : 'M[R]_(n, d)) (Y : 'cV[R]_n) (n_blocks : nat) (smooth_par tol_ext : R) (max_iter_ext : nat) :
    res ('cV[R]_d * seq R * nat) :=
  let sigma0 := norm2 X ^+ 2 / n%:R in
  let mu := smooth_par * sigma0 in
  let sg := sigma0 + mu in
  glopridu_loop X Y sg (mu / sg) tol_ext max_iter_ext 0 0 0 1 0 0 (nseq n_blocks 0).
End Glopridu.

(** lines 229-238: the call of glo_prox from glopridu_algorithm, with its default arguments. RuntimeError stands for a line search that has not
    ended within [fuel] tests *)
Definition glopridu_prox (pinv : forall n, 'M[R]_n -> 'M[R]_n) (fuel d : nat) (blocks : seq {set 'I_d}) (tau_s tol_int : R) (max_iter_int : nat)
    (it : nat) (w0 : 'cV[R]_d) (lamda : seq R) : res ('cV[R]_d * seq R) :=
  match glo_prox pinv fuel (fun j => w0 j 0) tau_s blocks (nseq (size blocks) 1) (Some lamda) (tol_int / (it%:R * sqrt it%:R)) max_iter_int
    (1 / 2%:R) (1 / 10%:R) 1 (1 / 1000%:R) with
  | Some (Val (w, _, l)) => Val (\col_j w j, l)
  | Some (Raise e) => Raise e
  | None => Raise RuntimeError
  end.
