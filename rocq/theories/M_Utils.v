(** Model of regain/utils.py (numeric and list helpers). *)
From Coq Require Import Reals String.
From mathcomp Require Import all_ssreflect all_algebra.
From Verif Require Import RStruct NP Str.
Import Order.TTheory GRing.Theory Num.Theory.

Set Implicit Arguments.
Unset Strict Implicit.
Unset Printing Implicit Defensive.
Local Open Scope ring_scope.

(** exceptions raised by the functions of this file *)
Inductive exn := ValueError | IndexError | ZeroDivisionError | KeyError of string
  | NotImplementedError | UnboundLocal | TypeError | AttributeError | LinAlgError | RuntimeError.
Inductive res (T : Type) := Val of T | Raise of exn.
Arguments Val {T}. Arguments Raise {T}.

(** a python value that is a (possibly nested) list or array of atoms *)
Inductive pyval (A : Type) := Atom of A | PyList of list (pyval A).
Arguments Atom {A}. Arguments PyList {A}.

(** utils.py:252-258. Zero-dimensional arrays are not modelled. *)
Fixpoint flatten_py A (v : pyval A) : list A :=
  match v with
  | PyList l => (fix go l := match l with nil => nil | x :: r => flatten_py x ++ go r end) l
  | Atom a => [:: a]
  end.

(** utils.py:270-276: functools.reduce(compose2, functions, lambda x: x) *)
Definition compose2 A (f g : A -> A) : A -> A := fun x => f (g x).
Definition compose_py A (functions : seq (A -> A)) : A -> A := foldl (@compose2 A) (fun x => x) functions.

(** str.endswith *)
Definition endswith (C : eqType) (s e : seq C) : bool :=
  (size e <= size s)%N && (drop (size s - size e) s == e).
(** utils.py:133-141; a single string is first wrapped in a list; [possible_extensions[0]] of an
    empty list raises IndexError (any of an empty list is False). *)
Inductive exts (C : eqType) := OneExt of seq C | Exts of seq (seq C).
Definition ensure_filename_ending (C : eqType) (filename : seq C) (possible : exts C) : res (seq C) :=
  let l := match possible with OneExt e => [:: e] | Exts l => l end in
  if has (endswith filename) l then Val (filename ++ [::])
  else match l with [::] => Raise IndexError | e :: _ => Val (filename ++ e) end.

(** a two-dimensional array of run-time shape (n, n) *)
Definition arr2 := (nat * (nat -> nat -> R))%type.
(** np.triu_indices(n): row-major *)
Definition triu_indices (n : nat) : seq (nat * nat) :=
  [seq (i, j) | i <- iota 0 n, j <- [seq j <- iota 0 n | (i <= j)%N]].
(** A[i, j] = v *)
Definition aset (A : nat -> nat -> R) (i j : nat) (v : R) : nat -> nat -> R :=
  fun i' j' => if (i' == i) && (j' == j) then v else A i' j'.
(** A[idx] = a, one entry after the other *)
Fixpoint fancy_set (A : nat -> nat -> R) (idx : seq (nat * nat)) (a : seq R) : nat -> nat -> R :=
  match idx, a with
  | ij :: idx', v :: a' => fancy_set (aset A ij.1 ij.2 v) idx' a'
  | _, _ => A
  end.
(** utils.py:261-267. [int] truncates; the square root is the real one. The assignment raises
    ValueError when the lengths differ, except that a vector of length one would be broadcast
    (only possible with n = 1, where the lengths agree). [A[x] = A[y] = a] assigns left to right. *)
Definition upper_to_full (a : seq R) : res arr2 :=
  let n := Z.to_nat (Int_part ((sqrt (1 + 8%:R * (size a)%:R) - 1) / 2%:R)) in
  let idx := triu_indices n in
  if size idx != size a then Raise ValueError
  else let A := fancy_set (fun _ _ => 0) idx a in
       Val (n, fancy_set A [seq (p.2, p.1) | p <- idx] a).

(** utils.py:279-292; [data] is a list of 2-d arrays, each a list of rows; the stacked rows and the
    labels. np.vstack([]) raises ValueError; label arrays of different lengths make an object array
    (or raise), and astype(int) of it raises: modelled as ValueError. Number of columns not
    modelled (the row type is abstract). *)
Definition convert_data_to_2d T (data : seq (seq T)) : res (seq T * seq nat) :=
  if size data == 0%N then Raise ValueError
  else if all (fun x => size x == size (head [::] data)) data then
    Val (flatten data, flatten [seq nseq (size ix.2) ix.1 | ix <- zip (iota 0 (size data)) data])
  else Raise ValueError.

(** np.sqrt *)
Definition np_sqrt (x : R) : xR := if x < 0 then NaN else Fin (sqrt x).
(** 1.0 / x for an extended number (x is a square root, so it is never a negative zero or -inf) *)
Definition xrecip (x : xR) : xR :=
  match x with Fin a => xdiv 1 a | PInf | NInf => Fin 0 | NaN => NaN end.
(** utils.py:309-314; the new contents of x. [x *= d] scales column j by d_j, [x *= d.T] row i by d_i *)
Definition normalize_matrix n (x : 'M[R]_n) (i j : 'I_n) : xR :=
  let d k := xrecip (np_sqrt (x k k)) in
  xmul (xmul (Fin (x i j)) (d j)) (d i).

(** utils.py:632-643, on one entry (no masked input, no NaN entries) *)
Definition threshold1 (threshmin threshmax : option R) (newval a : R) : R :=
  let mask := (if threshmin is Some lo then a < lo else false)
           || (if threshmax is Some hi then a > hi else false) in
  if mask then newval else a.
Definition threshold m n (a : 'M[R]_(m, n)) (threshmin threshmax : option R) (newval : R) : 'M[R]_(m, n) :=
  map_mx (threshold1 threshmin threshmax newval) a.

(** utils.py:597-614: [chol A] is whether np.linalg.cholesky succeeds *)
Definition is_pos_def n (chol : 'M[R]_n -> bool) (x : 'M[R]_n) : bool := chol x.
(** utils.py:617-629; new contents of X. 0.1 is 1/10. *)
Definition ensure_posdef_2d n (chol : 'M[R]_n -> bool) (X : 'M[R]_n) : 'M[R]_n :=
  if is_pos_def chol X then X
  else \matrix_(i, j) if i == j then (\sum_k `|(X - diag_mx (\row_k X k k)) i k|) + 1 / 10%:R else X i j.
(** inplace=False raises before anything else *)
Definition ensure_posdef n (chol : 'M[R]_n -> bool) (X : 'M[R]_n) (inplace : bool) : res 'M[R]_n :=
  if ~~ inplace then Raise NotImplementedError else Val (ensure_posdef_2d chol X).
(** utils.py:626-629: three-dimensional input, slice by slice *)
Definition ensure_posdef_3d n T (chol : 'M[R]_n -> bool) (X : {ffun 'I_T -> 'M[R]_n}) :
    {ffun 'I_T -> 'M[R]_n} := [ffun t => ensure_posdef_2d chol (X t)].

(** utils.py:317-395, two-dimensional input, norm = 'frobenius', n = False. A one-dimensional
    [error] (after boolean selection) has shape[0] = number of selected entries. *)
Definition triu1 n (A : 'M[R]_n) : 'M[R]_n := \matrix_(i, j) if (i < j)%N then A i j else 0.
Definition error_norm n (cov comp_cov : 'M[R]_n) (scaling squared upper_triangular nonzero : bool) : xR :=
  let comp_cov := if upper_triangular then triu1 comp_cov else comp_cov in
  let cov := if upper_triangular then triu1 cov else cov in
  let squared_norm :=
    if nonzero then \sum_i \sum_(j | cov i j == 0) (comp_cov i j - cov i j) ^+ 2
    else \sum_i \sum_j (comp_cov i j - cov i j) ^+ 2 in
  let shape0 : nat :=
    if nonzero then #|[pred e : 'I_n * 'I_n | cov e.1 e.2 == 0]| else n in
  let q := if scaling then xdiv squared_norm shape0%:R else Fin squared_norm in
  if squared then q
  else match q with Fin a => np_sqrt a | x => x end.

(** utils.py:435-540. The entries of the (2- or 3-dimensional) arrays are indexed by a finite type
    [I]; [dg] says which are on a diagonal. [true.size] is #|I|. The two scikit-learn scores
    (average precision, mcc) are computed by oracles from the entries strictly above the
    diagonals ([up]), before thresholding; [edge x] is the label passed, [x > 0]. *)
Record str_err := StrErr {
  se_tp : nat; se_tn : nat; se_fp : nat; se_fn : nat;
  se_precision : R; se_recall : R; se_f1 : R; se_accuracy : R; se_for : R; se_fdr : R; se_npv : R;
  se_prevalence : R; se_miss_rate : R; se_fall_out : R; se_specificity : R;
  se_plr : R; se_nlr : R; se_dor : R; se_balanced_accuracy : R;
  se_mcc : R }.
Section StructureError.
Variables (I : finType) (dg up : pred I).
Variable mcc : seq bool -> seq bool -> R.
Definition structure_error (true_ pred_ : I -> R) (thresholding : bool) (eps : R) (no_diagonal : bool) :
    res str_err :=
  let y_true := [seq true_ e > 0 | e <- enum up] in
  let y_pred := [seq pred_ e > 0 | e <- enum up] in
  let pred1 e := if thresholding && (`|pred_ e| < eps) then 0 else pred_ e in
  let true2 e := if no_diagonal then (if dg e then true_ e - true_ e else true_ e - 0) else true_ e in
  let pred2 e := if no_diagonal then (if dg e then pred1 e - pred1 e else pred1 e - 0) else pred1 e in
  let tn_to_remove := if no_diagonal then #|dg| else 0%N in
  let true3 e : R := if true2 e != 0 then 1 else true2 e in
  let pred3 e : R := if pred2 e != 0 then 2%:R else pred2 e in
  let count_eq (k : R) := #|[pred e | true3 e + pred3 e == k]| in
  let TN := (count_eq 0%R - tn_to_remove)%N in
  let FN := count_eq 1 in
  let FP := count_eq 2%:R in
  let TP := count_eq 3%:R in
  let f : nat -> R := fun k => k%:R in
  let size := f #|I| in
  let precision := if (0 < TP + FP)%N then f TP / f (TP + FP)%N else 0 in
  if (TP + FN == 0)%N then Raise ZeroDivisionError else
  let recall := f TP / f (TP + FN)%N in
  let miss_rate := if f FN / f (TP + FN)%N != 0 then f FN / f (TP + FN)%N else 1 - recall in
  let f1 := if precision + recall > 0 then 2%:R * precision * recall / (precision + recall) else 0 in
  let accuracy := (f TP + f TN) / size in
  let prevalence := (f TP + f FN) / size in
  let fall_out := if (0 < FP + TN)%N then f FP / f (FP + TN)%N else 1 in
  let specificity := if (0 < FP + TN)%N then f TN / f (FP + TN)%N else 1 - fall_out in
  let balanced_accuracy := 1 / 2%:R * (recall + specificity) in
  let fdr := if (0 < TP + FP)%N then f FP / f (TP + FP)%N else 1 - precision in
  let for_ := if (0 < FN + TN)%N then f FN / f (FN + TN)%N else 0 in
  let npv := if (0 < FN + TN)%N then f TN / f (FN + TN)%N else 1 - for_ in
  let plr := if fall_out > 0 then recall / fall_out else 0 in
  let nlr := if specificity > 0 then miss_rate / specificity else 0 in
  let dor := if nlr > 0 then plr / nlr else 0 in
  Val (StrErr TP TN FP FN precision recall f1 accuracy for_ fdr npv prevalence miss_rate fall_out
              specificity plr nlr dor balanced_accuracy (mcc y_true y_pred)).
End StructureError.

(** utils.py:512-534: the keys of the dictionary structure_error returns, in order *)
Definition structure_error_keys : seq string :=
  [:: "tp"; "tn"; "fp"; "fn"; "precision"; "recall"; "f1"; "accuracy"; "false_omission_rate"; "fdr";
      "npv"; "prevalence"; "miss_rate"; "fall_out"; "specificity"; "plr"; "nlr"; "dor";
      "balanced_accuracy"; "average_precision"; "mcc"]%string.
(** utils.py:556-577: the keys mean_structure_error collects *)
Definition mean_structure_error_keys : seq string :=
  [:: "tp"; "tn"; "fp"; "fn"; "precision"; "recall"; "f1"; "accuracy"; "false_omission_rate"; "fdr";
      "npv"; "prevalence"; "miss_rate"; "fall_out"; "specificity"; "plr"; "nlr"; "dor";
      "balanced_accuracy"; "average_precision"]%string.
(** utils.py:578-587. [err p] is the outcome of structure_error(true, p, no_diagonal=True); its
    values are appended to the collected lists key by key. The result here is the number of
    predictions that were averaged. *)
Fixpoint append_keys (keys : seq string) (dictionary : seq string) : option string :=
  match keys with
  | [::] => None
  | k :: ks => if k \in dictionary then append_keys ks dictionary else Some k
  end.
Fixpoint mean_structure_error P (err : P -> res str_err) (preds : seq P) (n : nat) : res nat :=
  match preds with
  | [::] => Val n
  | p :: ps =>
    match err p with
    | Raise e => Raise e
    | Val _ => match append_keys structure_error_keys mean_structure_error_keys with
               | Some k => Raise (KeyError k)
               | None => mean_structure_error err ps n.+1
               end
    end
  end.
