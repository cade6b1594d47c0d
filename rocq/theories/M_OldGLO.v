(** Model of the retired group lasso solvers: regain/linear_model/_group_lasso_overlap_old_.py:35-170 and
    regain/linear_model/group_lasso_overlap_.py:75-88, 494-559. *)
From Coq Require Import Reals.
From mathcomp Require Import all_ssreflect all_algebra.
From Verif Require Import RStruct S_Mat M_Utils.
Import Order.TTheory GRing.Theory Num.Theory.

Set Implicit Arguments.
Unset Strict Implicit.
Unset Printing Implicit Defensive.
Local Open Scope ring_scope.

(** _group_lasso_overlap_old_.py:163: V.dot(V.T.dot(q) / (D + t)); D is the array of eigenvalues, the division is entry by entry *)
Definition xu_point n (V : 'M[R]_n) (D : 'rV[R]_n) (q : 'cV[R]_n) (t : R) : 'cV[R]_n :=
  V *m (\col_i ((V^T *m q) i 0 / (D 0 i + t))).
(** lines 160-169: the loop of at most [fuel] bisections; the value is that of x. Simplified: upper and lower are exact reals *)
Fixpoint xu_loop n (V : 'M[R]_n) (D : 'rV[R]_n) (q : 'cV[R]_n) (kappa : R) (fuel : nat) (lower upper : R) (x : 'cV[R]_n) : 'cV[R]_n :=
  if fuel is fuel'.+1 then
    let t := (upper + lower) / 2%:R in
    let x := xu_point V D q t in
    let lu := if kappa / fnorm x < t then (lower, t) else (t, upper) in
    if lu.2 - lu.1 <= (10%:R ^+ 6)^-1 then x else xu_loop V D q kappa fuel' lu.1 lu.2 x
  else x.
(** lines 151-170 *)
Definition x_update m n (A : 'M[R]_(m, n)) (b : 'cV[R]_m) (kappa : R) (V : 'M[R]_n) (D : 'rV[R]_n) : 'cV[R]_n :=
  let q := A^T *m b in
  if kappa < fnorm q then xu_loop V D q kappa 100 0 (10%:R ^+ 10) 0 else 0.

(** python numbers, as far as the sizes of arrays are concerned *)
Inductive pynum := PyInt of nat | PyFloat of R.
(** n / ni: true division gives a float, whatever the operands *)
Definition true_div (n ni : nat) : res pynum := if ni == 0%N then Raise ZeroDivisionError else Val (PyFloat (n%:R / ni%:R)).
(** np.zeros(shape): a float in the shape is a TypeError *)
Definition np_zeros (shape : seq pynum) : res (seq nat) :=
  if all (fun d => if d is PyInt _ then true else false) shape
  then Val [seq (if d is PyInt k then k else 0%N) | d <- shape] else Raise TypeError.
(** _group_lasso_overlap_old_.py:72-137: the first two statements with an effect; the rest of the function is the argument [rest],
    which gets N and x *)
Definition group_lasso_feat_split (T : Type) (rest : pynum -> seq nat -> res T) (m n ni : nat) : res T :=
  match true_div n ni with
  | Raise e => Raise e
  | Val N => match np_zeros [:: PyInt ni; N] with Raise e => Raise e | Val x => rest N x end
  end.

(** a call of a python function with [required] positional parameters and no default, given [given] arguments *)
Definition py_call (T : Type) (required given : nat) (body : res T) : res T :=
  if given == required then body else Raise TypeError.
(** group_lasso_overlap_.py:494-559. P_star_x_bar_function has the parameters x, d, groups (line 75) and is called with x (lines 521, 526,
    559). [groups] is None by default, and len(None) is a TypeError (line 510); [inv] is np.linalg.inv, None when it raises LinAlgError
    (line 519). The body of P_star_x_bar_function is the argument [p_star]; what the loop does once it has its result is [step]. *)
Definition overlapping_group_lasso (T : Type) (inv : option T) (p_star : T -> res T) (step : T -> T -> T -> T)
    (groups : option (seq (seq nat))) (max_iter : nat) (x : T) : res (T * T) :=
  if groups is None then Raise TypeError
  else if inv is Some inverse then
    let fix loop k x :=
      if k is k'.+1 then
        match py_call 3 1 (p_star x) with
        | Val p0 => match py_call 3 1 (p_star x) with Val p1 => loop k' (step p0 p1 x) | Raise e => Raise e end
        | Raise e => Raise e
        end
      else match py_call 3 1 (p_star x) with Val p => Val (p, x) | Raise e => Raise e end in
    loop max_iter x
  else Raise LinAlgError.
