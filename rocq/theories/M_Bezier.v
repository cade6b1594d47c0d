(** Model of the curves of the circular plot (regain/plotting/plotly.py:43-110). *)
From Coq Require Import Reals.
From mathcomp Require Import all_ssreflect all_algebra.
From Verif Require Import RStruct M_Utils.
Import Order.TTheory GRing.Theory Num.Theory.

Set Implicit Arguments.
Unset Strict Implicit.
Unset Printing Implicit Defensive.
Local Open Scope ring_scope.

(** lines 43-47: the loop runs at most len(D) times; the result is k - 1, which may be -1 *)
Fixpoint idx_loop (d : R) (D : seq R) (fuel k : nat) : nat :=
  match fuel with
  | 0 => k
  | f.+1 => if (k.+1 < size D)%N && (nth 0 D k < d) then idx_loop d D f k.+1 else k
  end.
Definition get_idx_interv (d : R) (D : seq R) : int := (idx_loop d D (size D) 0)%:Z - 1.

Section Curve.
Variable n : nat.
(** lines 60-61: one step, r. The right-hand side is computed before the assignment *)
Definition casteljau_step (t : R) (N : nat) (a : seq 'rV[R]_n) (r : nat) : seq 'rV[R]_n :=
  [seq if (k < N - r)%N then (1 - t) *: nth 0 a k + t *: nth 0 a k.+1 else nth 0 a k | k <- iota 0 N].
(** lines 55-62, for an array b of floats *)
Definition deCasteljau (b : seq 'rV[R]_n) (t : R) : res 'rV[R]_n :=
  let N := size b in
  if (N < 2)%N then Raise ValueError
  else Val (nth 0 (foldl (casteljau_step t N) b (iota 1 N.-1)) 0).
(** lines 65-67; np.linspace(0, 1, nr)[k] *)
Definition linspace01 (nr k : nat) : R := k%:R / (nr - 1)%:R.
Fixpoint collect (l : seq (res 'rV[R]_n)) : res (seq 'rV[R]_n) :=
  match l with
  | [::] => Val [::]
  | Raise e :: _ => Raise e
  | Val x :: l' => match collect l' with Val s => Val (x :: s) | Raise e => Raise e end
  end.
Definition BezierCv (b : seq 'rV[R]_n) (nr : nat) : res (seq 'rV[R]_n) :=
  collect [seq deCasteljau b (linspace01 nr k) | k <- iota 0 nr].
End Curve.

(** lines 70-87: the distances, the parameters and the points of one edge from A to B. params[K] with K = -1 is the last one *)
Definition dist (A B : R * R) : R := sqrt ((A.1 - B.1) ^+ 2 + (A.2 - B.2) ^+ 2).
Definition chord_Dist : seq R :=
  let h := sqrt 2%:R / 2%:R in [:: 0; dist (1, 0) (h, h); sqrt 2%:R; dist (1, 0) (- h, h); 2%:R].
Definition chord_params : seq R := [:: 12%:R / 10%:R; 15%:R / 10%:R; 18%:R / 10%:R; 21%:R / 10%:R].
Definition py_index (l : seq R) (K : int) : R := match K with Posz k => nth 0 l k | Negz k => nth 0 l (size l - k.+1) end.
Definition row_of (A : R * R) : 'rV[R]_2 := \row_i (if i == 0 then A.1 else A.2).
Definition chord_points (A B : R * R) : res (seq 'rV[R]_2) :=
  let p := py_index chord_params (get_idx_interv (dist A B) chord_Dist) in
  BezierCv [:: row_of A; p^-1 *: row_of A; p^-1 *: row_of B; row_of B] 5.
