(** Model of _BayesianOptimization.fit, plot_acquisition and _fit_score (regain/model_selection/_bayesian_optimization.py:189-280). *)
From Coq Require Import Reals.
From mathcomp Require Import all_ssreflect all_algebra.
From Verif Require Import RStruct M_Utils.
Import Order.TTheory GRing.Theory Num.Theory.

Set Implicit Arguments.
Unset Strict Implicit.
Unset Printing Implicit Defensive.
Local Open Scope ring_scope.

(** the parameters of an estimator: a value for each name (names are numbers here) *)
Definition params := nat -> R.
(** mdl.set_params(name = value, ...) for a dict *)
Definition set_params (mdl : params) (d : seq (nat * R)) : params := foldl (fun m nv => fun a => if a == nv.1 then nv.2 else m a) mdl d.
(** 10 ** x, for each coordinate *)
Definition pow10 (x : seq R) : seq R := [seq Rpower 10%:R v | v <- x].
(** a score that may be nan: None *)
Definition score := option R.
Definition neg (s : score) : score := omap (fun v : R => - v) s.

Section Fit.
(** [cv k mdl]: np.mean(cross_val_score(mdl, ...)) of the k-th evaluation *)
Variable cv : nat -> params -> score.
Variable param_names : seq nat.
(** lines 271-280, one row: the model is changed in place *)
Definition fit_score (k : nat) (mdl : params) (x : seq R) : score * params :=
  let mdl := set_params mdl (zip param_names (pow10 x)) in (neg (cv k mdl), mdl).
(** GPyOpt's run_optimization: evaluates the points of the initial design and then, max_iter times, the point that [next] chooses from the
    history (None: it stops). History: points and values, the last first *)
Definition evaluate (mdl : params) (hist : seq (seq R * score)) (x : seq R) : params * seq (seq R * score) :=
  let: (y, mdl) := fit_score (size hist) mdl x in (mdl, (x, y) :: hist).
Fixpoint run (next : seq (seq R * score) -> option (seq R)) (max_iter : nat) (mdl : params) (hist : seq (seq R * score)) :
    params * seq (seq R * score) :=
  if max_iter is k.+1 then
    if next hist is Some x then let: (mdl, hist) := evaluate mdl hist x in run next k mdl hist else (mdl, hist)
  else (mdl, hist).
Definition initial (mdl : params) (design : seq (seq R)) : params * seq (seq R * score) :=
  foldl (fun s x => evaluate s.1 s.2 x) (mdl, [::]) design.
(** np.argmin: the first nan if there is one, otherwise the first smallest *)
Definition np_argmin (Y : seq score) : nat :=
  if has (fun y => y == None) Y then find (fun y => y == None) Y
  else find (fun y => all (fun z => if y is Some a then if z is Some b then a <= b else false else false) Y) Y.
Record fitted := Fitted { best_index : nat; best_params : seq (nat * R); best_score : score; best_estimator : params; estimator : params }.
(** lines 189-258, with refit=True: argmin of an empty array is a ValueError *)
Definition fit next (max_iter : nat) (design : seq (seq R)) (mdl : params) : res (fitted * seq (seq R * score)) :=
  let: (mdl, hist) := initial mdl design in
  let: (mdl, hist) := run next max_iter mdl hist in
  let XY := rev hist in
  if XY is [::] then Raise ValueError else
  let i := np_argmin (unzip2 XY) in
  let best := zip param_names (pow10 (nth [::] (unzip1 XY) i)) in
  Val (Fitted i best (nth None (unzip2 XY) i) (set_params mdl best) mdl, XY).
End Fit.

(** lines 260-267. The values: None stands for an infinite one. [plot] is the plot of GPyOpt, which may raise. Result: what plot returns, and X, Y
    afterwards *)
Definition plot_acquisition (T A : Type) (plot : seq A -> seq (option R) -> res T) (X : seq A) (Y : seq (option R)) :
    res T * (seq A * seq (option R)) :=
  let keep := [seq isSome y | y <- Y] in
  let X' := mask keep X in
  let Y' := mask keep Y in
  match plot X' Y' with
  | Val v => (Val v, (X, Y))
  | Raise e => (Raise e, (X', Y'))
  end.
