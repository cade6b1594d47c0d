(** Model of plot_roc_comparison and plot_precision_recall_comparison (regain/plotting/results.py:218-255), decorated with scikit-learn's class
    [deprecated], and of the two other uses of that decorator, with parentheses (regain/model_selection/_bayesian_optimization.py:57,
    regain/linear_model/group_lasso_overlap_.py:435). *)
From Coq Require Import String.
From mathcomp Require Import all_ssreflect.
From Verif Require Import M_Utils.

Set Implicit Arguments.
Unset Strict Implicit.
Unset Printing Implicit Defensive.

Section Deprecated.
(** [Drawing]: what a plotting function does; [Data]: any other object; [Code]: the functions of a program *)
Variables (Drawing Data Code : Type).
(** python values: functions; functions wrapped by the decorator; classes and properties; instances of [deprecated] with their attribute extra; other objects,
    with or without an attribute __name__; what a plotting call has drawn, with its return value None *)
Inductive value : Type :=
  | Fun of Code
  | Wrapped of value
  | Class | Property
  | Instance of value
  | Text of string
  | Object of Data & bool
  | Drawn of Drawing.
(** the results of the functions on positional and keyword arguments *)
Variable body : Code -> seq value -> seq (string * value) -> res value.
(** sklearn/utils/deprecation.py: __init__(self, extra="") *)
Definition deprecated_class (args : seq value) : res value :=
  match args with
  | [::] => Val (Instance (Text ""%string))
  | [:: extra] => Val (Instance extra)
  | _ => Raise TypeError
  end.
(** __call__(self, obj): a class or a property is decorated in place; otherwise _decorate_fun reads obj.__name__ and returns a function that warns and then
    calls obj. An instance of [deprecated] and a text have no __name__; None, what a plot returns, neither *)
Definition decorate (obj : value) : res value :=
  match obj with
  | Class => Val Class
  | Property => Val Property
  | Fun _ | Wrapped _ | Object _ true => Val (Wrapped obj)
  | Object _ false | Instance _ | Text _ | Drawn _ => Raise AttributeError
  end.
Definition instance_call (positional : seq value) (keywords : seq (string * value)) : res value :=
  match positional, keywords with
  | [:: obj], [::] => decorate obj
  | [::], [:: (k, obj)] => if String.eqb k "obj"%string then decorate obj else Raise TypeError
  | _, _ => Raise TypeError
  end.
(** a call of a value *)
Fixpoint call (f : value) (positional : seq value) (keywords : seq (string * value)) : res value :=
  match f with
  | Fun g => body g positional keywords
  | Wrapped g => call g positional keywords
  | Instance _ => instance_call positional keywords
  | _ => Raise TypeError
  end.
(** @deprecated above def f: the class is called with f. lines 218-255 *)
Definition bare_decorator (f : value) : res value := deprecated_class [:: f].
(** @deprecated() above def f: the class is called first, and its instance with f *)
Definition called_decorator (extra : seq value) (f : value) : res value :=
  match deprecated_class extra with Raise e => Raise e | Val d => call d [:: f] [::] end.
End Deprecated.
