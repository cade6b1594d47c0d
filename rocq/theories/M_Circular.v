(** Model of the geometry of plot_circular (regain/plotting/plotly.py:175-250). *)
From Coq Require Import Reals.
From mathcomp Require Import all_ssreflect all_algebra.
From Verif Require Import RStruct.
Import Order.TTheory GRing.Theory Num.Theory.

Set Implicit Arguments.
Unset Strict Implicit.
Unset Printing Implicit Defensive.
Local Open Scope ring_scope.

(** networkx.circular_layout of [n] nodes (line 187): a single node is put at the origin; otherwise node [k] has the angle 2 pi k / n. networkx then
    subtracts the mean and divides by the largest coordinate; these are 0 and 1 and the step is left out *)
Definition node_angle (n k : nat) : R := 2%:R * PI * (k%:R / n%:R).
Definition circular_layout (n : nat) : seq (R * R) :=
  if n == 1%N then [:: (0, 0)] else [seq (cos (node_angle n k), sin (node_angle n k)) | k <- iota 0 n].
(** np.min and np.max of a nonempty array *)
Definition amin (l : seq R) : R := foldr Num.min (head 0 l) l.
Definition amax (l : seq R) : R := foldr Num.max (head 0 l) l.
(** lines 202-207 *)
Definition center (ps : seq (R * R)) : R * R :=
  ((amin [seq p.1 | p <- ps] + amax [seq p.1 | p <- ps]) / 2%:R, (amin [seq p.2 | p <- ps] + amax [seq p.2 | p <- ps]) / 2%:R).
(** line 210 *)
Definition pos_text (dist_text : R) (ps : seq (R * R)) : seq (R * R) :=
  let c := center ps in [seq (c.1 + dist_text * (p.1 - c.1), c.2 + dist_text * (p.2 - c.2)) | p <- ps].
(** line 213, in degrees; [None] is nan (0 / 0). A division of a nonzero number by zero gives an infinity, whose arctan is pi / 2 or - pi / 2 *)
Definition text_angle (ps : seq (R * R)) (p : R * R) : option R :=
  let c := center ps in
  let dx := p.1 - c.1 in let dy := p.2 - c.2 in
  if dx == 0 then (if dy == 0 then None else Some (- 180%:R * (if 0 < dy then PI / 2%:R else - (PI / 2%:R)) / PI))
  else Some (- 180%:R * atan (dy / dx) / PI).
(** lines 238-250 and line 88: the annotation at node [k] (in the order of the nodes) is labels[k]; the text of an edge uses labels[e[0]] and labels[e[1]],
    with the nodes themselves as indices. [None]: IndexError *)
Definition label_at (L : Type) (labels : seq L) (k : nat) : option L := ohead (drop k labels).
Definition annotations (L : Type) (nodes : seq nat) (labels : seq L) : seq (option L) := [seq label_at labels k | k <- iota 0 (size nodes)].
Definition edge_texts (L : Type) (es : seq (nat * nat)) (labels : seq L) : seq (option L * option L) :=
  [seq (label_at labels e.1, label_at labels e.2) | e <- es].
