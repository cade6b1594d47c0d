(** Model of the data that regain/plotting/plotly.py hands to plotly: lines_straight and plot_network. Colours, hover options, axes and layout are not
    modelled. A graph is the list of its nodes and the list of its edges, each edge once, as networkx lists them. *)
From Coq Require Import Reals.
From mathcomp Require Import all_ssreflect all_algebra.
From Verif Require Import RStruct.
Import Order.TTheory GRing.Theory Num.Theory.

Set Implicit Arguments.
Unset Strict Implicit.
Unset Printing Implicit Defensive.
Local Open Scope ring_scope.

Inductive plot_exn := PValueError | PIndexError | PKeyError | PNameError.
Inductive pres (T : Type) := POk (x : T) | PRaise (e : plot_exn).
Arguments PRaise {T} e.
Definition pbind T U (x : pres T) (f : T -> pres U) : pres U := match x with POk v => f v | PRaise e => PRaise e end.

(** a Scatter (no z) or Scatter3d trace with its line width; [None] among the coordinates is a gap *)
Record trace := Trace { tr_x : seq (option R); tr_y : seq (option R); tr_z : option (seq (option R)); tr_width : R }.

Section Lines.
Variable V : eqType.

(** x0, y0 = pos[u] and x0, y0, z0 = pos[u]: the number of targets must be the number of coordinates *)
Definition unpack (k : nat) (p : seq R) : pres (seq R) := if size p == k then POk p else PRaise PValueError.
(** lines 127-129, 139-141 and 155-160 *)
Definition ends (pos : V -> seq R) (k : nat) (e : V * V) : pres (seq R * seq R) :=
  pbind (unpack k (pos e.1)) (fun p => pbind (unpack k (pos e.2)) (fun q => POk (p, q))).
Fixpoint all_ends (pos : V -> seq R) (k : nat) (es : seq (V * V)) : pres (seq (seq R * seq R)) :=
  if es is e :: es' then pbind (ends pos k e) (fun pq => pbind (all_ends pos k es') (fun r => POk (pq :: r))) else POk [::].
(** lines 130-131 and 142-144: xs.extend([x0, x1, None]) *)
Definition gapped (i : nat) (pqs : seq (seq R * seq R)) : seq (option R) :=
  flatten [seq [:: Some (nth 0 pq.1 i); Some (nth 0 pq.2 i); None] | pq <- pqs].
(** lines 153-171, from edge [j] on. plotly refuses a negative width (ValueError) *)
Fixpoint weighted_lines (pos : V -> seq R) (weights : seq R) (dim j : nat) (es : seq (V * V)) : pres (seq trace) :=
  if es is e :: es' then
    pbind (ends pos (if dim == 2%N then 2%N else 3%N) e) (fun pq =>
      if (size weights <= j)%N then PRaise PIndexError
      else let w := 2%:R * nth 0 weights j in
      if w < 0 then PRaise PValueError
      else pbind (weighted_lines pos weights dim j.+1 es') (fun r =>
        POk (Trace (gapped 0 [:: pq]) (gapped 1 [:: pq]) (if dim == 3%N then Some (gapped 2 [:: pq]) else None) w :: r)))
  else POk [::].
(** plotly.py:113-172. [width] is the width of the unweighted lines (0.5 unless line_params sets it) *)
Definition lines_straight (es : seq (V * V)) (pos : V -> seq R) (weights : option (seq R)) (dim : nat) (width : R) : pres (seq trace) :=
  match weights with
  | None =>
    if dim == 2%N then pbind (all_ends pos 2 es) (fun pqs => POk [:: Trace (gapped 0 pqs) (gapped 1 pqs) None width])
    else if dim == 3%N then pbind (all_ends pos 3 es) (fun pqs => POk [:: Trace (gapped 0 pqs) (gapped 1 pqs) (Some (gapped 2 pqs)) width])
    else PRaise PValueError
  | Some w => weighted_lines pos w dim 0 es
  end.

(** line 298: [edge["weight"] for edge in G.edges.values()]; an edge without the attribute raises *)
Fixpoint edge_weights (ws : seq (option R)) : pres (seq R) :=
  if ws is w :: ws' then
    match w with None => PRaise PKeyError | Some x => pbind (edge_weights ws') (fun r => POk (x :: r)) end
  else POk [::].
(** line 299: networkx counts a loop twice *)
Definition degree (es : seq (V * V)) (v : V) : nat := \sum_(e <- es) ((e.1 == v) + (e.2 == v)).
(** plotly.py:289-359: positions of the nodes, their texts (label, degree), and the traces of the edges.
    [pos] is fruchterman_reingold_layout: [dim] coordinates for every node *)
Definition plot_network (L : Type) (nodes : seq V) (es : seq (V * V)) (ws : seq (option R)) (pos : V -> seq R) (labels : seq L)
    (with_weights : bool) (dim : nat) (width : R) : pres (seq (seq R) * seq (L * nat) * seq trace) :=
  let known := (dim == 2%N) || (dim == 3%N) in
  (* lines 293-296: Xn, Yn = pos_vals has no rows if there is no node *)
  if known && (nodes == [::]) then PRaise PValueError
  else pbind (if with_weights then pbind (edge_weights ws) (fun w => POk (Some w)) else POk None) (fun weights =>
    (* line 299: np.array(G.degree)[:, 1] *)
    if nodes == [::] then PRaise PIndexError
    else pbind (lines_straight es pos weights dim width) (fun traces =>
      (* line 312: Xn is not defined in another dimension *)
      if ~~ known then PRaise PNameError
      else POk ([seq pos v | v <- nodes], zip labels [seq degree es v | v <- nodes], traces))).
End Lines.
