(** Model of display_topics (regain/utils.py:51-72), plot_graph_with_latent_variables and plot_meinshausen_yuan (regain/plotting/graph.py:35-81). *)
From Coq Require Import Reals.
From mathcomp Require Import all_ssreflect all_algebra.
From Verif Require Import RStruct M_Utils.
Import Order.TTheory GRing.Theory Num.Theory.

Set Implicit Arguments.
Unset Strict Implicit.
Unset Printing Implicit Defensive.
Local Open Scope ring_scope.

(** * display_topics *)
Section Topics.
Variables (Name : Type) (argsort : seq R -> seq nat).
(** l[: stop : -1] for an integer stop: from the last element down to the one after stop, a negative stop counting from the end *)
Definition slice_back T (l : seq T) (stop : int) : seq T :=
  let n := (size l)%:Z in
  let stop := if stop < 0 then Num.max (-1) (n + stop) else Num.min stop (n - 1) in
  take (absz (n - 1 - stop)%R) (rev l).
(** lines 58-62: the entries [feature_names[i]] with their weights [topic[i]], before they are formatted *)
Definition topic_words (feature_names : seq Name) (n_top_words : int) (topic : seq R) : res (seq (Name * R)) :=
  (fix go (l : seq nat) : res (seq (Name * R)) :=
    if l is i :: l' then
      if drop i feature_names is w :: _ then
        match go l' with Val r => Val ((w, nth 0 topic i) :: r) | Raise e => Raise e end
      else Raise IndexError
    else Val [::]) (slice_back (argsort topic) (- n_top_words - 1)).
(** lines 67-70: the documents printed under a topic. [W] by columns. A python slice [: n] with a negative n drops the last ones *)
Definition top_documents (Doc : Type) (W : seq (seq R)) (documents : seq Doc) (n_top_documents : int) (print_docs : bool) (k : nat) : res (seq Doc) :=
  if (size W <= k)%N then Raise IndexError
  else
    let l := rev (argsort (nth [::] W k)) in
    let idx := take (if n_top_documents is Posz m then m else (size l - absz n_top_documents)%N) l in
    if print_docs then
      (fix go (l : seq nat) : res (seq Doc) :=
        if l is i :: l' then
          if drop i documents is d :: _ then match go l' with Val r => Val (d :: r) | Raise e => Raise e end else Raise IndexError
        else Val [::]) idx
    else Val [::].
(** lines 55-71: the topics returned, with the documents printed for each *)
Fixpoint topics_from (Doc : Type) (k : nat) (H W : seq (seq R)) (feature_names : seq Name) (documents : seq Doc) (n_top_words n_top_documents : int)
    (print_docs : bool) : res (seq (seq (Name * R) * seq Doc)) :=
  if H is topic :: H' then
    match topic_words feature_names n_top_words topic with
    | Raise e => Raise e
    | Val t => match top_documents W documents n_top_documents print_docs k with
      | Raise e => Raise e
      | Val ds => match topics_from k.+1 H' W feature_names documents n_top_words n_top_documents print_docs with
        | Raise e => Raise e
        | Val r => Val ((t, ds) :: r)
        end
      end
    end
  else Val [::].
Definition display_topics (Doc : Type) := @topics_from Doc 0.
End Topics.

(** * graphs *)
Inductive colour := Red | Blue.
(** what is drawn, in order: discs for the nodes (all of the same size, on the position of their node), and lines for the edges, which stay below the discs
    (networkx draws edges at zorder 1 and nodes at zorder 2) *)
Record graph_plot := GraphPlot { discs : seq (nat * colour); lines : seq (nat * nat) }.
(** graph.py:35-68. nx.from_numpy_matrix makes an undirected graph; draw_networkx_nodes refuses a node without position (NetworkXError, here ValueError).
    The discs of line 50 have alpha 0.8, those of line 56 alpha 1 *)
Definition plot_graph (n : nat) (adjacency : 'M[R]_n) (n_observed : nat) (n_latents : nat) : res graph_plot :=
  let edges := [seq (nat_of_ord ij.1, nat_of_ord ij.2) | ij : 'I_n * 'I_n <- enum {: 'I_n * 'I_n} & (ij.1 <= ij.2)%N && ((adjacency ij.1 ij.2 != 0) || (adjacency ij.2 ij.1 != 0))] in
  if (n < n_latents)%N then Raise ValueError
  else Val (GraphPlot ([seq (v, Red) | v <- iota 0 n_latents] ++ [seq (v, Blue) | v <- iota 0 n]) edges).
(** graph.py:71-81: a segment for every nonzero entry, in the order of np.nonzero *)
Definition plot_meinshausen (n : nat) (locations : seq (R * R)) (theta : 'M[R]_n) : res (seq ((R * R) * (R * R))) :=
  (fix go (l : seq ('I_n * 'I_n)) : res (seq ((R * R) * (R * R))) :=
    if l is ij :: l' then
      if (size locations <= ij.1)%N || (size locations <= ij.2)%N then Raise IndexError
      else match go l' with
           | Val r => Val ((nth (0, 0) locations ij.1, nth (0, 0) locations ij.2) :: r)
           | Raise e => Raise e
           end
    else Val [::]) [seq ij <- enum {: 'I_n * 'I_n} | theta ij.1 ij.2 != 0].
