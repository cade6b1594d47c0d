(** C137: make_multiclass_dataset; C138: make_dataset; C139: make_fede and make_sparse_low_rank. *)
From Coq Require Import Reals String.
From mathcomp Require Import all_ssreflect all_algebra.
From Verif Require Import RStruct NP Str S_Mat Spectral RMx RTac M_Utils S_Utils P_Utils2 M_Fit P_Fit M_Ising P_Ising7 M_Poisson M_Gauss P_Gauss3 P_LGL T_Gauss
  M_Dataset P_Dataset P_Fede.
Import Order.TTheory GRing.Theory Num.Theory.

Set Implicit Arguments.
Unset Strict Implicit.
Unset Printing Implicit Defensive.
Local Open Scope ring_scope.

(** * C138: make_dataset *)

(** the generated values, for the Gaussian distribution *)
Definition generated p (mode : gmode p) (default : ires (gen_value p)) gens : ires (gen_value p) :=
  match mode with
  | NoMode => default
  | Func v => v
  | Mode s => if s \in modes then mode_value gens s else IRaise IValueError
  end.

(** [sample t i] is row i of class t: X and y list the classes one after the other, n rows each. Grouping the rows by label, as the
    estimators' fit does, gives back the rows of every class in order, and the distinct labels are 0, ..., T - 1. *)
Definition grouped p (n T : nat) (sample : nat -> nat -> 'rV[R]_p) (X : seq 'rV[R]_p) (y : seq nat) : Prop :=
  [/\ size X = (T * n)%N /\ size y = (T * n)%N,
      forall t i, (t < T)%N -> (i < n)%N -> nth 0%N y (t * n + i) = t /\ nth 0 X (t * n + i) = sample t i,
      forall t, (t < T)%N -> rows_of (zip X y) t = [seq sample t i | i <- iota 0 n] &
      (0 < n)%N -> np_unique y = iota 0 T].

Lemma labelled_grouped p T n data (X : seq 'rV[R]_p) y : labelled T n data X y ->
  grouped n T (fun t i => nth 0 (nth [::] data t) i) X y /\
  data = [seq [seq nth 0 (nth [::] data t) i | i <- iota 0 n] | t <- iota 0 T].
Proof.
move=> lb; have [s1 s2 s3 s4] := labelled_rows lb; have [sd sz _ _] := lb; split.
  by split=> // t tT; rewrite s3 // -{1}[nth [::] data t](mkseq_nth 0) sz.
rewrite -{1}[data](mkseq_nth [::]) sd /mkseq; apply/eq_in_map => t; rewrite mem_iota add0n => tT.
by rewrite -{1}[nth [::] data t](mkseq_nth 0) sz.
Qed.

(** Whatever the distribution, the mode, the axis and the random numbers: when make_dataset returns, with T' the number of matrices
    sampled from, X and y are grouped into T' classes, and [data] has the same rows on either axis. *)
Theorem C138_labels p n (mode : gmode p) axis ut degree lower default gens mvn it d pt pois noise b :
  make_dataset n mode axis ut degree lower default gens mvn it d pt pois noise = DOk b ->
  exists T' (sample : nat -> nat -> 'rV[R]_p), [/\ (0 < T')%N, grouped n T' sample (b_X b) (b_y b) &
    match b_data b with
    | TimeFirst data => axis <> "last"%string /\ data = [seq [seq sample t i | i <- iota 0 n] | t <- iota 0 T']
    | TimeLast data => axis = "last"%string /\ size data = n /\
                       forall i (j : 'I_p), (i < n)%N -> nth (fun=> [::]) data i j = [seq sample t i 0 j | t <- iota 0 T']
    end].
Proof.
pose Goal := exists T' (sample : nat -> nat -> 'rV[R]_p), [/\ (0 < T')%N, grouped n T' sample (b_X b) (b_y b) &
    match b_data b with
    | TimeFirst data => axis <> "last"%string /\ data = [seq [seq sample t i | i <- iota 0 n] | t <- iota 0 T']
    | TimeLast data => axis = "last"%string /\ size data = n /\
                       forall i (j : 'I_p), (i < n)%N -> nth (fun=> [::]) data i j = [seq sample t i 0 j | t <- iota 0 T']
    end].
have gen T' data : (0 < T')%N -> labelled T' n data (b_X b) (b_y b) ->
    b_data b = (if axis == "last"%string then TimeLast (transpose120 n data) else TimeFirst data) -> Goal.
  move=> T0 lb eb; have [g dE] := labelled_grouped lb; have [sd sz _ _] := lb.
  exists T', (fun t i => nth 0 (nth [::] data t) i); split=> //; rewrite eb; case: eqP => ax; split=> //.
  split; first by rewrite size_map size_iota.
  move=> i j iN; rewrite (nth_map 0%N) ?size_iota // nth_iota // add0n -{1}[data](mkseq_nth [::]) sd /mkseq -map_comp.
  exact: eq_map.
rewrite /make_dataset; case: ifP => _.
  by move=> /gaussian_ok [ths [obs [ells [data [lb _ _ _ [o0 _ eb _]]]]]]; exact: gen lb eb.
case: ifP => _; first by move=> /ising_ok [ths [data [_ lb _ [t0 _] [eb _]]]]; exact: gen lb eb.
by case: ifP => _ // /poisson_ok [ths [data [_ lb _ t0 eb]]]; exact: gen lb eb.
Qed.
Print Assumptions C138_labels.

(** Gaussian: T' is the number of observed precision matrices; each of them is invertible, and the rows of time t are drawn with its
    inverse as covariance; positive definite when it is. *)
Theorem C138_gaussian p n (mode : gmode p) axis ut degree default gens mvn it d pt pois noise b :
  make_dataset n mode axis ut degree "gaussian" default gens mvn it d pt pois noise = DOk b ->
  exists thetas obs ells, [/\ generated mode (default degree) (gens degree) = IOk (Three thetas obs ells), b_thetas b = thetas,
    b_latent b = Some (obs, ells), (0 < size obs)%N &
    forall t, (t < size obs)%N -> exists2 sigma : 'M[R]_p, sigma *m nth 0 obs t = 1%:M /\ (pd (nth 0 obs t) -> pd sigma) &
      rows_of (zip (b_X b) (b_y b)) t = [seq mvn t sigma i | i <- iota 0 n]].
Proof.
rewrite /make_dataset eqxx => /gaussian_ok [ths [obs [ells [data [lb e1 e2 e3 [o0 u eb r]]]]]].
exists ths, obs, ells; split=> // t tT; exists (invmx (nth 0 obs t)).
  by split; [rewrite mulVmx // u // mem_nth | exact: pd_inv].
have [[_ _ -> // _] _] := labelled_grouped lb; apply/eq_in_map => i; rewrite mem_iota add0n => iN; exact: r.
Qed.
Print Assumptions C138_gaussian.

(** Ising: T' is the number of graphs, n is at least 1; the entries are -1 and 1; the returned graphs have a zero diagonal. With one
    sample per time and time on the last axis, ValueError. *)
Theorem C138_ising p n (mode : gmode p) axis ut degree default gens mvn it d pt pois noise :
  match make_dataset n mode axis ut degree "ising" default gens mvn it d pt pois noise with
  | DOk b => exists thetas, [/\ it ut = IOk thetas, (0 < n)%N, size (b_X b) = (size thetas * n)%N,
      forall x j, x \in b_X b -> x 0 j = - 1 \/ x 0 j = 1 &
      size (b_thetas b) = size thetas /\ forall t i j, (t < size thetas)%N ->
        nth 0 (b_thetas b) t i j = if i == j then 0 else nth 0 thetas t i j]
  | DRaise _ => True
  end /\
  (n = 1%N -> axis = "last"%string -> forall b, make_dataset n mode axis ut degree "ising" default gens mvn it d pt pois noise <> DOk b).
Proof.
split; last first.
  move=> -> -> b; rewrite /make_dataset /= /ising_case; case: (it ut) => // ths; case: ising_samples => [[data tt]|] //.
  by rewrite /pack; case: (size data).
case E: make_dataset => [b|] //; move: E; rewrite /make_dataset /= => /ising_ok [ths [data [e lb e1 [t0 n0] [_ h]]]].
have [[[sX _] _ _ _] _] := labelled_grouped lb.
exists ths; split=> //; rewrite e1 size_map; split=> // t i j tT; by rewrite (nth_map 0) // mxE.
Qed.
Print Assumptions C138_ising.

(** Expected of the documentation: the modes "evolving", "fixed", "l1" and "l1l2" generate a data set. Refuted: ValueError, whatever
    the other parameters; so do the listed modes "my", "mys" and "ticc" whenever their generator returns. *)
Theorem C138_modes_refuted p n (mode : string) axis ut degree default (gens : nat -> string -> ires (gen_value p)) mvn it d pt pois noise :
  let run := make_dataset n (Mode mode) axis ut degree "gaussian" default gens mvn it d pt pois noise in
  (mode \in [:: "evolving"; "fixed"; "l1"; "l1l2"]%string -> run = DRaise (DErr IValueError)) /\
  (mode \in [:: "my"; "mys"; "ticc"]%string -> (exists v, gens degree mode = IOk v) -> run = DRaise (DErr IValueError)).
Proof.
split; rewrite /make_dataset eqxx /gaussian_case.
  by rewrite !inE => /or4P [] /eqP ->.
by rewrite /mode_value !inE => /or3P [] /eqP -> [v ->].
Qed.
Print Assumptions C138_modes_refuted.

(** Expected: T times in the data set. Refuted for mode "sincos": only the samples of the last time, all with label 0, although
    there are T matrices in thetas. *)
Theorem C138_sincos_refuted p n axis ut degree default (gens : nat -> string -> ires (gen_value p)) mvn it d pt pois noise b
    chol T (L : 'M[R]_p) theta ells :
  gens degree "sincos"%string = (match make_sin_cos chol T L theta with IOk (ths, obs) => IOk (Three ths obs ells) | IRaise e => IRaise e end) ->
  make_dataset n (Mode "sincos") axis ut degree "gaussian" default gens mvn it d pt pois noise = DOk b ->
  size (b_thetas b) = T /\ size (b_X b) = n /\ forall k, k \in b_y b -> k = 0%N.
Proof.
move=> eg; rewrite /make_dataset eqxx => /gaussian_ok [ths [obs [ells' [data [lb e1 _ e3 _]]]]]; move: e3.
rewrite [_ \in modes]/= /mode_value /= eg; case E: make_sin_cos => [[t1 o1]|] // [et eo _]; rewrite e1 -et; subst o1.
have [h _] := C132_sin_cos_refuted chol L theta; have [sz oE] := h _ _ _ E; rewrite oE /= in lb.
have [[[sX sy] yn _ _] _] := labelled_grouped lb; split=> //; split; first by rewrite sX mul1n.
move=> k /(nthP 0%N) [i iy <-]; have [] := yn 0%N i => //; first by move: iy; rewrite sy mul1n.
Qed.
Print Assumptions C138_sincos_refuted.

(** Expected: [degree] is a parameter of the generated graph. Refuted for the Ising and the Poisson distributions, where it has no
    effect. *)
Theorem C138_degree_refuted p n (mode : gmode p) axis ut lower default gens mvn it d pt pois noise degree degree' :
  lower \in [:: "ising"; "poisson"]%string ->
  make_dataset n mode axis ut degree lower default gens mvn it d pt pois noise =
  make_dataset n mode axis ut degree' lower default gens mvn it d pt pois noise.
Proof. by rewrite !inE => /orP [] /eqP ->. Qed.
Print Assumptions C138_degree_refuted.

(** the value of make_covariance, as the three lists *)
Definition cov_value p h (r : option (ires (seq ('M[R]_p * 'M[R]_p * 'M[R]_(h, p))))) : ires (gen_value p) :=
  match r with
  | Some (IOk l) => IOk (Three [seq x.1.1 | x <- l] [seq x.1.1 - x.1.2 | x <- l] [seq x.1.2 | x <- l])
  | Some (IRaise e) => IRaise e
  | None => IRaise IValueError
  end.
(** Default mode, T > 0: the data set has T times; the ells are positive semidefinite of rank n_dim_lat and thetas_observed is
    thetas - ells. *)
Theorem C138_default p n h axis ut degree gens mvn it d pt pois noise b chol eigh T ue normalize no epsilon (K0 : 'M[R]_(h, p))
    choice dr fuel :
  (forall n, chol_ok (@chol n)) -> (forall n, eigh_ok (@eigh n)) -> choice_ok choice -> 0 <= epsilon ->
  (forall t n, size (cd_pairs (dr t) n) = no) -> (0 < T)%N ->
  make_dataset n NoMode axis ut degree "gaussian" (fun degree =>
    cov_value (make_covariance chol eigh T ue ut normalize degree no epsilon K0 choice dr fuel)) gens mvn it d pt pois noise = DOk b ->
  size (b_X b) = (T * n)%N /\ exists obs ells, [/\ b_latent b = Some (obs, ells), size (b_thetas b) = T, size obs = T, size ells = T &
    forall t, (t < T)%N -> [/\ nth 0 obs t = nth 0 (b_thetas b) t - nth 0 ells t, psd (nth 0 ells t) & \rank (nth 0 ells t) = h]].
Proof.
move=> cok eok cho e0 szp T0; rewrite /make_dataset eqxx => /gaussian_ok [ths [obs [ells [data [lb e1 e2 e3 _]]]]].
move: e3; rewrite /cov_value; case E: make_covariance => [[l|]|] // [tE oE eE].
have [sz h1] := C53_all_times cok eok cho e0 szp E; have sT : size l = T by rewrite sz; apply/maxn_idPr.
have so : size obs = T by rewrite -oE size_map.
rewrite so in lb; have [[[sX _] _ _ _] _] := labelled_grouped lb; split=> //; exists obs, ells.
rewrite e1 e2 -tE -eE -oE !size_map; split=> // t tT; rewrite !(nth_map (0, 0, 0)) ?sT //.
case E2: (nth _ l t) => [[theta L] K] /=; have [] := h1 t theta L K; rewrite ?E2 //; first by rewrite -sz sT.
by move=> [_ LE r _] _; split=> //; rewrite LE; have := psd_gram K^T; rewrite trmxK.
Qed.
Print Assumptions C138_default.

Example C138_case : exists b : bunch 1,
  make_dataset 2 NoMode "last" "l2" 2 "gaussian" (fun=> IOk (Three [:: 1%:M; 1%:M] [:: 1%:M; 1%:M] [:: 0; 0])) (fun _ _ => IOk (NotThree 1))
    (fun t _ i => const_mx (t + i)%:R) (fun=> IOk [::]) (fun=> Draws (fun _ _ => 0) (fun _ _ _ _ => 0) (fun=> [::])) (fun=> IOk [::])
    (fun _ _ _ _ => 0%N) (fun _ _ _ => 0%N) = DOk b /\ b_y b = [:: 0; 0; 1; 1]%N.
Proof. by rewrite /make_dataset /gaussian_case /= !unitmx1 /=; eexists; split; first reflexivity. Qed.
Example C138_ising_case dr : exists b : bunch 1,
  make_dataset 2 NoMode "first" "l2" 2 "ising" (fun=> IOk (NotThree 1)) (fun _ _ => IOk (NotThree 1))
    (fun t _ i => const_mx (t + i)%:R) (fun=> IOk [:: 0; 0]) dr (fun=> IOk [::])
    (fun _ _ _ _ => 0%N) (fun _ _ _ => 0%N) = DOk b /\ size (b_X b) = 4%N.
Proof.
rewrite /make_dataset /ising_case [ising_samples]lock /= -lock /=.
by rewrite /ising_sampler trmx0 eqxx /=; eexists; split; first reflexivity.
Qed.

(** * C137: make_multiclass_dataset *)

(** a graph: symmetric, zeros and ones, no loop *)
Definition graph p (B : 'M[R]_p) : Prop := [/\ B = B^T, forall i j, B i j = 0 \/ B i j = 1 & forall i, B i i = 0].

(** When it returns, for at least one class: n_classes binary networks, the first being the drawn graph, all symmetric with entries 0 and
    1; there is a data set exactly for the distributions asked for (an unknown one is ignored), each grouped into n_classes classes of n
    rows. *)
Theorem C137_classes p n (B : 'M[R]_p) nc asked U U' add remove mvn d pois noise r bins : graph B -> (0 < nc)%N ->
  make_multiclass_dataset n B nc asked U U' add remove mvn d pois noise = DOk (r, bins) ->
  [/\ size bins = nc, nth 0 bins 0 = B, forall K, K \in bins -> K = K^T /\ forall i j, K i j = 0 \/ K i j = 1,
      [/\ isSome (cl_gaussian r) = asked "gaussian"%string, isSome (cl_poisson r) = asked "poisson"%string &
          isSome (cl_ising r) = asked "ising"%string] &
      forall b, [\/ cl_gaussian r = Some b, cl_poisson r = Some b | cl_ising r = Some b] ->
        exists sample, grouped n nc sample (b_X b) (b_y b)].
Proof.
case=> sB B01 _ nc0; rewrite /make_multiclass_dataset /generate_multiple_class_dataset.
case E: class_binaries => [bs|] //; have [sz z h] := binaries_ok E.
have sc : size bs = nc by rewrite sz; apply/maxn_idPr.
have mem K : K \in bs -> K = K^T /\ forall i j, K i j = 0 \/ K i j = 1.
  move=> /(nthP 0) [[|i] il <-]; first by rewrite z.
  by split; [exact: new_class_sym (h i il) | exact: new_class_01 (h i il)].
rewrite /sample /=.
case G: generation => [g|] //; case P: generation => [po|] //; case I: generation => [si|] // -[<- <-] /=.
split=> //; first split.
- by move: G; case: (asked _) => /=; [case: class_gaussian => // ? [<-] | case=> <-].
- by move: P; case: (asked _) => /=; [case: class_poisson => // ? [<-] | case=> <-].
- by move: I; case: (asked _) => /=; [case: class_ising => // ? [<-] | case=> <-].
move=> b [] e.
- move: G; rewrite e; case: (asked _) => //=; case C: class_gaussian => [b'|] // -[<-].
  have [|data [lb _ _ _]] := class_gaussian_ok _ C; first by rewrite size_map.
  by have [g0 _] := labelled_grouped lb; eexists; exact: g0.
- move: P; rewrite e; case: (asked _) => //=; case C: class_poisson => [b'|] // -[<-].
  have [//|data [lb _]] := class_poisson_ok _ C.
  by have [g0 _] := labelled_grouped lb; eexists; exact: g0.
- move: I; rewrite e; case: (asked _) => //=; case C: class_ising => [b'|] // -[<-].
  have [|data [lb _ _]] := class_ising_ok _ C; first by rewrite size_map.
  by have [g0 _] := labelled_grouped lb; eexists; exact: g0.
Qed.
Print Assumptions C137_classes.

(** Expected: a new class adds and removes edges at about a tenth of the positions. Refuted: every other class differs from the first in at
    most one absent and one present pair, whatever the size of the graph; the second class never gets a new edge, only possibly a loop at the
    first vertex, which it does get for the last drawn number 1 once the graph has 10 absent positions. *)
Theorem C137_changes_refuted q (B : 'M[R]_q.+1) nc add remove bins : graph B -> class_binaries B nc add remove = IOk bins ->
  (forall k, (0 < k < size bins)%N -> exists r c r' c', forall a b, nth 0 bins k a b != B a b ->
    (B a b = 0 /\ ((a, b) = (r, c) \/ (a, b) = (c, r))) \/ (B a b = 1 /\ ((a, b) = (r', c') \/ (a, b) = (c', r')))) /\
  ((1 < size bins)%N -> (forall a b, a != b -> nth 0 bins 1 a b = 1 -> B a b = 1) /\
     ((10 <= size (zeros B))%N -> add 0%N (size (zeros B) %/ 10).-1 -> nth 0 bins 1 ord0 ord0 = 1)).
Proof.
case=> sB B01 Bd E; have [sz z h] := binaries_ok E; split.
  move=> [|k] //= kl; have [r [c [r' [c' hh]]]] := new_class_changes (ltn0Sn q) sB (h k kl); exists r, c, r', c' => a b ne.
  have [ok|[n0 pr]] := hh a b ne; [by left | right; split=> //].
  by case: (B01 a b) n0 => // ->; rewrite eqxx.
move=> s1; have [h1 h2] := first_class sB (Bd ord0) (h 0%N s1); split.
  move=> a b ab e; have := h1 a b ab; rewrite e oner_eq0 => /(_ isT).
  by case: (B01 a b) => // ->; rewrite eqxx.
by move=> big; rewrite (h2 big) => ->.
Qed.
Print Assumptions C137_changes_refuted.

(** the Gaussian networks: symmetric, with ones on the diagonal, off the diagonal zero where the binary network is, otherwise a
    number of [-1/2, 1/2] common to all the classes; and when a data set is returned, its class t is drawn with the inverse of network t *)
Theorem C137_gaussian p n (B : 'M[R]_p) nc asked (U U' : 'M[R]_p) add remove mvn d pois noise r bins b : graph B -> (0 < nc)%N ->
  (forall i j, 0 <= U i j < 1) ->
  make_multiclass_dataset n B nc asked U U' add remove mvn d pois noise = DOk (r, bins) -> cl_gaussian r = Some b ->
  exists A : 'M[R]_p, (forall i j, A i j = A j i /\ `|A i j| <= 1 / 2%:R) /\ size (b_thetas b) = nc /\
    forall t, (t < nc)%N -> let K := nth 0 (b_thetas b) t in
      [/\ K^T = K, forall i, K i i = 1, forall i j, i != j -> K i j = if nth 0 bins t i j == 0 then 0 else A i j, K \in unitmx &
          rows_of (zip (b_X b) (b_y b)) t = [seq mvn t (invmx K) i | i <- iota 0 n]].
Proof.
case=> sB B01 _ nc0 U01; rewrite /make_multiclass_dataset /generate_multiple_class_dataset.
case E: class_binaries => [bs|] //; have [sz z h] := binaries_ok E.
have sc : size bs = nc by rewrite sz; apply/maxn_idPr.
rewrite /sample /=.
case G: generation => [g|] //; case: generation => [po|] //; case: generation => [si|] // -[<- <-] /= eg.
move: G; rewrite eg; case: (asked _) => //=; case C: class_gaussian => [b'|] // -[eb]; subst b'.
have [|data [lb tE u rr]] := class_gaussian_ok _ C; first by rewrite size_map.
exists (gaussian_weights U); split; first by move=> i j; exact: gaussian_weights_ok.
split; first by rewrite tE size_map.
move=> t tT; set K := nth 0 (b_thetas b) t.
have KE : K = weighted (gaussian_weights U) (nth 0 bs t) by rewrite /K tE (nth_map 0) ?sc.
have sb : nth 0 bs t = (nth 0 bs t)^T.
  by case: t tT {K KE} => [|t] tT; [rewrite z | apply: new_class_sym (h t _); rewrite ?sc].
have sA i j : gaussian_weights U i j = gaussian_weights U j i by have [] := gaussian_weights_ok i j U01.
have [w1 w2 w3] := weightedE sA sb; split.
- by rewrite KE -w1.
- by move=> i; rewrite KE.
- by move=> i j ij; rewrite KE w3.
- by apply: u; rewrite /K tE; apply: mem_nth; rewrite size_map sc.
have [[_ _ -> // _] _] := labelled_grouped lb; apply/eq_in_map => i; rewrite mem_iota add0n => iN.
by rewrite rr // /K tE.
Qed.
Print Assumptions C137_gaussian.

(** Expected: the Gaussian networks are precision matrices (positive definite). Refuted: four vertices all joined, every draw 0; the network
    is invertible, so that the generation goes on. *)
Definition k4 : 'M[R]_4 := \matrix_(i, j) (i != j)%:R.
Definition k4K : 'M[R]_4 := \matrix_(i, j) if i == j then 1 else - (1 / 2%:R).
Theorem C137_precision_refuted add remove : graph k4 /\
  (exists U' nets, generate_multiple_class_dataset k4 1 (fun s => s == "gaussian"%string) 0 U' add remove = IOk nets /\
                   nw_gaussian nets = Some [:: k4K]) /\
  k4K \in unitmx /\ ~ psd k4K.
Proof.
split.
  split; first by apply/matrixP => i j; rewrite !mxE eq_sym.
    by move=> i j; rewrite mxE; case: (i == j); [left|right].
  by move=> i; rewrite mxE eqxx.
split.
  exists 0; rewrite /generate_multiple_class_dataset /=; eexists; split; first reflexivity.
  congr (Some [:: _]); apply/matrixP => i j; rewrite !mxE; case: eqP => //= _; rewrite oner_eq0 /=; mcfield.
split.
  have [] := @mulmx1_unit _ _ k4K ((2%:R / 3%:R) *: \matrix_(i, j) (if i == j then 0 else - 1)) => //.
  apply/matrixP => i j; rewrite mxE !big_ord_recl big_ord0 !mxE.
  case: i => [[|[|[|[|]]]] ?] //; case: j => [[|[|[|[|]]]] ?] //=; mcfield.
move=> [_ /(_ (const_mx 1))]; rewrite quadE !big_ord_recl !big_ord0 !mxE /=; apply/negP; rewrite -ltNge; mclra.
Qed.
Print Assumptions C137_precision_refuted.

(** Expected: as many labels as rows. Refuted for n_classes = 0: there is still one class of data, without labels. *)
Theorem C137_no_class_refuted p n (B : 'M[R]_p) asked U U' add remove mvn d pois noise r bins b :
  make_multiclass_dataset n B 0 asked U U' add remove mvn d pois noise = DOk (r, bins) ->
  cl_gaussian r = Some b -> size (b_X b) = n /\ b_y b = [::].
Proof.
rewrite /make_multiclass_dataset /generate_multiple_class_dataset /= /sample /=.
case G: generation => [g|] //; case: generation => [po|] //; case: generation => [si|] // -[<- _] /= eg.
move: G; rewrite eg; case: (asked _) => //=; rewrite /class_gaussian; case: ifP => // _.
by rewrite /class_bunch /= => -[<-] /=; rewrite cats0 size_map size_iota.
Qed.
Print Assumptions C137_no_class_refuted.

(** the Ising networks: entries -1, 0, 1 off the diagonal on the edges of the binary network; the returned networks have a zero diagonal
    and the data entries are -1 and 1 *)
Theorem C137_ising p n (B : 'M[R]_p) nc asked U (U' : 'M[R]_p) add remove mvn d pois noise r bins b : graph B -> (0 < nc)%N ->
  make_multiclass_dataset n B nc asked U U' add remove mvn d pois noise = DOk (r, bins) -> cl_ising r = Some b ->
  (forall x j, x \in b_X b -> x 0 j = - 1 \/ x 0 j = 1) /\ size (b_thetas b) = nc /\
  forall t i j, (t < nc)%N -> let K := nth 0 (b_thetas b) t in
    [/\ K i j = K j i, K i i = 0, nth 0 bins t i j = 0 -> K i j = 0 & [\/ K i j = -1, K i j = 0 | K i j = 1]].
Proof.
case=> sB B01 _ nc0; rewrite /make_multiclass_dataset /generate_multiple_class_dataset.
case E: class_binaries => [bs|] //; have [sz z h] := binaries_ok E.
have sc : size bs = nc by rewrite sz; apply/maxn_idPr.
rewrite /sample /=.
case: generation => [g|] //; case: generation => [po|] //; case G: generation => [si|] // -[<- <-] /= eg.
move: G; rewrite eg; case: (asked _) => //=; case C: class_ising => [b'|] // -[eb]; subst b'.
have [|data [lb tE rr]] := class_ising_ok _ C; first by rewrite size_map.
split=> //; split; first by rewrite tE !size_map.
move=> t i j tT; rewrite tE !(nth_map 0) ?size_map ?sc //.
have sb : nth 0 bs t = (nth 0 bs t)^T.
  by case: t tT => [|t] tT; [rewrite z | apply: new_class_sym (h t _); rewrite ?sc].
have sA a c : ising_weights U' a c = ising_weights U' c a by rewrite !mxE addrC.
have [w1 w2 w3] := weightedE sA sb.
have wz a c : zero_diagonal (weighted (ising_weights U') (nth 0 bs t)) a c =
    if a == c then 0 else weighted (ising_weights U') (nth 0 bs t) a c by rewrite mxE.
split; rewrite ?wz ?eqxx //.
- by rewrite eq_sym; case: ifP => // _; rewrite {1}w1 mxE.
- by case: (eqVneq i j) => // ij e; rewrite w3 // e eqxx.
case: (eqVneq i j) => [_|ij]; first by constructor 2.
rewrite w3 //; case: ifP => _; first by constructor 2.
rewrite mxE; case: sgrP => _; by [constructor 2 | constructor 3 | constructor 1].
Qed.
Print Assumptions C137_ising.

Definition edge2 : 'M[R]_2 := \matrix_(i, j) (i != j)%:R.
Lemma small_positions (f : 'I_2 -> 'I_2 -> bool) : (size (positions f) %/ 10)%N = 0%N.
Proof.
apply: divn_small; apply: (@leq_ltn_trans 4) => //; rewrite size_filter; apply: leq_trans (count_size _ _) _.
by rewrite size_allpairs -cardE card_ord.
Qed.
Example C137_case : graph edge2 /\ exists r,
  make_multiclass_dataset 3 edge2 2 (fun s => s == "gaussian"%string) (const_mx (2%:R^-1)) 0 (fun _ _ => true) (fun _ _ => false)
    (fun _ _ _ => 0) (fun=> Draws (fun _ _ => 0) (fun _ _ _ _ => 0) (fun=> [::])) (fun _ _ _ _ => 1%N) (fun _ _ _ => 0%N) = DOk r.
Proof.
split.
  split; first by apply/matrixP => i j; rewrite !mxE eq_sym.
    by move=> i j; rewrite mxE; case: (i == j); [left|right].
  by move=> i; rewrite mxE eqxx.
rewrite /make_multiclass_dataset /generate_multiple_class_dataset /class_binaries /= /new_class /zeros /nonzero !small_positions /=.
rewrite /sample /= /class_gaussian /=.
have -> : weighted (gaussian_weights (const_mx 2%:R^-1)) edge2 = 1%:M.
  apply/matrixP => i j; rewrite !mxE; case: (eqVneq i j) => //= _; rewrite oner_eq0 /= !subrr addr0 mulr0 //.
by rewrite unitmx1 /=; eexists; reflexivity.
Qed.

(** * C139: generators without checks *)

(** make_fede, for numbers drawn in [0, 1): T triples (K, K - L, L); K symmetric, L positive semidefinite of rank at most n_dim_lat; the
    observed precision is positive definite up to the threshold: v^T (K - L) v > - epsilon p |v|^2. In particular it is positive definite
    when epsilon <= 0 (no threshold). *)
Theorem C139_fede eigh p T epsilon (b b' : 'rV[R]_p) u0 idx ul0 us ul t : (forall n, eigh_ok (@eigh n)) ->
  (forall i, 0 <= u0 i) -> (forall k, 0 <= ul0 k < 1) -> (forall t i, 0 <= us t i) -> (forall t k, ul t k < 1) -> (t < T)%N ->
  let out := make_fede eigh T epsilon b b' u0 idx ul0 us ul in
  size out = T /\ exists K L : 'M[R]_p, [/\ nth (0, 0, 0) out t = (K, K - L, L), K^T = K, psd L, (\rank L <= size idx)%N &
    (forall v, v != 0 -> - (Num.max epsilon 0 * p%:R * quad 1%:M v) < quad (K - L) v) /\ (epsilon <= 0 -> pd (K - L))].
Proof.
move=> ok hu hl hus hul tT out; split.
  exact: fede_size.
have og (x : 'rV[R]_p) : orthogonal (eigh p (x^T *m x)).2.
  have := ok p (x^T *m x); case: (eigh p _) => es Q /= []; first by rewrite /sym trmx_mul trmxK.
  by move=> o _; rewrite /orthogonal; apply: mulmx1C.
have hl0 i : 0 <= set_at (fun=> 0) idx (fun (k : nat) (_ : R) => ul0 k) i < 1.
  by rewrite /set_at; case: ifP => _; [exact: hl | rewrite lexx ltr01].
have [] := @fede_nth p (eigh p (b^T *m b)).2 (eigh p (b'^T *m b')).2 epsilon idx us ul hus hul T (fun i => u0 i + 1)
    (set_at (fun=> 0) idx (fun (k : nat) (_ : R) => ul0 k)) 0%N 1 t => //.
- exact: ler01.
- by move=> i; rewrite ler_addr.
- by move=> i ii; rewrite /set_at (negbTE ii).
move=> s [l [e h1 h2 h3]].
set K := thr epsilon _ in e; set L := sconj _ l in e.
have sL : psd L by apply: psd_sconj => i; have /andP [] := h2 i.
have sK : sym K by apply: thr_sym; exact: sconj_sym.
have low v : v != 0 -> - (Num.max epsilon 0 * p%:R * quad 1%:M v) < quad (K - L) v.
  move=> v0; set K0 := sconj (eigh p (b^T *m b)).2 s.
  have a1 : (1 + t%:R) * quad 1%:M v <= quad K0 v by apply: sconj_lower.
  have a2 : quad L v < (1 + t%:R) * quad 1%:M v by apply: sconj_upper => // i; have /andP [] := h2 i.
  have a3 : `|quad (K0 - K) v| <= Num.max epsilon 0 * p%:R * quad 1%:M v by apply: quad_le_diag => i j; exact: thr_diff.
  have num (x y z w k : R) : x <= z -> w < x -> z + -1 * k <= y -> - y < k + -1 * w by move=> *; mclra.
  have a4 := le_trans (ler_norm _) a3; move: a4; rewrite -!scaleN1r !quadD !quadZ.
  move: a1 a2.
  exact: num.
exists K, L; split=> //; first exact: rank_sconj.
split=> // e0; split; first by apply: symB => //; case: sL.
move=> v v0; have := low v v0; rewrite (max_idPr e0) !mul0r oppr0 //.
Qed.
Print Assumptions C139_fede.

(** Expected: the observed precision matrices are positive definite, for the default threshold 1e-2 of make_dataset. Refuted. *)
Theorem C139_fede_refuted : exists eigh (b b' : 'rV[R]_3) u0 idx ul0 us ul K L, (forall n, eigh_ok (@eigh n)) /\
  [/\ forall j, 0 <= b 0 j < 1, forall j, 0 <= b' 0 j < 1, forall i, 0 <= u0 i < 1, forall k, 0 <= ul0 k < 1 &
      make_fede eigh 1 (1 / 100%:R) b b' u0 idx ul0 us ul = [:: (K, K - L, L)] /\ ~ psd (K - L)].
Proof.
have [eigh ok] := eigh_all.
exists (patch eigh), fb, fb', (fun i => rw3 0 0 (3%:R / 100%:R) 0 i), [:: ord0], (fun=> 249%:R / 250%:R), (fun _ _ => 0), (fun _ _ => 0), fK, fL.
split; first exact: patch_ok.
split.
- by move=> j; rewrite !mxE; case: j => [[|[|[|]]] ?] //=; apply/andP; split; mclra.
- by move=> j; rewrite !mxE; case: j => [[|[|[|]]] ?] //=; apply/andP; split; mclra.
- by move=> j; rewrite !mxE; case: j => [[|[|[|]]] ?] //=; apply/andP; split; mclra.
- by move=> k; apply/andP; split; mclra.
split; last exact: fKL_not.
rewrite /make_fede /= eqxx; have ne : (fb'^T *m fb' == fb^T *m fb) = false.
  apply/negbTE/eqP => /matrixP /(_ 0 0); rewrite !mxE !big_ord_recl !big_ord0 !mxE /= => /eqP; apply/negP.
  by rewrite lt_eqF //; mclra.
rewrite ne eqxx /= -/(thr _ _).
have -> : fQ *m diag_mx (\row_i (rw3 0 0 (3%:R / 100%:R) 0 i + 1)) *m fQ^T = sconj fQ fS.
  rewrite /sconj; congr (_ *m diag_mx _ *m _); apply/rowP => j; rewrite !mxE; case: j => [[|[|[|]]] ?] //=; mcfield.
have -> : fR *m diag_mx (\row_i set_at (fun=> 0) [:: ord0] (fun _ _ => 249%:R / 250%:R) i) *m fR^T = fL.
  rewrite -fL_E /sconj; congr (_ *m diag_mx _ *m _); apply/rowP => j; rewrite !mxE /set_at inE.
  by case: j => [[|[|[|]]] ?].
by rewrite fK_thr.
Qed.
Print Assumptions C139_fede_refuted.

(** make_sparse_low_rank: sums of the drawn matrices; the first component is positive definite when the drawn ones are *)
Theorem C139_sparse_low_rank p T (spd low : nat -> 'M[R]_p) t : (t < maxn 1 T)%N ->
  let out := make_sparse_low_rank T spd low in let K := \sum_(k < t.+1) spd k in let L := \sum_(k < t.+1) low k in
  [/\ size out = maxn 1 T, nth (0, 0, 0) out t = (K, K - L, L) & (forall k, pd (spd k)) -> pd K].
Proof.
move=> tT; have [h1 h2] := slr_nth spd low T; split=> //; first exact: h2.
move=> h; elim: (t) => [|m IH]; first by rewrite big_ord1.
rewrite big_ord_recr /=; case: IH (h m.+1) => s1 h1' [s2 h2']; split; first by apply: symD.
by move=> v v0; rewrite quadD addr_gt0 ?h1' ?h2'.
Qed.
Print Assumptions C139_sparse_low_rank.

(** the singular values sklearn.datasets.make_low_rank_matrix uses (tail_strength 0.5): low = U diag(s) V^T, U and V orthogonal *)
Definition low_rank_matrix p (r : R) (low : 'M[R]_p) : Prop := exists U V : 'M[R]_p, [/\ orthogonal U, orthogonal V &
  low = U *m diag_mx (\row_(i < p) (2%:R^-1 * exp (- ((i%:R / r) ^+ 2)) + 2%:R^-1 * exp (- (10%:R^-1 * (i%:R / r))))) *m V^T].
(** Expected: the observed precision matrices are symmetric, as a Gaussian precision matrix must be. Refuted: nothing makes the low-rank
    part symmetric. *)
Theorem C139_symmetric_refuted : exists (spd low : nat -> 'M[R]_2) (K O L : 'M[R]_2), [/\ forall k, pd (spd k), forall k, low_rank_matrix 1 (low k),
  make_sparse_low_rank 1 spd low = [:: (K, O, L)] & O^T != O].
Proof.
pose V : 'M[R]_2 := \matrix_(i, j) (i != j)%:R.
pose s : 'rV[R]_2 := (\row_(i < 2) (2%:R^-1 * exp (- ((i%:R / 1) ^+ 2)) + 2%:R^-1 * exp (- (10%:R^-1 * (i%:R / 1))))).
pose L : 'M[R]_2 := 1%:M *m diag_mx s *m V^T.
exists (fun=> 1%:M), (fun=> L), 1%:M, (1%:M - L), L; split=> //.
- by move=> _; exact: pd1.
- move=> _; exists 1%:M, V; split=> //; first by rewrite /orthogonal mul1mx trmx1.
  apply/matrixP => i j; rewrite mxE !big_ord_recl big_ord0 !mxE.
  by case: i => [[|[|]] ?] //; case: j => [[|[|]] ?] //=; rewrite ?mulr0 ?mulr1 ?addr0 ?add0r.
apply/eqP => /matrixP /(_ ord0 ord_max); rewrite /L mul1mx mul_diag_mx !mxE /= !mulr1 !add0r => /oppr_inj /eqP.
rewrite !mul0r expr0n /= !mulr0 oppr0 exp_0 !mulr1 !divr1 expr1n; apply/negP; rewrite lt_eqF //.
have lt1 (x : R) : x < 0 -> exp x < 1 by move=> /RltP /exp_increasing; rewrite exp_0 => /RltP.
have e1 : exp (- 1) < 1 by apply: lt1; rewrite oppr_lt0 ltr01.
have e2 : exp (- (10%:R^-1)) < 1 by apply: lt1; rewrite oppr_lt0 invr_gt0 ltr0n.
have num (x y : R) : x < 1 -> y < 1 -> 2%:R^-1 * x + 2%:R^-1 * y < 2%:R^-1 + 2%:R^-1 by move=> *; mclra.
by rewrite mulr1; exact: num.
Qed.
Print Assumptions C139_symmetric_refuted.

Example C139_case : exists eigh : forall n, 'M[R]_n -> 'rV[R]_n * 'M[R]_n, (forall n, eigh_ok (@eigh n)) /\
  (forall j, (0 : R) <= fb 0 j < 1) /\ (0 : R) <= (249%:R / 250%:R : R) < 1.
Proof.
have [eigh ok] := eigh_all; exists (patch eigh); split; first exact: patch_ok.
split; last by apply/andP; split; mclra.
by move=> j; rewrite !mxE; case: j => [[|[|[|]]] ?] //=; apply/andP; split; mclra.
Qed.
