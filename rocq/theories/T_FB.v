(** Property theorems C51, C111, C112: the searches and the steps of the forward-backward solver. *)
From Coq Require Import Reals Lra String.
From mathcomp Require Import all_ssreflect all_algebra.
From Verif Require Import RStruct RTac LinTac Spectral S_Mat RMx ADMM NP Str M_Prox S_Prox.
From Verif Require Import P_Prox P_Prox2 P_Prox3 M_Loop P_Loop M_GL M_LGL S_Fit P_GL2.
From Verif Require Import M_TGL S_TGL P_TGL M_FB S_FB P_FB P_FB2 P_FB3 P_FB4 P_FB5 P_FB6 P_FB7 P_FB8.
Import Order.TTheory GRing.Theory Num.Theory.

Set Implicit Arguments.
Unset Strict Implicit.
Unset Printing Implicit Defensive.
Local Open Scope ring_scope.

(** the external routines exist *)
Lemma routines_exist n : exists (pinvh : 'M[R]_n -> 'M[R]_n) (is_pos_def : 'M[R]_n -> bool),
  pinvh_ok pinvh /\ pos_def_ok is_pos_def.
Proof.
exists (@invmx _ n).
have ch (A : 'M[R]_n) : exists b : bool, b <-> pd A.
  by case: (Classical_Prop.classic (pd A)) => h; [exists true|exists false].
exists (fun A => proj1_sig (ClassicalEpsilon.constructive_indefinite_description _ (ch A))).
split=> // A _; exact: (proj2_sig (ClassicalEpsilon.constructive_indefinite_description _ (ch A))).
Qed.

(** ** C51: the search of the step length *)
(** the test, for finite values: f(x + lamda (y - x)) - f(x) <= lamda (<y - x, grad> + delta/gamma |y - x|^2) *)
Definition armijo n T (f : stack n T -> xR) (x grad : stack n T) (lamda delta gamma : R) (y : stack n T) : Prop :=
  exists a b : R, [/\ f x = Fin a, f (x + lamda *: (y - x)) = Fin b &
    b - a <= lamda * (sdot (y - x) grad + delta / gamma * sdist2 y x)].
Lemma sdotE n T (X Y : stack n T) : sdot X Y = sip n T X Y. Proof. by rewrite sipE. Qed.
Lemma sdist2E n T (X Y : stack n T) : sdist2 X Y = sip n T (X - Y) (X - Y).
Proof. by rewrite sipE; apply: eq_bigr => t _; rewrite fnorm2E stB. Qed.
Lemma gamma_testP n T (f : stack n T -> xR) x grad lamda delta gamma y :
  (forall z, f z <> NInf) -> (exists a, f x = Fin a) ->
  gamma_test f x grad lamda delta gamma y <-> armijo f x grad lamda delta gamma y.
Proof.
move=> nf [a ea]; rewrite /gamma_test /armijo ea; have := nf (x + lamda *: (y - x)).
rewrite sdist2E sdotE !scalarE; case: (f (x + _)) => [b| | |] // _.
- by split=> [h|[a' [b' [[<-] [<-] h]]]]; [exists a, b|].
- by split=> // -[a' [b' [_]]].
- by split=> // -[a' [b' [_]]].
Qed.
(** the point proposed for a step length *)
Definition proposal n T tv lap beta alpha (x grad : stack n T) (gamma : R) : stack n T :=
  fb_prox tv lap beta alpha gamma (x - gamma *: grad).
(** the first of gamma, gamma eps, gamma eps^2, ... that passes; when none of the first max_iter does,
    the step length returned is eps times the one of the point returned *)
Theorem C51_search : forall n T tv is_pos_def gamma (x : stack n T) beta alpha lamda grad f delta eps max_iter lap g y,
  (forall z, f z <> NInf) -> (exists a, f x = Fin a) ->
  choose_gamma tv is_pos_def gamma x beta alpha lamda grad f delta eps max_iter "gamma" lap = (g, y) ->
  let point := proposal tv lap beta alpha x grad in
  let passes g := armijo f x grad lamda delta g (point g) in
  (exists j, [/\ (j < max_iter)%N, g = gamma * eps ^+ j, y = Some (point g), passes g &
     forall i, (i < j)%N -> ~ passes (gamma * eps ^+ i)]) \/
  [/\ g = gamma * eps ^+ max_iter,
      y = (if max_iter is k.+1 then Some (point (gamma * eps ^+ k)) else None) &
      forall i, (i < max_iter)%N -> ~ passes (gamma * eps ^+ i)].
Proof.
move=> n T tv is_pos_def gamma x beta alpha lamda grad f delta eps k lap g y nf fx.
rewrite /choose_gamma /= => /cgl_spec [[j [h1 h2 h3 h4 h5]]|[h1 h2 h3]]; [left|right].
  exists j; split=> //; first exact/gamma_testP.
  by move=> i /h5 /negP h /(gamma_testP _ _ _ _ _ nf fx); exact: h.
by split=> // i /h3 /negP h /(gamma_testP _ _ _ _ _ nf fx); exact: h.
Qed.
Print Assumptions C51_search.
Theorem C51_positive : forall n T tv is_pos_def gamma (x : stack n T) beta alpha lamda grad f delta eps max_iter choose lap g y,
  choose_gamma tv is_pos_def gamma x beta alpha lamda grad f delta eps max_iter choose lap = (g, y) ->
  0 < gamma -> 0 < eps -> eps <= 1 -> 0 < g /\ g <= gamma.
Proof.
move=> n T tv is_pos_def gamma x beta alpha lamda grad f delta eps k ch lap g y h g0 e0 e1.
have hj j : 0 < gamma * eps ^+ j /\ gamma * eps ^+ j <= gamma.
  by rewrite mulr_gt0 ?exprn_gt0 // ger_pmulr // exprn_ile1 // ltW.
by case: (cgl_spec h) => [[j [_ -> _ _ _]]|[-> _ _]].
Qed.
Print Assumptions C51_positive.
(** at a positive definite point a large enough budget suffices *)
Theorem C51_succeeds : forall n m tv is_pos_def pinvh (S : stack n m.+2) ns p (x : stack n m.+2) gamma lamda delta eps,
  tv_ok tv -> pinvh_ok pinvh -> slices (@sym n) S -> (forall t, 0 <= ns t) ->
  0 <= fb_alpha p -> 0 <= fb_beta p -> 0 <= fb_vareps p -> slices (@pd n) x ->
  0 < gamma -> 0 <= lamda -> 0 < delta -> 0 < eps -> eps < 1 ->
  exists N, forall max_iter, (N <= max_iter)%N ->
    exists g y, [/\ choose_gamma tv is_pos_def gamma x (fb_beta p) (fb_alpha p) lamda (fb_grad pinvh S ns p x)
        (fb_f S (Some ns) p) delta eps max_iter "gamma" (fb_laplacian p) = (g, Some y),
      0 < g, y = proposal tv (fb_laplacian p) (fb_beta p) (fb_alpha p) x (fb_grad pinvh S ns p x) g &
      armijo (fb_f S (Some ns) p) x (fb_grad pinvh S ns p x) lamda delta g y].
Proof.
move=> n m tv is_pos_def pinvh S ns p x gamma lamda delta eps Htv Hp sS ns0 a0 b0 v0 px g0 l0 d0 e0 e1.
have [g1 g1p h1] := accept_small Htv Hp sS ns0 a0 b0 v0 px l0 d0.
have [N hN] := geo_small g0 e0 e1 g1p; exists N.+1 => k Nk.
case E : (choose_gamma _ _ _ _ _ _ _ _ _ _ _ _ _ _) => [g y].
have nf z : fb_f S (Some ns) p z <> NInf by apply: fb_f_not_ninf.
have fx : exists a, fb_f S (Some ns) p x = Fin a by eexists; apply: fb_fE.
have [gp _] := C51_positive E g0 e0 (ltW e1).
case: (C51_search nf fx E) => [[j [_ _ -> hp _]]|[_ _ hno]]; first by exists g, (proposal tv (fb_laplacian p) (fb_beta p) (fb_alpha p) x (fb_grad pinvh S ns p x) g).
case: (hno N Nk); apply/gamma_testP => //.
by apply: (h1 _ _ (hN N (leqnn N))).2; rewrite mulr_gt0 ?exprn_gt0.
Qed.
Print Assumptions C51_succeeds.
(** choose="both": the point returned by a successful search is positive definite *)
Theorem C51_both : forall n T tv is_pos_def gamma (x : stack n T) beta alpha lamda (grad : stack n T) f delta eps max_iter lap g y,
  pos_def_ok is_pos_def -> slices (@sym n) x -> slices (@sym n) grad ->
  choose_gamma tv is_pos_def gamma x beta alpha lamda grad f delta eps max_iter "both" lap = (g, y) ->
  (exists j, [/\ (j < max_iter)%N, g = gamma * eps ^+ j, y = Some (proposal tv lap beta alpha x grad g) &
     slices (@pd n) (proposal tv lap beta alpha x grad g)]) \/
  forall i, (i < max_iter)%N -> ~ slices (@pd n) (proposal tv lap beta alpha x grad (gamma * eps ^+ i)).
Proof.
move=> n T tv is_pos_def gamma x beta alpha lamda grad f delta eps k lap g y Hd sx sg.
have sp gam : slices (@sym n) (proposal tv lap beta alpha x grad gam).
  have sa : slices (@sym n) (x - gam *: grad).
    by move=> t; rewrite stB stZ; apply: symB; [exact: sx|apply: symZ; exact: sg].
  move=> t; rewrite /proposal /fb_prox; move: sa; move: (x - gam *: grad) => a sa.
  case: lap; rewrite ffunE; first exact: sod_sym.
  apply/matrixP => i j; rewrite !mxE eq_sym.
  have e : series a j i = series a i j by apply/rowP => s; rewrite !mxE -{1}(sa s) mxE.
  by case: eqP => [->|_]; rewrite ?e.
have eq gam : [forall t, is_pos_def (proposal tv lap beta alpha x grad gam t)] <-> slices (@pd n) (proposal tv lap beta alpha x grad gam).
  split=> [/forallP h t|h]; first by apply/(Hd _ (sp gam t)).
  by apply/forallP => t; apply/(Hd _ (sp gam t)).
rewrite /choose_gamma /= => /cgl_spec [[j [h1 h2 h3 h4 h5]]|[h1 h2 h3]]; [left|right].
  by exists j; split=> //; apply/eq.
by move=> i /h3 /negP h /eq; exact: h.
Qed.
Print Assumptions C51_both.

(** when the budget is exhausted the step length returned is not the one of the point returned *)
Theorem C51_exhausted_refuted :
  ~ (forall n T tv is_pos_def gamma (x : stack n T) beta alpha lamda grad f delta eps max_iter lap g y,
     tv_ok tv -> 0 < gamma -> 0 < eps -> eps < 1 -> 0 < delta -> 0 < lamda -> 0 <= alpha -> 0 <= beta ->
     (exists a, f x = Fin a) ->
     choose_gamma tv is_pos_def gamma x beta alpha lamda grad f delta eps max_iter "gamma" lap = (g, Some y) ->
     y = proposal tv lap beta alpha x grad g).
Proof.
move=> h; have [tv Htv] := tv2_exists.
pose x : stack 1 2 := [ffun=> 1%:M].
pose f (K : stack 1 2) : xR := if K == x then Fin 0 else PInf.
have half0 : 0 < 2%:R^-1 :> R by rewrite invr_gt0 ltr0n.
have half1 : 2%:R^-1 < 1 :> R by rewrite invf_lt1 ?ltr0n // ltr1n.
have ey (g : R) : proposal tv true 0 0 x x g = [ffun=> (1 - g)%:M] :> stack 1 2.
  apply: stackE => t; rewrite /proposal /fb_prox !ffunE; apply/matrixP => i j.
  by rewrite !mxE !ord1 /= mulr1n mulr1n mulr1.
have ne : x + 1 *: (proposal tv true 0 0 x x 1 - x) != x.
  rewrite ey; apply/eqP => /ffunP /(_ 0) /matrixP /(_ 0 0); rewrite !ffunE !mxE /= mulr1n subrr mul1r sub0r subrr.
  by move/esym/eqP; rewrite oner_eq0.
have := h 1%N 2%N tv (fun=> true) 1 x 0 0 1 x f 1 2%:R^-1 1%N true (2%:R^-1) (proposal tv true 0 0 x x 1) Htv.
rewrite ltr01 half0 half1 lexx; do 7! (move/(_ isT)).
have fx : exists a, f x = Fin a by exists 0; rewrite /f eqxx.
move/(_ fx); rewrite /choose_gamma /= /gamma_test.
rewrite -/(proposal tv true 0 0 x x 1) /f (negbTE ne) eqxx /= mul1r => /(_ erefl).
move=> e; have {e} : proposal tv true 0 0 x x 1 = proposal tv true 0 0 x x 2%:R^-1 := e.
rewrite !ey => /ffunP /(_ 0) /matrixP /(_ 0 0); rewrite !ffunE !mxE /= !mulr1n => e.
by move: e half0; toR; lra.
Qed.
Print Assumptions C51_exhausted_refuted.

(** ** C111: the search of the relaxation parameter *)
Theorem C111_search : forall n T (is_pos_def : 'M[R]_n -> bool) lamda (x : stack n T) gamma delta eps f obj
    (gradf : stack n T -> stack n T) g max_iter criterion (grad y : stack n T),
  let x1 l := x + l *: (y - x) in
  let passes l : Prop :=
    if criterion == "a"%string then
      is_true (sqrt (sdist2 (gradf (x1 l)) grad) <= delta * sqrt (sdist2 (x1 l) x) / (gamma * l))
    else if criterion == "b"%string then
      xleb (xsub (f (x1 l)) (f x)) (Fin (l * (sdot (y - x) grad + delta / gamma * sdist2 y x))) /\
      forall t, is_pos_def (x1 l t)
    else xleb (xsub (obj (x1 l)) (obj x)) (Fin (l * ((1 - delta) * (g y - g x + sdot (y - x) grad)))) in
  match choose_lamda is_pos_def lamda x gamma delta eps f obj gradf g max_iter criterion grad y with
  | SearchUnbound => max_iter = 0%N
  | SearchValueError => (0 < max_iter)%N /\ criterion \notin [:: "a"%string; "b"%string; "c"%string]
  | SearchOk l i => [/\ (0 < max_iter)%N, criterion \in [:: "a"%string; "b"%string; "c"%string] &
      (exists j, [/\ (j < max_iter)%N, i = j.+1, l = lamda * eps ^+ j, passes l &
         forall j', (j' < j)%N -> ~ passes (lamda * eps ^+ j')]) \/
      [/\ i = max_iter, l = lamda * eps ^+ max_iter & forall j', (j' < max_iter)%N -> ~ passes (lamda * eps ^+ j')]]
  end.
Proof.
move=> n T is_pos_def lamda x gamma delta eps f obj gradf g max_iter cr grad y x1 passes.
rewrite /choose_lamda; case: max_iter => // k.
case: ifPn => // /negPn hcr; case E : (choose_lamda_loop _ _ _ _ _) => [l i].
have eqp l' : lamda_accept is_pos_def cr x grad y gamma delta f obj g gradf l' <-> passes l'.
  rewrite /lamda_accept /passes !sdist2E !sdotE !scalarE; case: ifP => // _; case: ifP => // _.
  by split=> [/andP [h1 /forallP h2]|[h1 h2]]; [split|apply/andP; split=> //; apply/forallP].
split=> //; case: (cll_spec E) => [[j [h1 h2 h3 h4 h5]]|[h1 h2 h3]]; [left|right].
  by exists j; split=> //; [apply/eqp|move=> j' /h5 /negP h /eqp; exact: h].
by split=> //; move=> j' /h3 /negP h /eqp; exact: h.
Qed.
Print Assumptions C111_search.
(** criterion "b": a successful search gives a positive definite matrix at every time *)
Theorem C111_positive_definite : forall n T is_pos_def lamda (x : stack n T) gamma delta eps f obj gradf g max_iter (grad y : stack n T) l i,
  pos_def_ok is_pos_def -> slices (@sym n) x -> slices (@sym n) y ->
  choose_lamda is_pos_def lamda x gamma delta eps f obj gradf g max_iter "b" grad y = SearchOk l i -> (i < max_iter)%N ->
  slices (@pd n) (x + l *: (y - x)).
Proof.
move=> n T is_pos_def lamda x gamma delta eps f obj gradf g max_iter grad y l i Hd sx sy.
have := @C111_search n T is_pos_def lamda x gamma delta eps f obj gradf g max_iter "b"%string grad y; cbv zeta.
case: (choose_lamda _ _ _ _ _ _ _ _ _ _ _ _ _ _) => // l' i' [_ _ h] [<- <-] ik.
case: h ik => [[j [_ _ _ [_ hp] _]] _ t|[-> _ _]]; last by rewrite ltnn.
apply/Hd => //; rewrite stD stZ stB; apply: symD => //; apply: symZ; exact: symB.
Qed.
Print Assumptions C111_positive_definite.

(** ** C112: objective, gradient and proximal step are those of the problem *)
Theorem C112_values : forall n m (S : stack n m.+2) ns p (K : stack n m.+2),
  slices (@sym n) S -> slices (@pd n) K ->
  fb_obj (@l1 1 m.+1) S (Some ns) p K =
    Fin (fb_problem (fb_laplacian p) ns S (fb_alpha p) (fb_beta p) (fb_vareps p) K) /\
  fb_f S (Some ns) p K = Fin (fb_smooth (fb_laplacian p) ns S (fb_beta p) (fb_vareps p) K).
Proof. by move=> n m S ns p K sS pK; split; [apply: obj_prob|apply: fb_fE]. Qed.
Print Assumptions C112_values.
(** first order expansion, with a remainder between 0 and L |H|^2 *)
Theorem C112_gradient : forall n m pinvh (S : stack n m.+2) ns p (X : stack n m.+2),
  pinvh_ok pinvh -> slices (@sym n) S -> (forall t, 0 <= ns t) -> 0 <= fb_beta p -> 0 <= fb_vareps p ->
  slices (@pd n) X ->
  let f K := fb_smooth (fb_laplacian p) ns S (fb_beta p) (fb_vareps p) K in
  exists h L : R, 0 < h /\ forall Z : stack n m.+2, slices (@sym n) Z -> sdist2 Z X <= h ^+ 2 ->
    slices (@pd n) Z /\ 0 <= f Z - f X - sdot (fb_grad pinvh S ns p X) (Z - X) <= L * sdist2 Z X.
Proof.
move=> n m pinvh S ns p X Hp sS ns0 b0 v0 pX f.
have [c c0 hc] := floor_all pX.
have [h [L [h0 L0 hh]]] := near_upper Hp sS ns0 b0 v0 c0.
exists h, L; split=> // Z sZ; rewrite !sdist2E sdotE => hZ.
have sH : slices (@sym n) (Z - X) by move=> t; rewrite stB; apply: symB => //; exact: pd_sym.
have [] := hh X (Z - X) hc sH hZ; have -> : X + (Z - X) = Z by lin.
move=> pZ up2; split=> //; have lo := smooth_lower Hp sS ns0 v0 b0 pX pZ.
rewrite /f; move: lo up2; move: (fb_smooth _ _ _ _ _ _) (fb_smooth _ _ _ _ _ _) (sip _ _ _ _) (L * _) => a b q r h1 h2.
by apply/andP; split; move: h1 h2; clear; move=> *; mclra.
Qed.
Print Assumptions C112_gradient.
(** the proximal point of the penalty *)
Theorem C112_prox : forall n m tv p gamma (a : stack n m.+2),
  tv_ok tv -> 0 <= fb_alpha p -> 0 <= fb_beta p -> 0 < gamma ->
  unique_minimiser (@everywhere (stack n m.+2))
    (fun K => gamma * (fb_alpha p * (\sum_t l1od (K t)) + (if fb_laplacian p then 0 else
                 fb_beta p * (\sum_(s < m.+2) \sum_(t < m.+2 | t == s.+1 :> nat) l1 (K t - K s))))
              + sdist2 K a / 2%:R)
    (fb_prox tv (fb_laplacian p) (fb_beta p) (fb_alpha p) gamma a).
Proof.
move=> n m tv p gamma a Htv a0 b0 g0; split=> // Z _ ne.
set y := fb_prox _ _ _ _ _ _ in ne *.
have := @fb_prox_sub n m.+1 tv Htv (fb_laplacian p) _ _ gamma a y Z a0 b0 g0 erefl.
rewrite /greal !vnorm_l1 !sdist2E.
have e : sip n m.+2 (Z - a) (Z - a) = sip n m.+2 (y - a) (y - a) + 2%:R * - sip n m.+2 (a - y) (Z - y) + sip n m.+2 (Z - y) (Z - y).
  have -> : Z - a = (y - a) + (Z - y) by lin.
  rewrite -ipNl opprB; move: (y - a) (Z - y) => u v; rewrite !ipDl !ipDr (ipC _ v).
  by move: (sip _ _ _ _) (sip _ _ _ _) (sip _ _ _ _) => *; mcring.
have d0 : 0 < sip n m.+2 (Z - y) (Z - y).
  rewrite lt_def ip_ge0 andbT; apply/eqP => /ip_eq0 h; apply: ne; by apply/eqP; rewrite -subr_eq0 h.
rewrite e; move: d0; move: (sip _ _ (Z - y) _) (sip _ _ (a - y) _) (sip _ _ (y - a) _) (gamma * _) (gamma * _) => *; mclra.
Qed.
Print Assumptions C112_prox.

(** ** runs of the solver *)
(** the state after k iterations (a run of the solver is a prefix of this sequence) *)
Definition fb_run n m tv pn is_pos_def pinvh (S : stack n m.+1) ns p init (k : nat) : fb_state n m :=
  iter_state (fb_body tv pn is_pos_def pinvh S ns p) 0 (FBState (init_precision3 pinvh S init) (fb_gamma p) None) k.
(** the step length from which the search of iteration k starts *)
Definition first_gamma n m tv pn is_pos_def pinvh (S : stack n m.+1) ns p init (k : nat) : R :=
  let s := fb_run tv pn is_pos_def pinvh S ns p init k in
  if (0 < k)%N then fb_gam s / fb_eps p else fb_gam s.
(** the search of iteration k (choose="gamma") finds a step length among the 200 it tries *)
Definition search_succeeds n m tv pn is_pos_def pinvh (S : stack n m.+1) ns p init (k : nat) : Prop :=
  let K := fb_K (fb_run tv pn is_pos_def pinvh S ns p init k) in
  let grad := fb_grad pinvh S ns p K in
  exists2 i, (i < 200)%N & let g := first_gamma tv pn is_pos_def pinvh S ns p init k * fb_eps p ^+ i in
    gamma_test (fb_f S (Some ns) p) K grad (fb_lamda p) (fb_delta p) g
      (proposal tv (fb_laplacian p) (fb_beta p) (fb_alpha p) K grad g).

(** the arguments for which the solver runs *)
Definition fb_runs (p : fb_params) : Prop := fb_choose p \in [:: "gamma"%string; "fixed"%string].
Lemma fb_runE n m tv pn is_pos_def pinvh (S : stack n m.+2) ns p init : fb_runs p ->
  let e := fb_loop tv pn is_pos_def pinvh S ns p (FBState (init_precision3 pinvh S init) (fb_gamma p) None) in
  let K := fb_K (le_state e) in
  let res n_iter := FBResult K [ffun t => pinvh (K t)]
    (if fb_return_history p then Some (FBCheck (fb_obj pn S (Some ns) p (init_precision3 pinvh S init)) 0 (Fin 0) 0 0 :: le_checks e) else None)
    n_iter (if fb_return_n_linesearch p then Some 0%N else None) (le_else e) in
  tgl_forward_backward tv pn is_pos_def pinvh S (Some ns) p init =
  if fb_return_n_iter p then
      match le_iter e with
      | Some it => FBOk (res (Some it.+1))
      | None => FBUnbound _ _
      end
    else FBOk (res None).
Proof.
move=> hr e K res; rewrite /tgl_forward_backward.
have -> : fb_choose p \notin [:: "gamma"%string; "lamda"%string; "fixed"%string; "both"%string] = false.
  by move: hr; rewrite /fb_runs !inE => /orP [] /eqP ->.
have -> : (fb_choose p \in [:: "lamda"%string; "both"%string]) = false.
  by move: hr; rewrite /fb_runs !inE => /orP [] /eqP ->.
by rewrite !andbF.
Qed.
(** what a run returns: the iterate after some number k <= max_iter of iterations *)
Lemma fb_result_run n m tv pn is_pos_def pinvh (S : stack n m.+2) ns p init r : fb_runs p ->
  tgl_forward_backward tv pn is_pos_def pinvh S (Some ns) p init = FBOk r ->
  let body := fb_body tv pn is_pos_def pinvh S ns p in
  let st := fb_run tv pn is_pos_def pinvh S ns p init in
  exists k, [/\ loop_ran body (fb_max_iter p) 0 (st 0%N) k,
    fr_precision r = fb_K (st k),
    fr_history r = (if fb_return_history p then Some (FBCheck (fb_obj pn S (Some ns) p (fb_K (st 0%N))) 0 (Fin 0) 0 0 ::
       [seq (body j (st j)).2 | j <- iota 0 k]) else None),
    fr_n_iter r = (if fb_return_n_iter p then Some k else None) &
    fr_covariance r = [ffun t => pinvh (fb_K (st k) t)] /\
    fr_warned r = (k == fb_max_iter p) && ~~ ((0 < k)%N && is_break (body k.-1 (st k.-1)).1)].
Proof.
move=> hr; rewrite (fb_runE _ _ _ _ _ _ _ hr) /fb_loop.
have [k [h1 h2 h3 h4 h5]] := py_forP (fb_body tv pn is_pos_def pinvh S ns p) (fb_max_iter p) 0
  (FBState (init_precision3 pinvh S init) (fb_gamma p) None) [::] None.
rewrite h2 h3 h4 h5 /= => e.
have {e} : exists o, [/\ r = FBResult (fb_K (fb_run tv pn is_pos_def pinvh S ns p init k))
    [ffun t => pinvh (fb_K (fb_run tv pn is_pos_def pinvh S ns p init k) t)]
    (if fb_return_history p then Some (FBCheck (fb_obj pn S (Some ns) p (init_precision3 pinvh S init)) 0 (Fin 0) 0 0 ::
       [seq (fb_body tv pn is_pos_def pinvh S ns p j (fb_run tv pn is_pos_def pinvh S ns p init j)).2 | j <- iota 0 k]) else None)
    o (if fb_return_n_linesearch p then Some 0%N else None)
    ((k == fb_max_iter p) && ~~ ((0 < k)%N && is_break (fb_body tv pn is_pos_def pinvh S ns p k.-1 (fb_run tv pn is_pos_def pinvh S ns p init k.-1)).1))
    & o = if fb_return_n_iter p then Some k else None].
  move: e; case: fb_return_n_iter; last by move=> [<-]; exists None.
  by case: (k) => // k' [<-]; exists (Some k'.+1); rewrite add0n.
move=> [o [-> ->]] /=; by exists k.
Qed.
Lemma fb_ok n m tv pn is_pos_def pinvh (S : stack n m.+2) ns p init : fb_runs p ->
  (0 < fb_max_iter p)%N || ~~ fb_return_n_iter p ->
  exists r, tgl_forward_backward tv pn is_pos_def pinvh S (Some ns) p init = FBOk r.
Proof.
move=> hr h; rewrite (fb_runE _ _ _ _ _ _ _ hr); case: fb_return_n_iter h; last by eexists.
rewrite orbF => m0; have [_ h2 -> _] := py_for_count (fb_body tv pn is_pos_def pinvh S ns p) (fb_max_iter p)
  (FBState (init_precision3 pinvh S init) (fb_gamma p) None).
by case: (size _) (h2 m0) => // k _; eexists.
Qed.
