(** Property theorems C159 (glo_prox: the proximity operator of the group lasso with overlap) and C160 (glopridu_algorithm). *)
From Coq Require Import Reals.
From mathcomp Require Import all_ssreflect all_algebra.
From Verif Require Import RStruct RTac LinTac NP S_Mat RMx ADMM M_Utils P_Prox2 M_Glopridu P_Glopridu P_Glopridu2 P_Glopridu3.
Import Order.TTheory GRing.Theory Num.Theory.

Set Implicit Arguments.
Unset Strict Implicit.
Unset Printing Implicit Defensive.
Local Open Scope ring_scope.

(** * specification: the penalty is the support function of an intersection of cylinders *)
Section Spec.
Variable d : nat.
(** [u] has norm at most the radius on every block *)
Definition in_cylinders (blocks : seq {set 'I_d}) (radii : seq R) (u : 'I_d -> R) : Prop :=
  forall i, (i < size blocks)%N -> \sum_(j in nth set0 blocks i) u j ^+ 2 <= nth 0 radii i ^+ 2.
(** the vectors on which the penalty is finite *)
Definition finite_on (C : ('I_d -> R) -> Prop) (w : 'I_d -> R) : Prop := exists b : R, forall u, C u -> \sum_j w j * u j <= b.
Definition is_support (C : ('I_d -> R) -> Prop) (P : ('I_d -> R) -> R) : Prop :=
  forall w, finite_on C w -> (forall u, C u -> \sum_j w j * u j <= P w) /\ (forall b : R, (forall u, C u -> \sum_j w j * u j <= b) -> P w <= b).
Definition prox_obj (P : ('I_d -> R) -> R) (w0 w : 'I_d -> R) : R := (\sum_j (w j - w0 j) ^+ 2) / 2%:R + P w.
(** [w] is the proximal point of [w0], with the quadratic growth that makes it the only one *)
Definition is_prox (C : ('I_d -> R) -> Prop) (P : ('I_d -> R) -> R) (w0 w : 'I_d -> R) : Prop :=
  finite_on C w /\ forall w', finite_on C w' -> prox_obj P w0 w + (\sum_j (w' j - w j) ^+ 2) / 2%:R <= prox_obj P w0 w'.
End Spec.

Section GloProxTheorems.
Variables (pinv : forall n, 'M[R]_n -> 'M[R]_n) (d : nat).
Variables (w0 : 'I_d -> R) (tau : R) (blocks : seq {set 'I_d}) (weights : seq R).
Hypothesis sz : size weights = size blocks.

(** C159: whatever the iterations do, the multipliers are nonnegative, one per block and zero on the screened blocks, the result is the input shrunk
    coordinate by coordinate by the multipliers of the blocks that hold it, and from a cold start the dual objective has not increased *)
Theorem C159_result fuel (lamda0 : option (seq R)) tol max_iter (beta sigma s_beta epsilon : R) w it (l : seq R) :
  (forall n (A : 'M[R]_n), psd A -> psd (pinv A)) -> 0 <= beta -> 0 <= sigma -> 0 <= s_beta ->
  (forall l0, lamda0 = Some l0 -> forall k, 0 <= nth 0 l0 k) ->
  glo_prox pinv fuel w0 tau blocks weights lamda0 tol max_iter beta sigma s_beta epsilon = Some (Val (w, it, l)) ->
  [/\ size l = size blocks, forall i, 0 <= nth 0 l i,
    forall j, w j = w0 j * (1 - 1 / (1 + \sum_(i < size blocks | j \in nth set0 blocks i) nth 0 l i)),
    forall i, (i < size blocks)%N -> sqrt (\sum_(j in nth set0 blocks i) w0 j ^+ 2) < (nth 0 weights i * tau) ^+ 2 -> nth 0 l i = 0 &
    lamda0 = None -> \sum_j w0 j ^+ 2 / (1 + \sum_(i < size blocks | j \in nth set0 blocks i) nth 0 l i) +
      \sum_(i < size blocks) (nth 0 weights i * tau) ^+ 2 * nth 0 l i <= \sum_j w0 j ^+ 2].
Proof. by move=> pp b0 s0 sb0 h e; exact: (glo_prox_result pp sz b0 s0 sb0 h e). Qed.

(** C159: the result never changes the sign of a coordinate or makes it larger, and is zero outside the blocks *)
Theorem C159_shrinks fuel (lamda0 : option (seq R)) tol max_iter (beta sigma s_beta epsilon : R) w it (l : seq R) :
  (forall n (A : 'M[R]_n), psd A -> psd (pinv A)) -> 0 <= beta -> 0 <= sigma -> 0 <= s_beta ->
  (forall l0, lamda0 = Some l0 -> forall k, 0 <= nth 0 l0 k) ->
  glo_prox pinv fuel w0 tau blocks weights lamda0 tol max_iter beta sigma s_beta epsilon = Some (Val (w, it, l)) ->
  forall j, [/\ 0 <= w j * w0 j, `|w j| <= `|w0 j| & (forall b, b \in blocks -> j \notin b) -> w j = 0].
Proof.
move=> pp b0 s0 sb0 h e j; have [ls l0 wE _ _] := glo_prox_result pp sz b0 s0 sb0 h e.
rewrite wE; set s := \sum_(i < _ | _) _; have s_0 : 0 <= s by apply: sumr_ge0 => i _; exact: l0.
have s1 : 0 < 1 + s by apply: ltr_paddr s_0 ltr01.
have c0 : 0 <= 1 - 1 / (1 + s) by rewrite subr_ge0 ler_pdivr_mulr // mul1r ler_addl.
have c1 : 1 - 1 / (1 + s) <= 1 by rewrite ler_subl_addr ler_addl divr_ge0 ?ler01 // ltW.
split.
- by rewrite mulrAC -expr2 mulr_ge0 ?sqr_ge0.
- by rewrite normrM (ger0_norm c0) ler_pimulr.
move=> hb; suff -> : s = 0 by rewrite addr0 divr1 subrr mulr0.
apply: big1 => i ji; move: (hb (nth set0 blocks i) (mem_nth _ (ltn_ord i))); by rewrite ji.
Qed.

(** C159: when the returned multipliers meet the optimality conditions on the blocks that were not screened, and no radius exceeds 1, the result is
    the proximal point for all blocks *)
Theorem C159_optimal fuel (lamda0 : option (seq R)) tol max_iter (beta sigma s_beta epsilon : R) w it (l : seq R) P :
  (forall n (A : 'M[R]_n), psd A -> psd (pinv A)) -> 0 <= beta -> 0 <= sigma -> 0 <= s_beta ->
  (forall l0, lamda0 = Some l0 -> forall k, 0 <= nth 0 l0 k) ->
  glo_prox pinv fuel w0 tau blocks weights lamda0 tol max_iter beta sigma s_beta epsilon = Some (Val (w, it, l)) ->
  (forall i, (i < size blocks)%N -> 0 <= nth 0 weights i * tau <= 1) ->
  (forall i, (i < size blocks)%N -> (nth 0 weights i * tau) ^+ 2 <= sqrt (\sum_(j in nth set0 blocks i) w0 j ^+ 2) ->
    \sum_(j in nth set0 blocks i) (w0 j - w j) ^+ 2 <= (nth 0 weights i * tau) ^+ 2 /\
    (0 < nth 0 l i -> \sum_(j in nth set0 blocks i) (w0 j - w j) ^+ 2 = (nth 0 weights i * tau) ^+ 2)) ->
  is_support (in_cylinders blocks [seq a * tau | a <- weights]) P ->
  is_prox (in_cylinders blocks [seq a * tau | a <- weights]) P w0 w.
Proof.
move=> pp b0 s0 sb0 h e rad kkt sup; have [ls l0 wE scr _] := glo_prox_result pp sz b0 s0 sb0 h e.
set C := in_cylinders _ _.
pose bk (i : 'I_(size blocks)) := nth set0 blocks i; pose rk (i : 'I_(size blocks)) := nth 0 weights i * tau; pose lam (i : 'I_(size blocks)) := nth 0 l i.
have lam0 i : 0 <= lam i := l0 i.
have wP j : w j = primal bk w0 lam j by rewrite wE.
have CE u : C u <-> cylinders bk rk u.
  split=> [hu i|hu i ib].
    by have := hu i (ltn_ord i); rewrite (nth_map 0) ?sz.
  by rewrite (nth_map 0) ?sz //; exact: (hu (Ordinal ib)).
have cyl : cylinders bk rk (fun j => w0 j - primal bk w0 lam j).
  move=> i; rewrite -/(bk i); case: (lerP (rk i ^+ 2) (sqrt (\sum_(j in bk i) w0 j ^+ 2))) => ki.
    have [k1 _] := kkt i (ltn_ord i) ki; apply: le_trans k1; apply: ler_sum => j _; by rewrite wP.
  have /andP [r0 r1] := rad i (ltn_ord i); rewrite -/(rk i) in r0 r1.
  apply: le_trans (_ : \sum_(j in bk i) w0 j ^+ 2 <= _).
    by apply: ler_sum => j _; exact: v_le.
  have q0 : 0 <= \sum_(j in bk i) w0 j ^+ 2 by apply: sumr_ge0 => j _; exact: sqr_ge0.
  have -> : \sum_(j in bk i) w0 j ^+ 2 = sqrt (\sum_(j in bk i) w0 j ^+ 2) ^+ 2 by rewrite expr2 RmulE sqrt_sqrt //; apply/RleP.
  have sq0 : 0 <= sqrt (\sum_(j in bk i) w0 j ^+ 2) by apply/RleP; exact: sqrt_pos.
  apply: ler_expn2r; rewrite ?nnegrE //; apply: le_trans (ltW ki) _.
  by rewrite expr2 ler_pimulr.
have tight i : 0 < lam i -> \sum_(j in bk i) (w0 j - primal bk w0 lam j) ^+ 2 = rk i ^+ 2.
  move=> li; case: (lerP (rk i ^+ 2) (sqrt (\sum_(j in bk i) w0 j ^+ 2))) => ki; last by move: li; rewrite /lam (scr i (ltn_ord i) ki) ltxx.
  have [_ k2] := kkt i (ltn_ord i) ki; rewrite -(k2 li); apply: eq_bigr => j _; by rewrite wP.
have proj := kkt_projection lam0 tight.
have proj' u : C u -> \sum_j w j * u j <= \sum_j w j * (w0 j - w j).
  move=> /CE /proj; under eq_bigr do rewrite -wP; by under [X in _ <= X -> _]eq_bigr do rewrite -wP.
have Cv : C (fun j => w0 j - w j) by apply/CE => i; have := cyl i; under eq_bigr do rewrite -wP.
have fw : finite_on C w by exists (\sum_j w j * (w0 j - w j)).
split=> // w' fw'; have [_ /(_ _ proj') ub] := sup w fw; have [/(_ _ Cv) lb _] := sup w' fw'.
rewrite /prox_obj; have key : (\sum_j (w j - w0 j) ^+ 2) / 2%:R + (\sum_j (w' j - w j) ^+ 2) / 2%:R + \sum_j w j * (w0 j - w j) =
  (\sum_j (w' j - w0 j) ^+ 2) / 2%:R + \sum_j w' j * (w0 j - w j).
  rewrite !mulr_suml -!big_split /=; apply: eq_bigr => j _; move: (w j) (w' j) (w0 j) => a b c; by mcfield.
move: ub lb key; move: (P w) (P w') (_ / _) (\sum_j w j * _) (_ / _) (\sum_j w' j * _) (_ / _).
have num (p p' a s b s' c : R) : p <= s -> s' <= p' -> a + b + s = c + s' -> a + p + b <= c + p' by move=> h1 h2 h3; mclra.
by move=> p p' a s b s' c h1 h2 h3; apply: num h1 h2 _.
Qed.
End GloProxTheorems.

(** C159: exact multipliers are recognised: one pass leaves them unchanged and stops *)
Theorem C159_fixed (pinv : forall n, 'M[R]_n -> 'M[R]_n) d B (bk : 'I_B -> {set 'I_d}) (wk : 'I_B -> R) w0 (tol beta sigma s_beta epsilon : R) fuel todo (lamda : 'I_B -> R) :
  (forall g, 0 <= lamda g) -> (forall g, \sum_(j in bk g) (w0 j - primal bk w0 lamda j) ^+ 2 <= wk g) ->
  (forall g, 0 < lamda g -> \sum_(j in bk g) (w0 j - primal bk w0 lamda j) ^+ 2 = wk g) -> 0 < tol -> 0 <= epsilon -> 0 <= beta -> 0 <= s_beta ->
  exists lm, newton pinv bk wk w0 tol beta sigma s_beta epsilon fuel.+1 todo.+1 0 0 lamda = Some (lm, 0%N) /\ lm =1 lamda.
Proof.
move=> l0 fe ti tol0 e0 b0 sb0.
have gE g : dual_grad bk wk w0 lamda g = wk g - \sum_(j in bk g) (w0 j - primal bk w0 lamda j) ^+ 2.
  by rewrite /dual_grad; congr (_ - _); apply: eq_bigr => j _; rewrite vE div1r.
have g0 g : 0 <= dual_grad bk wk w0 lamda g by rewrite gE subr_ge0.
have gz g : 0 < lamda g -> dual_grad bk wk w0 lamda g = 0 by move=> h; rewrite gE ti // subrr.
have lz g : lamda g <= 0 -> lamda g = 0 by move=> h; apply: le_anti; rewrite h l0.
have mxg (x : R) : 0 <= x -> np_max 0 x = x by move=> h; rewrite /np_max; case: ltrP => // h'; apply: le_anti; rewrite h h'.
have mxl (x : R) : x <= 0 -> np_max 0 x = 0 by move=> h; rewrite /np_max; case: ltrP => // h'; move: h; rewrite leNgt h'.
have ek : dual_epsk bk wk w0 epsilon lamda = 0.
  rewrite /dual_epsk (_ : \sum_g _ = 0); first by rewrite sqrt_0 /np_min; case: ltrP => // h; apply: le_anti; rewrite h e0.
  apply: big1 => g _; have -> : np_max 0 (lamda g - dual_grad bk wk w0 lamda g) = lamda g; last by rewrite subrr expr0n.
  case: (ltrP 0 (lamda g)) => lg; first by rewrite gz // subr0 mxg.
  by rewrite lz // sub0r mxl // oppr_le0.
have ig g : g \in inactive bk wk w0 epsilon lamda -> dual_grad bk wk w0 lamda g = 0.
  by rewrite inE ek => /orP [h|/gz //]; apply: le_anti; rewrite h g0.
have ag g : g \in active bk wk w0 epsilon lamda -> lamda g = 0 by rewrite inE ek => /andP [_ /lz].
have pv : p_inactive_vec pinv bk wk w0 epsilon lamda = 0.
  rewrite /p_inactive_vec (_ : \col_g _ = 0) ?mulmx0 //; apply/matrixP => g j; rewrite !mxE ig //; exact: enum_valP.
have pi g : p_inactive pinv bk wk w0 epsilon lamda g = 0.
  by rewrite /p_inactive big1 // => k _; rewrite pv mxE if_same.
have lmE st : 0 <= st -> lamda_m pinv bk wk w0 epsilon lamda st =1 lamda.
  move=> st0 g; rewrite /lamda_m; case: ifP => gi; first by rewrite pi mulr0 subr0 mxg.
  case: ifP => ga; last by move: gi ga; rewrite !inE leNgt; case: (0 < _) => //=; case: ltrP.
  by rewrite ag // sub0r mxl // oppr_le0 mulr_ge0 // (p_active_ge0 l0 ga).
have acc st : 0 <= st -> ls_rejects pinv bk wk w0 sigma epsilon lamda st = false.
  move=> st0; rewrite /ls_rejects.
  have -> : x_inactive pinv bk wk w0 epsilon lamda = 0 by rewrite /x_inactive big1 // => g _; rewrite pi mulr0.
  rewrite big1 ?mulr0 ?addr0 ?mulr0; last by move=> g _; rewrite lmE // subrr mulr0.
  rewrite fdiffE //; last by move=> g; rewrite lmE.
  have -> : dual_obj bk wk w0 (lamda_m pinv bk wk w0 epsilon lamda st) = dual_obj bk wk w0 lamda; last by rewrite subrr ltxx.
  rewrite /dual_obj /block_sum; congr (_ + _); apply: eq_bigr => j _; last by rewrite lmE.
  by congr (_ / (_ + _)); apply: eq_bigr => g _; rewrite lmE.
have st0 : 0 <= beta ^+ 1 * s_beta by rewrite mulr_ge0 // exprn_ge0.
exists (lamda_m pinv bk wk w0 epsilon lamda (beta ^+ 1 * s_beta)); split; last exact: lmE.
rewrite /= acc //; have -> : (5 <= (if #|inactive bk wk w0 epsilon lamda| == 0 then 1 else 0))%N = false by case: ifP.
case: ifP => // /negbT; rewrite negb_and => /orP [] /forallP []; move=> g; apply/implyP => h; first exact: g0.
by rewrite gz ?normr0 // -(lmE _ st0).
Qed.
Print Assumptions C159_result.
Print Assumptions C159_shrinks.
Print Assumptions C159_optimal.
Print Assumptions C159_fixed.

(** C159, refuted: with one block of radius above 1, the screening, which compares the norm of the block with the square of the radius, discards a
    block whose norm is between the radius and its square: the result is 0, which is not the proximal point *)
Theorem C159_screening_refuted (pinv : forall n, 'M[R]_n -> 'M[R]_n) d (w0 : 'I_d -> R) (tau : R) (b : {set 'I_d}) fuel tol max_iter (beta sigma s_beta epsilon : R) P :
  0 < tau -> tau < sqrt (\sum_(j in b) w0 j ^+ 2) -> sqrt (\sum_(j in b) w0 j ^+ 2) < tau ^+ 2 ->
  is_support (in_cylinders [:: b] [:: tau]) P ->
  glo_prox pinv fuel w0 tau [:: b] [:: 1] None tol max_iter beta sigma s_beta epsilon = Some (Val (fun=> 0, 0%N, [:: 0])) /\
  ~ is_prox (in_cylinders [:: b] [:: tau]) P w0 (fun=> 0).
Proof.
move=> t0 tn nt sup; split.
  by rewrite /glo_prox /= /keep /= mul1r /block_norm leNgt nt.
set N := sqrt _ in tn nt; have n0 : 0 < N by apply: lt_trans tn.
have NE : \sum_(j in b) w0 j ^+ 2 = N ^+ 2.
  rewrite expr2 /N RmulE sqrt_sqrt //; apply/RleP; apply: sumr_ge0 => j _; exact: sqr_ge0.
pose lam (i : 'I_1) := N / tau - 1; pose bk (i : 'I_1) := b.
have lam_gt : 0 < N / tau - 1 by rewrite subr_gt0 ltr_pdivl_mulr // mul1r.
have lam0 i : 0 <= lam i by apply: ltW.
have bE j : block_sum bk lam j = if j \in b then N / tau - 1 else 0.
  by rewrite /block_sum big_mkcond big_ord1.
pose w j := primal bk w0 lam j.
have vE' j : j \in b -> w0 j - w j = w0 j * (tau / N).
  move=> jb; rewrite /w vE bE jb addrC subrK invf_div //.
have sq : \sum_(j in b) (w0 j - w j) ^+ 2 = tau ^+ 2.
  transitivity (\sum_(j in b) (tau / N) ^+ 2 * w0 j ^+ 2); first by apply: eq_bigr => j jb; rewrite vE' // exprMn mulrC.
  by rewrite -mulr_sumr NE -exprMn divfK // gt_eqF.
have CE u : in_cylinders [:: b] [:: tau] u <-> cylinders bk (fun=> tau) u.
  split=> [hu i|hu [|i] // _]; [exact: (hu 0%N)|exact: (hu 0)].
have proj : forall u, in_cylinders [:: b] [:: tau] u -> \sum_j w j * u j <= \sum_j w j * (w0 j - w j).
  move=> u /CE; apply: kkt_projection => // i _; exact: sq.
have Cv : in_cylinders [:: b] [:: tau] (fun j => w0 j - w j) by apply/CE => i; rewrite sq.
have fw : finite_on (in_cylinders [:: b] [:: tau]) w by exists (\sum_j w j * (w0 j - w j)).
move=> [f0 /(_ w fw)]; have [_ /(_ _ proj) ub] := sup w fw.
have [/(_ _ Cv) lb _] := sup _ f0.
rewrite /prox_obj; rewrite big1 in lb; last by move=> j _; rewrite mul0r.
have key : (\sum_j (w j - w0 j) ^+ 2) / 2%:R + (\sum_j (w j) ^+ 2) / 2%:R + \sum_j w j * (w0 j - w j) = (\sum_j (0 - w0 j) ^+ 2) / 2%:R.
  rewrite !mulr_suml -!big_split /=; apply: eq_bigr => j _; move: (w j) (w0 j) => a c; by mcfield.
have pos : 0 < (\sum_j (w j) ^+ 2) / 2%:R.
  rewrite divr_gt0 ?ltr0n // lt_neqAle eq_sym; apply/andP; split; last by apply: sumr_ge0 => j _; exact: sqr_ge0.
  apply/eqP => z; have wz j : w j = 0.
    apply/eqP; rewrite -sqrf_eq0; apply/eqP; apply: (psumr_eq0P _ z) => // i _; exact: sqr_ge0.
  move: sq; have -> : \sum_(j in b) (w0 j - w j) ^+ 2 = \sum_(j in b) w0 j ^+ 2 by apply: eq_bigr => j _; rewrite wz subr0.
  rewrite NE => /eqP; rewrite eqr_expn2 ?(ltW t0) ?(ltW n0) // => /eqP h; by move: tn; rewrite h ltxx.
have -> : \sum_j (w j - 0) ^+ 2 = \sum_j w j ^+ 2 by apply: eq_bigr => j _; rewrite subr0.
move: ub lb key pos; move: (P w) (P _) (_ / _) (\sum_j w j * _) (_ / _) (_ / _).
have num (p p' a s b' c : R) : p <= s -> 0 <= p' -> a + b' + s = c -> 0 < b' -> c + p' + b' <= a + p -> False by move=> h1 h2 h3 h4 h5; mclra.
by move=> p p' a s b' c h1 h2 h3 h4 h5; apply: num h1 h2 _ h4 h5.
Qed.
Print Assumptions C159_screening_refuted.

(** C159, refuted: a warm start with two multipliers or more raises ValueError, for [not lamda0] has no truth value *)
Theorem C159_warm_start_refuted (pinv : forall n, 'M[R]_n -> 'M[R]_n) d fuel (w0 : 'I_d -> R) tau blocks weights (l0 : seq R) tol max_iter beta sigma s_beta epsilon :
  (1 < size l0)%N ->
  glo_prox pinv fuel w0 tau blocks weights (Some l0) tol max_iter beta sigma s_beta epsilon = Some (Raise ValueError).
Proof. by case: l0 => [|x [|y s]]. Qed.
Print Assumptions C159_warm_start_refuted.

(** C160, refuted: glopridu_algorithm raises ValueError on every problem with two groups or more *)
Theorem C160_groups_refuted (pinv : forall n, 'M[R]_n -> 'M[R]_n) n d (norm2 : 'M[R]_(n, d) -> R) (X : 'M[R]_(n, d)) (Y : 'cV[R]_n)
    (blocks : seq {set 'I_d}) fuel tau_s tol_int max_iter_int smooth_par tol_ext max_iter_ext :
  (1 < size blocks)%N -> (0 < max_iter_ext)%N ->
  glopridu (glopridu_prox pinv fuel blocks tau_s tol_int max_iter_int) norm2 X Y (size blocks) smooth_par tol_ext max_iter_ext = Raise ValueError.
Proof.
move=> hb; case: max_iter_ext => [|m] // _; rewrite /glopridu /= /glopridu_prox C159_warm_start_refuted //.
by rewrite size_nseq.
Qed.
Print Assumptions C160_groups_refuted.

(** ** the outer loop *)
Lemma loop_count n d prox (X : 'M[R]_(n, d)) Y sg ms tol todo it b h t Xb Xh lam r l k :
  glopridu_loop prox X Y sg ms tol todo it b h t Xb Xh lam = Val (r, l, k) -> (k <= it + todo)%N.
Proof.
elim: todo it b h t Xb Xh lam => [|todo IH] it b h t Xb Xh lam /=; first by move=> [_ _ <-]; rewrite addn0.
case: (prox _ _ _) => [[p l']|] //; case: ifP => _; first by move=> [_ _ <-]; rewrite -addSnnS leq_addr.
by move=> /IH; rewrite addSnnS.
Qed.
Section Outer.
Variables n d : nat.
Variables (X : 'M[R]_(n, d)) (Y : 'cV[R]_n) (norm2 : 'M[R]_(n, d) -> R) (P : 'cV[R]_d -> R) (tau : R).
Hypotheses (n0 : (0 < n)%N) (tau0 : 0 <= tau).
(** norm2 is at least the operator norm *)
Hypotheses (norm_pos : 0 < norm2 X) (norm_op : forall v : 'cV[R]_d, fnorm2 (X *m v) <= norm2 X ^+ 2 * fnorm2 v).
(** the penalty is convex *)
Hypothesis cvx : forall (x y : 'cV[R]_d) (t : R), 0 < t -> t <= 1 -> P (x + t *: (y - x)) <= (1 - t) * P x + t * P y.
Let sg := norm2 X ^+ 2 / n%:R.
(** the objective *)
Definition glo_objective (b : 'cV[R]_d) : R := fnorm2 (Y - X *m b) / (2%:R * n%:R) + tau * P b.
(** [p] is the proximal point of [w0] for the penalty with weight tau / sigma *)
Definition prox_step (w0 p : 'cV[R]_d) : Prop :=
  forall u, tau / sg * P p + fnorm2 (p - w0) / 2%:R <= tau / sg * P u + fnorm2 (u - w0) / 2%:R.

Lemma sg_pos : 0 < sg.
Proof. by rewrite /sg divr_gt0 ?exprn_gt0 ?ltr0n. Qed.
Lemma sg_lip (v : 'cV[R]_d) : fnorm2 (X *m v) <= n%:R * sg * fnorm2 v.
Proof. by rewrite /sg mulrC [n%:R * _]mulrC divfK ?pnatr_eq0 -?lt0n // mulrC. Qed.
Let D (_ : 'cV[R]_d) := True.
Lemma cvx_D x y t : D x -> D y -> 0 < t -> t <= 1 -> D (x + t *: (y - x)) /\ P (x + t *: (y - x)) <= (1 - t) * P x + t * P y.
Proof. by move=> _ _ h1 h2; split=> //; apply: cvx. Qed.

(** C160: with exact proximity steps and no smoothing, the objective of the returned coefficients is within 2 sigma |b*|^2 / (n_iter + 1)^2 of the
    optimum *)
Theorem C160_rate prox n_blocks tol_ext max_iter_ext (bs r : 'cV[R]_d) l k :
  (forall it w0 l p l', prox it w0 l = Val (p, l') -> prox_step w0 p) -> (0 < max_iter_ext)%N ->
  (forall b, glo_objective bs <= glo_objective b) ->
  glopridu prox norm2 X Y n_blocks 0 tol_ext max_iter_ext = Val (r, l, k) ->
  (0 < k <= max_iter_ext)%N /\ k.+1%:R ^+ 2 * (glo_objective r - glo_objective bs) <= 2%:R * (norm2 X ^+ 2 / n%:R) * fnorm2 bs.
Proof.
move=> px mi opt; rewrite /glopridu mul0r addr0 mul0r -/sg => run.
have px' it w0 l1 p l' : prox it w0 l1 = Val (p, l') -> prox_point D P sg tau w0 p by move=> /px h; split.
have kle : (k <= max_iter_ext)%N.
  exact: loop_count run.
have sg0 := sg_pos.
have tq : (0 < 0)%N -> (1%:R / 2%:R) ^+ 2 <= 1 ^+ 2 - 1 :> R by rewrite ltnn.
have t2 : 2%:R / 2%:R <= 1 :> R by rewrite divff ?pnatr_eq0.
have run' : glopridu_loop prox X Y sg 0 tol_ext max_iter_ext 0 0 0 1 (X *m 0) (X *m 0) (nseq n_blocks 0) = Val (r, l, k) by rewrite mulmx0.
have [_ k0 h] := @fista_loop n d X Y D P sg tau n0 sg0 tau0 sg_lip cvx_D bs I (fun b _ => opt b) prox px' _ _ _ _ _ _ _ _ _ _ I (lexx 1) t2 tq run' mi.
rewrite k0 kle; split=> //; move: h; rewrite /energy expr1n subrr mulr0 mul0r add0r scaler0 scale0r subrr sub0r fnorm2N.
rewrite -/sg -[lasso_obj _ _ _ _ r]/(glo_objective r) -[lasso_obj _ _ _ _ bs]/(glo_objective bs).
have num (a c e f : R) : 0 < e -> 2%:R / e * (a / 2%:R) ^+ 2 * c <= f -> a ^+ 2 * c <= 2%:R * e * f.
  move=> e0 h; have := ler_wpmul2l (ltW (mulr_gt0 (ltr0n R_numDomainType 2) e0)) h.
  have -> : 2%:R * e * (2%:R / e * (a / 2%:R) ^+ 2 * c) = a ^+ 2 * c by have e1 := lt0r_neq0 e0; mcfield.
  by [].
exact: num.
Qed.

(** C160: coefficients that an exact step leaves unchanged are a minimiser *)
Theorem C160_stationary (b : 'cV[R]_d) : prox_step (b + (n%:R * sg)^-1 *: (X^T *m (Y - X *m b))) b -> forall x, glo_objective b <= glo_objective x.
Proof.
move=> h x; have := @prox_gradient n d X Y D P sg tau n0 sg_pos tau0 sg_lip cvx_D b b x (conj I (fun u _ => h u)) I.
by rewrite subrr fnorm2_0 mulr0 addr0 fdot0l mulr0 addr0.
Qed.
End Outer.
Print Assumptions C160_rate.
Print Assumptions C160_stationary.

(** ** the hypotheses are met *)
Definition abs_pen (c : R) (w : 'I_1 -> R) : R := c * `|w 0|.
Lemma cyl1 (c : R) (u : 'I_1 -> R) : 0 <= c -> in_cylinders [:: setT] [:: c] u <-> `|u 0| <= c.
Proof.
move=> c0; have e : \sum_(j in [set: 'I_1]) u j ^+ 2 = `|u 0| ^+ 2 by rewrite big_mkcond big_ord1 inE real_normK ?num_real.
split=> [/(_ 0%N isT)|h [|i] // _]; rewrite /= e; last by rewrite ler_expn2r ?nnegrE ?normr_ge0.
by rewrite ler_pexpn2r ?nnegrE ?normr_ge0.
Qed.
Lemma abs_support (c : R) : 0 <= c -> is_support (in_cylinders [:: setT] [:: c]) (abs_pen c).
Proof.
move=> c0 w _; split=> [u /(cyl1 _ c0) h|b h].
  rewrite big_ord1 /abs_pen; apply: le_trans (ler_norm _) _; by rewrite normrM mulrC ler_wpmul2r ?normr_ge0.
have : in_cylinders [:: [set: 'I_1]] [:: c] (fun=> c * Num.sg (w 0)).
  apply: (proj2 (cyl1 (fun=> c * Num.sg (w 0)) c0)); rewrite normrM (ger0_norm c0) normr_sg ler_pimulr //; by case: (_ != _); rewrite ?ler01 ?lexx.
by move=> /h; rewrite big_ord1 mulrCA [w 0 * _]mulrC -normrEsg.
Qed.

(** one block, the input 2, radius 1: from the multiplier 1 one pass returns 1, the soft threshold, and the conditions of C159_optimal hold *)
Example C159_optimal_case (pinv : forall n, 'M[R]_n -> 'M[R]_n) : (forall n (A : 'M[R]_n), psd A -> psd (pinv n A)) ->
  exists w l, [/\ glo_prox pinv 1 (fun _ : 'I_1 => 2%:R) 1 [:: setT] [:: 1] (Some [:: 1]) 1 5 (1 / 2%:R) (1 / 10%:R) 1 1 = Some (Val (w, 0%N, l)), w 0 = 1, l = [:: 1] &
    is_prox (in_cylinders [:: setT] [:: 1]) (abs_pen 1) (fun _ : 'I_1 => 2%:R) w].
Proof.
move=> pp; set bw := [seq (b.1, (b.2 * 1) ^+ 2) | b <- zip [:: [set: 'I_1]] [:: (1 : R)]].
have nb : block_norm (fun _ : 'I_1 => 2%:R) [set: 'I_1] = 2%:R.
  by rewrite /block_norm big_mkcond big_ord1 inE expr2 RmulE sqrt_square //; apply/RleP; rewrite ler0n.
have kb : keep (fun _ : 'I_1 => 2%:R) ([set: 'I_1], (1 * 1) ^+ 2) by rewrite /keep /= nb mulr1 expr1n ler1n.
have bs (lam : 'I_1 -> R) j : block_sum (fun _ : 'I_1 => [set: 'I_1]) lam j = lam 0 by rewrite /block_sum big_mkcond big_ord1 inE.
have half : (2%:R : R) * (1 - 1 / (1 + 1)) = 1 by mcfield.
have res : exists lm : 'I_1 -> R, newton pinv (fun _ : 'I_1 => [set: 'I_1]) (fun=> 1) (fun _ : 'I_1 => 2%:R) 1 (1 / 2%:R) (1 / 10%:R) 1 1 1 5 0 0 (fun=> 1) = Some (lm, 0%N) /\ lm =1 (fun=> 1).
  have v1 g : \sum_(j in (fun _ : 'I_1 => [set: 'I_1]) g) ((2%:R : R) - primal (fun _ : 'I_1 => [set: 'I_1]) (fun _ : 'I_1 => 2%:R) (fun=> 1) j) ^+ 2 = 1.
    rewrite big_mkcond big_ord1 inE /primal bs half; mcring.
  apply: C159_fixed => //; rewrite ?ler01 ?ltr01 ?divr_ge0 ?ler01 ?ler0n //; move=> g; rewrite ?ler01 ?v1 ?lexx //.
have [lm [lmE lm1]] := res.
have run : glo_prox pinv 1 (fun _ : 'I_1 => 2%:R) 1 [:: setT] [:: 1] (Some [:: 1]) 1 5 (1 / 2%:R) (1 / 10%:R) 1 1 =
    Some (Val (primal (fun _ : 'I_1 => [set: 'I_1]) (fun _ : 'I_1 => 2%:R) lm, 0%N, [:: lm 0])).
  rewrite /glo_prox /lamda_init oner_eq0.
  have E : [seq b <- bw | keep (fun _ : 'I_1 => 2%:R) b] = [:: ([set: 'I_1], 1)] by rewrite /bw /= kb mulr1 expr1n.
  have E2 : [seq bl.2 | bl <- zip bw [:: (1 : R)] & keep (fun _ : 'I_1 => 2%:R) bl.1] = [:: 1] by rewrite /bw /= kb.
  have E3 : [seq keep (fun _ : 'I_1 => 2%:R) b | b <- bw] = [:: true] by rewrite /bw /= kb.
  rewrite E E2 E3.
  have F1 : (fun g : 'I_1 => (tnth (in_tuple [:: ([set: 'I_1], 1 : R)]) g).1) = (fun=> [set: 'I_1]).
    by apply: FunctionalExtensionality.functional_extensionality => g; rewrite (ord1 g).
  have F2 : (fun g : 'I_1 => (tnth (in_tuple [:: ([set: 'I_1], 1 : R)]) g).2) = (fun=> 1).
    by apply: FunctionalExtensionality.functional_extensionality => g; rewrite (ord1 g).
  have F3 : (fun g : 'I_1 => nth 0 [:: (1 : R)] g) = (fun=> 1).
    by apply: FunctionalExtensionality.functional_extensionality => g; rewrite (ord1 g).
  change (match newton pinv (fun g : 'I_1 => (tnth (in_tuple [:: ([set: 'I_1], 1 : R)]) g).1) (fun g : 'I_1 => (tnth (in_tuple [:: ([set: 'I_1], 1 : R)]) g).2)
      (fun _ : 'I_1 => 2%:R) 1 (1 / 2%:R) (1 / 10%:R) 1 1 1 5 0 0 (fun g : 'I_1 => nth 0 [:: (1 : R)] g) with
    | None => None
    | Some (lamda, it) => Some (Val (primal (fun g : 'I_1 => (tnth (in_tuple [:: ([set: 'I_1], 1 : R)]) g).1) (fun _ : 'I_1 => 2%:R) lamda, it, scatter [:: true] [seq lamda g | g <- enum 'I_1]))
    end = Some (Val (primal (fun _ : 'I_1 => [set: 'I_1]) (fun _ : 'I_1 => 2%:R) lm, 0%N, [:: lm 0]))).
  rewrite F1 F2 F3 lmE.
  by rewrite enum_ordS /=.
have w1 : primal (fun _ : 'I_1 => [set: 'I_1]) (fun _ : 'I_1 => 2%:R) lm 0 = 1 by rewrite /primal bs lm1 half.
exists (primal (fun _ : 'I_1 => [set: 'I_1]) (fun _ : 'I_1 => 2%:R) lm), [:: lm 0].
split=> //; first by rewrite lm1.
have sz1 : size [:: (1 : R)] = size [:: [set: 'I_1]] by [].
rewrite -[X in in_cylinders _ X](_ : [seq a * 1 | a <- [:: 1 : R]] = _); last by rewrite /= mulr1.
have h0 : forall l0, Some [:: (1 : R)] = Some l0 -> forall k, 0 <= nth 0 l0 k.
  by move=> l0 [<-] [|[|k]] /=; rewrite ?ler01.
apply: (C159_optimal sz1 pp _ _ _ h0 run) => //; rewrite ?divr_ge0 ?ler01 ?ler0n //.
- by move=> [|i] //= _; rewrite mulr1 ler01 lexx.
- move=> [|i] //= _ _; rewrite mulr1 expr1n big_mkcond big_ord1 inE w1.
  by have -> : ((2%:R : R) - 1) ^+ 2 = 1 by mcring.
by rewrite /= mulr1; apply: abs_support; rewrite ler01.
Qed.

(** the input 3 and the radius 2: 3 is between 2 and 4 *)
Example C159_screening_case : 2%:R < sqrt (\sum_(j in [set: 'I_1]) (3%:R : R) ^+ 2) /\ sqrt (\sum_(j in [set: 'I_1]) (3%:R : R) ^+ 2) < 2%:R ^+ 2 /\
  is_support (in_cylinders [:: [set: 'I_1]] [:: 2%:R]) (abs_pen 2%:R).
Proof.
have -> : sqrt (\sum_(j in [set: 'I_1]) (3%:R : R) ^+ 2) = 3%:R.
  by rewrite big_mkcond big_ord1 inE expr2 RmulE sqrt_square //; apply/RleP; rewrite ler0n.
by split; [rewrite ltr_nat|split; [rewrite -natrX ltr_nat|apply: abs_support; rewrite ler0n]].
Qed.

(** a ridge penalty, one observation: every step is exact, and the coefficient 1/3 is optimal *)
Definition ridge_prox (it : nat) (w0 : 'cV[R]_1) (l : seq R) : res ('cV[R]_1 * seq R) := Val (3%:R^-1 *: w0, l).
Lemma glopridu_total n d prox (X : 'M[R]_(n, d)) Y sg ms tol todo it b h t Xb Xh lam : (forall it w l, exists p l', prox it w l = Val (p, l')) ->
  exists r l k, glopridu_loop prox X Y sg ms tol todo it b h t Xb Xh lam = Val (r, l, k).
Proof.
move=> tot; elim: todo it b h t Xb Xh lam => [|todo IH] it b h t Xb Xh lam /=; first by exists b, lam, it.
have [p [l' ->]] := tot it.+1 ((1 - ms) *: h + (n%:R * sg)^-1 *: (X^T *m (Y - Xh))) lam.
by case: ifP => _; [exists p, l', it.+1|exact: IH].
Qed.
Example C160_rate_case : exists r l k,
  [/\ glopridu ridge_prox (fun=> 1) (1%:M : 'M[R]_1) (const_mx 1) 1 0 (1 / 100%:R) 7 = Val (r, l, k),
    forall v : 'cV[R]_1, fnorm2 (1%:M *m v) <= 1 ^+ 2 * fnorm2 v,
    forall (x y : 'cV[R]_1) (t : R), 0 < t -> t <= 1 -> fnorm2 (x + t *: (y - x)) <= (1 - t) * fnorm2 x + t * fnorm2 y,
    forall it w0 l p l', ridge_prox it w0 l = Val (p, l') -> prox_step (1%:M : 'M[R]_1) (fun=> 1) (@fnorm2 1 1) 1 w0 p &
    k.+1%:R ^+ 2 * (glo_objective (1%:M : 'M[R]_1) (const_mx 1) (@fnorm2 1 1) 1 r - glo_objective (1%:M : 'M[R]_1) (const_mx 1) (@fnorm2 1 1) 1 (const_mx (1 / 3%:R))) <= 2%:R / 9%:R].
Proof.
have [|r [l [k run]]] := @glopridu_total 1 1 ridge_prox 1%:M (const_mx 1) (1 ^+ 2 / 1%:R + 0 * (1 ^+ 2 / 1%:R)) (0 * (1 ^+ 2 / 1%:R) / (1 ^+ 2 / 1%:R + 0 * (1 ^+ 2 / 1%:R))) (1 / 100%:R) 7 0 0 0 1 0 0 (nseq 1 0).
  by move=> it w l; exists (3%:R^-1 *: w), l.
exists r, l, k.
have n1 (v : 'cV[R]_1) : fnorm2 v = v 0 0 ^+ 2 by rewrite fnorm2E fdotE /mxtrace big_ord1 mxE big_ord1 !mxE expr2.
have op (v : 'cV[R]_1) : fnorm2 (1%:M *m v) <= 1 ^+ 2 * fnorm2 v by rewrite mul1mx expr1n mul1r.
have cx (x y : 'cV[R]_1) (t : R) : 0 < t -> t <= 1 -> fnorm2 (x + t *: (y - x)) <= (1 - t) * fnorm2 x + t * fnorm2 y.
  move=> t0 t1; rewrite !n1 !mxE; move: (x 0 0) (y 0 0) => a b; rewrite -subr_ge0.
  have -> : (1 - t) * a ^+ 2 + t * b ^+ 2 - (a + t * (b - a)) ^+ 2 = t * (1 - t) * (a - b) ^+ 2 by mcring.
  by rewrite mulr_ge0 ?sqr_ge0 // mulr_ge0 ?subr_ge0 // ltW.
have px it w0 l1 p l' : ridge_prox it w0 l1 = Val (p, l') -> prox_step (1%:M : 'M[R]_1) (fun=> 1) (@fnorm2 1 1) 1 w0 p.
  move=> [<- _] u; rewrite expr1n divr1 divr1 !n1 !mxE; move: (w0 0 0) (u 0 0) => a b; rewrite -subr_ge0.
  have -> : 1 * b ^+ 2 + (b - a) ^+ 2 / 2%:R - (1 * (3%:R^-1 * a) ^+ 2 + (3%:R^-1 * a - a) ^+ 2 / 2%:R) = 3%:R / 2%:R * (b - a / 3%:R) ^+ 2 by mcfield.
  by rewrite mulr_ge0 ?sqr_ge0 // divr_ge0 ?ler0n.
split=> //.
have op2 b : glo_objective (1%:M : 'M[R]_1) (const_mx 1) (@fnorm2 1 1) 1 (const_mx (1 / 3%:R)) <= glo_objective (1%:M : 'M[R]_1) (const_mx 1) (@fnorm2 1 1) 1 b.
  rewrite /glo_objective !mul1mx !n1 !mxE; move: (b 0 0) => c; rewrite -subr_ge0.
  have -> : (1 - c) ^+ 2 / (2%:R * 1%:R) + 1 * c ^+ 2 - ((1 - 1 / 3%:R) ^+ 2 / (2%:R * 1%:R) + 1 * (1 / 3%:R) ^+ 2) = 3%:R / 2%:R * (c - 1 / 3%:R) ^+ 2 by mcfield.
  by rewrite mulr_ge0 ?sqr_ge0 // divr_ge0 ?ler0n.
have [_ h] := @C160_rate 1 1 1%:M (const_mx 1) (fun=> 1) (@fnorm2 1 1) 1 isT ler01 ltr01 op cx ridge_prox 1 _ 7 _ _ _ _ px isT op2 run.
apply: le_trans h _; rewrite n1 !mxE.
have -> : 2%:R * (1 ^+ 2 / 1%:R) * (1 / 3%:R) ^+ 2 = 2%:R / 9%:R :> R by mcfield.
exact: lexx.
Qed.
