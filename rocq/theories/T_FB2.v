(** Property theorems C113-C120: runs of the forward-backward solver. *)
From Coq Require Import Reals Lra String.
From mathcomp Require Import all_ssreflect all_algebra.
From Verif Require Import RStruct RTac LinTac Spectral S_Mat RMx ADMM NP Str M_Prox S_Prox.
From Verif Require Import P_Prox P_Prox2 P_Prox3 M_Loop P_Loop M_GL M_LGL S_Fit P_GL2.
From Verif Require Import M_TGL S_TGL P_TGL M_FB S_FB P_FB P_FB2 P_FB3 P_FB4 P_FB5 P_FB6 P_FB7 P_FB8 T_FB.
Import Order.TTheory GRing.Theory Num.Theory.

Set Implicit Arguments.
Unset Strict Implicit.
Unset Printing Implicit Defensive.
Local Open Scope ring_scope.

(** ** C113: the objective never increases *)
Definition fin_val (x : xR) : R := if x is Fin a then a else 0.
Theorem C113_never_increases : forall n m tv is_pos_def pinvh (S : stack n m.+2) ns p init r h,
  tv_ok tv -> pinvh_ok pinvh -> slices (@sym n) S -> (forall t, 0 <= ns t) ->
  0 <= fb_alpha p -> 0 <= fb_beta p -> 0 <= fb_vareps p -> fb_choose p = "gamma"%string ->
  0 < fb_gamma p -> 0 < fb_lamda p -> fb_lamda p <= 1 -> 0 < fb_delta p -> fb_delta p < 1 ->
  0 < fb_eps p -> fb_eps p < 1 ->
  tgl_forward_backward tv (@l1 1 m.+1) is_pos_def pinvh S (Some ns) p init = FBOk r -> fr_history r = Some h ->
  (forall j, (j < (size h).-1)%N -> search_succeeds tv (@l1 1 m.+1) is_pos_def pinvh S ns p init j) ->
  (exists a, fb_obj (@l1 1 m.+1) S (Some ns) p (init_precision3 pinvh S init) = Fin a) ->
  exists v : seq R, [seq fc_obj c | c <- h] = [seq Fin x | x <- v] /\ sorted (fun x y => y <= x) v.
Proof.
move=> n m tv is_pos_def pinvh S ns p init r h Htv Hp sS ns0 a0 b0 v0 hch g0 l0 l1' d0 d1 e0 e1 er eh hs [a ea].
have hr : fb_runs p by rewrite /fb_runs hch.
have [k [_ _ hh _ _]] := fb_result_run hr er; move: hh; rewrite eh; case: fb_return_history => // -[hE].
rewrite hE /= size_map size_iota in hs.
set s0 := FBState (init_precision3 pinvh S init) (fb_gamma p) None.
have hsk : searches tv is_pos_def pinvh S ns p s0 k by exact: hs.
have gk := searches_goods (s0 := s0) l0 l1' hch e0 g0 hsk.
pose st := fb_run tv (@l1 1 m.+1) is_pos_def pinvh S ns p init.
pose o j := fb_obj (@l1 1 m.+1) S (Some ns) p (fb_K (st j)).
have fino j : (j <= k)%N -> exists2 b, o j = Fin b & b <= a.
  by move=> jk; apply: (obj_mono Htv ns0 a0 b0 l0 l1' d0 d1 (goods_le jk gk)).
exists [seq fin_val (o j) | j <- iota 0 k.+1]; split.
  have -> : h = [seq (if j is j'.+1 then (fb_body tv (@l1 1 m.+1) is_pos_def pinvh S ns p j' (st j')).2 else
     FBCheck (o 0%N) 0 (Fin 0) 0 0) | j <- iota 0 k.+1].
    by rewrite hE /=; congr (_ :: _); rewrite (iotaDl 1 0) -map_comp; apply: eq_map.
  rewrite -!map_comp; apply/eq_in_map => j; rewrite mem_iota /= add0n => jk.
  have [b eb _] := fino j jk; rewrite /= eb /= -eb {eb b}; case: j jk => // j jk.
  rewrite /o /st /fb_run /= -/(fb_run tv (@l1 1 m.+1) is_pos_def pinvh S ns p init j) add0n.
  rewrite /fb_body; case: (fb_step _ _ _ _ _ _ _ _) => g z; by case: (fb_stop_at p) => [x|]; case: ifP.
apply/(sortedP 0) => i; rewrite size_map size_iota ltnS => ik.
rewrite !(nth_map 0%N) ?size_iota //; [|exact: ltnW..].
rewrite !nth_iota //; [|exact: ltnW..]; rewrite !add0n.
have [b eb _] := fino i (ltnW ik); rewrite eb.
have := next_obj Htv ns0 a0 b0 l0 l1' d0 (gk i ik) eb.
have -> : fb_obj (@l1 1 m.+1) S (Some ns) p (fb_K (out_state (fb_body tv (@l1 1 m.+1) is_pos_def pinvh S ns p i
  (iter_state (fb_body tv (@l1 1 m.+1) is_pos_def pinvh S ns p) 0 s0 i)).1)) = o i.+1 by rewrite /o /st /fb_run /= add0n.
move=> [c -> hc] /=; apply: le_trans hc _.
rewrite ler_subl_addr ler_addl; apply: mulr_ge0; first by rewrite mulr_ge0 ?(ltW l0) // subr_ge0 ltW.
have [u0 h2] := Dk_ge0 Htv a0 b0 ik gk.
by apply: le_trans h2; rewrite mulr_ge0 ?ip_ge0 // invr_ge0 ltW.
Qed.
Print Assumptions C113_never_increases.

(** ** C114: the solver rests exactly at the optima *)
Theorem C114_optimum_stays : forall n m tv pn is_pos_def pinvh (S : stack n m.+2) ns p (K : stack n m.+2) r,
  tv_ok tv -> pinvh_ok pinvh -> slices (@sym n) S -> (forall t, 0 <= ns t) ->
  0 <= fb_alpha p -> 0 <= fb_beta p -> 0 <= fb_vareps p -> fb_runs p -> 0 < fb_gamma p -> 0 < fb_eps p ->
  minimiser (fun K : stack n m.+2 => slices (@pd n) K)
    (fun K => fb_problem (fb_laplacian p) ns S (fb_alpha p) (fb_beta p) (fb_vareps p) K) K ->
  tgl_forward_backward tv pn is_pos_def pinvh S (Some ns) p (Init3Array K) = FBOk r -> fr_precision r = K.
Proof.
move=> n m tv pn is_pos_def pinvh S ns p K r Htv Hp sS ns0 a0 b0 v0 hr g0 e0 hK er.
have [k [_ -> _ _ _]] := fb_result_run hr er.
by have [] := opt_stays (tv := tv) is_pos_def pn Htv Hp sS ns0 a0 b0 v0 (s := FBState K (fb_gamma p) None) k g0 e0 hK.
Qed.
Print Assumptions C114_optimum_stays.
Theorem C114_rest_is_optimal : forall n m tv pn is_pos_def pinvh (S : stack n m.+2) ns p (K : stack n m.+2) r,
  tv_ok tv -> pinvh_ok pinvh -> slices (@sym n) S -> (forall t, 0 <= ns t) ->
  0 <= fb_alpha p -> 0 <= fb_beta p -> 0 <= fb_vareps p -> fb_runs p -> 0 < fb_gamma p -> 0 < fb_eps p ->
  0 < fb_lamda p -> fb_max_iter p = 1%N -> slices (@pd n) K ->
  tgl_forward_backward tv pn is_pos_def pinvh S (Some ns) p (Init3Array K) = FBOk r -> fr_precision r = K ->
  minimiser (fun K : stack n m.+2 => slices (@pd n) K)
    (fun K => fb_problem (fb_laplacian p) ns S (fb_alpha p) (fb_beta p) (fb_vareps p) K) K.
Proof.
move=> n m tv pn is_pos_def pinvh S ns p K r Htv Hp sS ns0 a0 b0 v0 hr g0 e0 l0 m1 pK er.
have [k [[h1 [_ h2]] -> _ _ _]] := fb_result_run hr er; rewrite m1 in h1 h2.
have -> : k = 1%N by case: k h1 h2 => [|[|k]] // _ /(_ isT) [].
move=> hst; exact: (rest_is_opt Htv Hp sS ns0 a0 b0 v0 (s := FBState K (fb_gamma p) None) g0 e0 l0 pK hst).
Qed.
Print Assumptions C114_rest_is_optimal.

(** ** C115: the returned precision need not be positive definite *)
Theorem C115_negative : forall m tv pn is_pos_def pinvh p r,
  tv_ok tv -> pinvh_ok pinvh -> fb_runs p -> 0 <= fb_beta p -> fb_vareps p = 0 -> 0 <= fb_delta p -> 0 < fb_eps p ->
  fb_gamma p = 1 -> fb_lamda p = 1 -> (0 < fb_max_iter p)%N ->
  tgl_forward_backward tv pn is_pos_def pinvh ([ffun=> 10%:R%:M] : stack 2 m.+2) (Some (fun=> 1)) p
    (Init3Array [ffun=> 1%:M]) = FBOk r ->
  exists2 c : R, 0 < c & forall t, fr_precision r t = (- c)%:M.
Proof.
move=> m tv pn is_pos_def pinvh p r Htv Hp hr b0 v0 d0 e0 g1 l1' m0 er.
have [k [[h1 [_ h2]] -> _ _ _]] := fb_result_run hr er.
have k0 : (0 < k)%N by case: (posnP k) => // k0; move: h2; rewrite k0 => /(_ m0) [].
have hneg : neg (fb_run tv pn is_pos_def pinvh ([ffun=> 10%:R%:M] : stack 2 m.+2) (fun=> 1) p (Init3Array [ffun=> 1%:M]) k).
  case: k {h1 h2} k0 => // k _; elim: k => [|k IH].
    exact: (first_neg is_pos_def pn Htv Hp b0 v0 d0 g1 l1' hr).
  exact: (neg_next is_pos_def pn Htv Hp b0 v0 e0 g1 l1' k.+1 IH).
by have [_ [c c0 ->]] := hneg; exists c => // t; rewrite ffunE.
Qed.
Print Assumptions C115_negative.
Definition bad_params : fb_params :=
  FBParams 0 1 100 (10000%:R^-1) (10000%:R^-1) 1 1 (2%:R^-1) false true true "gamma" true 0 None 0 false.
Theorem C115_refuted :
  ~ (forall n m tv is_pos_def pinvh (S : stack n m.+2) ns p (K : stack n m.+2) r,
     tv_ok tv -> pinvh_ok pinvh -> pos_def_ok is_pos_def -> slices (@pd n) S -> (forall t, 0 < ns t) ->
     0 <= fb_alpha p -> 0 <= fb_beta p -> 0 <= fb_vareps p -> fb_choose p = "gamma"%string ->
     0 < fb_gamma p -> 0 < fb_lamda p -> fb_lamda p <= 1 -> 0 < fb_delta p -> fb_delta p < 1 ->
     0 < fb_eps p -> fb_eps p < 1 -> slices (@pd n) K ->
     tgl_forward_backward tv (@l1 1 m.+1) is_pos_def pinvh S (Some ns) p (Init3Array K) = FBOk r ->
     slices (@pd n) (fr_precision r)).
Proof.
move=> h; have [tv Htv] := tv2_exists; have [pinvh [is_pos_def [Hp Hd]]] := routines_exist 2.
pose S : stack 2 2 := [ffun=> 10%:R%:M]; pose K : stack 2 2 := [ffun=> 1%:M].
have hr : fb_runs bad_params by [].
have tenk0 : 0 < 10000%:R^-1 :> R by rewrite invr_gt0 ltr0n.
have tenk1 : 10000%:R^-1 < 1 :> R by rewrite invf_lt1 ?ltr0n // ltr1n.
have half0 : 0 < 2%:R^-1 :> R by rewrite invr_gt0 ltr0n.
have half1 : 2%:R^-1 < 1 :> R by rewrite invf_lt1 ?ltr0n // ltr1n.
have pdc (c : R) : 0 < c -> slices (@pd 2) ([ffun=> c%:M] : stack 2 2).
  by move=> c0 t; rewrite ffunE -scalemx1; apply: pdZ => //; exact: pd1.
have [r er] := fb_ok tv (@l1 1 1) is_pos_def pinvh S (fun=> 1) (Init3Array K) hr isT.
have [c c0 eq] := C115_negative Htv Hp hr ler01 erefl (ltW tenk0) half0 erefl erefl isT er.
have /(_ 0) := h 2%N 0%N tv is_pos_def pinvh S (fun=> 1) bad_params K r Htv Hp Hd (pdc _ (ltr0n _ 10)) (fun=> ltr01) (lexx 0) ler01 (lexx 0)
    erefl ltr01 ltr01 (lexx 1) tenk0 tenk1 half0 half1 (pdc _ ltr01) er.
rewrite eq => pN; have := pd_diag_gt0 0 pN; rewrite !mxE /= mulr1n oppr_gt0 => c1.
by have := lt_trans c0 c1; rewrite ltxx.
Qed.
Print Assumptions C115_refuted.

(** ** C116: which calls raise *)
Definition valid_choose (c : string) : bool := c \in [:: "gamma"%string; "lamda"%string; "fixed"%string; "both"%string].
(** at least two times, at least one iteration: the call returns iff choose is "gamma" or "fixed" and n_samples is given *)
Theorem C116_returns : forall n m tv pn is_pos_def pinvh (S : stack n m.+2) ns p init, (0 < fb_max_iter p)%N ->
  (exists r, tgl_forward_backward tv pn is_pos_def pinvh S ns p init = FBOk r) <-> fb_runs p /\ exists f, ns = Some f.
Proof.
move=> n m tv pn is_pos_def pinvh S ns p init m0; split=> [[r]|[hr [f ->]]]; last by apply: fb_ok; rewrite ?m0.
rewrite /tgl_forward_backward; case: ifPn => // /negPn h1; rewrite m0 /=; case: ns => [f|] //=.
case: ifPn => // h2 _; split; last by exists f.
by move: h1 h2; rewrite /fb_runs !inE => /or4P [] /eqP ->.
Qed.
Print Assumptions C116_returns.
(** choose="lamda" and choose="both" always raise TypeError, and so does a call without n_samples (the default) *)
Theorem C116_type_error : forall n m tv pn is_pos_def pinvh (S : stack n m.+2) ns p init, (0 < fb_max_iter p)%N ->
  tgl_forward_backward tv pn is_pos_def pinvh S ns p init = FBTypeError _ _ <->
  valid_choose (fb_choose p) /\ (fb_choose p \in [:: "lamda"%string; "both"%string] \/ ns = None).
Proof.
move=> n m tv pn is_pos_def pinvh S ns p init m0; rewrite /tgl_forward_backward /valid_choose m0.
case: ifPn => [/negbTE -> |/negPn ->]; first by split=> // -[].
case: ns => [f|] /=; last by split=> // _; split=> //; right.
case: ifPn => h; first by split=> // _; split=> //; left.
split=> [|[_ [h'|//]]]; last by case/negP: h.
by case: fb_return_n_iter => //; case: le_iter.
Qed.
Print Assumptions C116_type_error.
(** a single time raises, whatever the other arguments *)
Theorem C116_single_time : forall n tv pn is_pos_def pinvh (S : stack n 1) ns p init,
  (0 < fb_max_iter p)%N || ~~ fb_laplacian p -> forall r,
  tgl_forward_backward tv pn is_pos_def pinvh S ns p init <> FBOk r.
Proof.
move=> n tv pn is_pos_def pinvh S ns p init h r; rewrite /tgl_forward_backward.
case: ifP => // _; case: fb_laplacian h => //=; rewrite orbF => ->; by case: ns.
Qed.
Print Assumptions C116_single_time.
(** no iteration and the number of iterations requested (the default): UnboundLocalError *)
Theorem C116_no_iteration : forall n m tv pn is_pos_def pinvh (S : stack n m.+2) ns p init, fb_max_iter p = 0%N ->
  valid_choose (fb_choose p) ->
  tgl_forward_backward tv pn is_pos_def pinvh S ns p init = FBUnbound _ _ <-> fb_return_n_iter p.
Proof.
move=> n m tv pn is_pos_def pinvh S ns p init m0; rewrite /tgl_forward_backward /valid_choose m0 => -> /=.
by rewrite /fb_loop m0 /=; case: fb_return_n_iter.
Qed.
Print Assumptions C116_no_iteration.

(** ** C117: counts *)
Theorem C117_counts : forall n m tv pn is_pos_def pinvh (S : stack n m.+2) ns p init r, fb_runs p ->
  tgl_forward_backward tv pn is_pos_def pinvh S (Some ns) p init = FBOk r ->
  exists k, [/\ (k <= fb_max_iter p)%N, (0 < fb_max_iter p)%N -> (0 < k)%N,
    fr_n_iter r = (if fb_return_n_iter p then Some k else None),
    (if fb_return_history p then exists2 h, fr_history r = Some h & size h = k.+1 else fr_history r = None) &
    (fr_warned r -> k = fb_max_iter p) /\ ((k < fb_max_iter p)%N -> fr_warned r = false)].
Proof.
move=> n m tv pn is_pos_def pinvh S ns p init r hr er.
have [k [[h1 [_ h2]] _ h3 h4 [_ h5]]] := fb_result_run hr er; exists k; split=> //.
- by case: (posnP k) => // k0; move: h2; rewrite k0 => h m0; have [] := h m0.
- by rewrite h3; case: fb_return_history => //; eexists; first reflexivity; rewrite /= size_map size_iota.
- by rewrite h5; split=> [/andP [/eqP]|/ltn_eqF ->].
Qed.
Print Assumptions C117_counts.
(** the number of line searches returned is always 0 *)
Theorem C117_n_linesearch : forall n m tv pn is_pos_def pinvh (S : stack n m.+1) ns p init r,
  tgl_forward_backward tv pn is_pos_def pinvh S ns p init = FBOk r ->
  fr_n_linesearch r = if fb_return_n_linesearch p then Some 0%N else None.
Proof.
move=> n m tv pn is_pos_def pinvh S ns p init r; rewrite /tgl_forward_backward.
do 5! (case: ifP => // _); case: fb_return_n_iter; last by move=> [<-].
by case: le_iter => // it [<-].
Qed.
Print Assumptions C117_n_linesearch.
(** the covariance is the pseudo-inverse of the precision, at every time *)
Theorem C117_covariance : forall n m tv pn is_pos_def pinvh (S : stack n m.+1) ns p init r,
  tgl_forward_backward tv pn is_pos_def pinvh S ns p init = FBOk r ->
  forall t, fr_covariance r t = pinvh (fr_precision r t).
Proof.
move=> n m tv pn is_pos_def pinvh S ns p init r; rewrite /tgl_forward_backward.
do 5! (case: ifP => // _); case: fb_return_n_iter; last by move=> [<-] t; rewrite ffunE.
by case: le_iter => // it [<-] t; rewrite ffunE.
Qed.
Print Assumptions C117_covariance.

(** ** C118: how far an iterate is from the optimum *)
(** X: an iterate, Y: the proximal point of a step of length gamma from X *)
Theorem C118_certificate : forall n m tv pinvh (S : stack n m.+2) ns p gamma (X Y Z : stack n m.+2),
  tv_ok tv -> pinvh_ok pinvh -> slices (@sym n) S -> (forall t, 0 <= ns t) ->
  0 <= fb_alpha p -> 0 <= fb_beta p -> 0 <= fb_vareps p -> 0 < gamma ->
  slices (@pd n) X -> slices (@pd n) Z ->
  Y = proposal tv (fb_laplacian p) (fb_beta p) (fb_alpha p) X (fb_grad pinvh S ns p X) gamma ->
  let prob K := fb_problem (fb_laplacian p) ns S (fb_alpha p) (fb_beta p) (fb_vareps p) K in
  let penalty := fb_g (@l1 1 m.+1) p in
  let decrease := penalty X - penalty Y - sdot (fb_grad pinvh S ns p X) (Y - X) in
  sdist2 Y X / gamma <= decrease /\
  prob X <= prob Z + decrease + sdot (X - Y) (Y - Z) / gamma.
Proof.
move=> n m tv pinvh S ns p gamma X Y Z Htv Hp sS ns0 a0 b0 v0 g0 pX pZ eY prob penalty decrease.
rewrite /decrease /penalty !fb_gE sdist2E !sdotE; have eY' : Y = fb_y tv pinvh S ns p gamma X by [].
have h1 := Delta_ge pinvh S ns Htv a0 b0 X g0; have h2 := gap_bound Htv Hp sS ns0 a0 b0 v0 g0 pX pZ.
rewrite /Delta -eY' in h1 h2; split; first by rewrite mulrC.
move: h2; rewrite -/(prob X) -/(prob Z) [_ / gamma]mulrC; move: (prob X) (prob Z) (_ - _ - _) (gamma^-1 * _) => *; mclra.
Qed.
Print Assumptions C118_certificate.
