(** Property theorems C115, C119, C120: convergence and termination of the forward-backward solver. *)
From Coq Require Import Reals Lra String.
From mathcomp Require Import all_ssreflect all_algebra.
From Verif Require Import RStruct RTac LinTac Spectral S_Mat RMx ADMM NP Str M_Prox S_Prox.
From Verif Require Import P_Prox P_Prox2 P_Prox3 M_Loop P_Loop M_GL M_LGL S_Fit P_GL2.
From Verif Require Import M_TGL S_TGL P_TGL M_FB S_FB P_FB P_FB2 P_FB3 P_FB4 P_FB5 P_FB6 P_FB7 P_FB8 T_FB T_FB2.
Import Order.TTheory GRing.Theory Num.Theory.

Set Implicit Arguments.
Unset Strict Implicit.
Unset Printing Implicit Defensive.
Local Open Scope ring_scope.


(** the same arguments with other values of gamma, max_iter and debug *)
Definition with_run (p : fb_params) (gamma : R) (max_iter : nat) (debug : bool) : fb_params :=
  FBParams (fb_alpha p) (fb_beta p) max_iter (fb_tol p) (fb_delta p) gamma (fb_lamda p) (fb_eps p) debug
    (fb_return_history p) (fb_return_n_iter p) (fb_choose p) (fb_return_n_linesearch p) (fb_vareps p)
    (fb_stop_at p) (fb_stop_when p) (fb_laplacian p).

Section Fixed.
Variables (n m : nat) (tv : 'rV[R]_m.+2 -> R -> 'rV[R]_m.+2) (is_pos_def : 'M[R]_n -> bool).
Variables (pinvh : 'M[R]_n -> 'M[R]_n) (S : stack n m.+2) (ns : 'I_m.+2 -> R) (p : fb_params).
Variable (K : stack n m.+2).
Hypothesis Htv : tv_ok tv.
Hypothesis Hp : pinvh_ok pinvh.
Hypothesis sS : slices (@sym n) S.
Hypothesis ns0 : forall t, 0 < ns t.
Hypothesis a0 : 0 <= fb_alpha p.
Hypothesis b0 : 0 <= fb_beta p.
Hypothesis v0 : 0 < fb_vareps p.
Hypothesis l0 : 0 < fb_lamda p.
Hypothesis ll1 : fb_lamda p <= 1.
Hypothesis d0 : 0 < fb_delta p.
Hypothesis d1 : fb_delta p < 1.
Hypothesis hch : fb_choose p = "fixed"%string.
Hypothesis pK : slices (@pd n) K.
Local Notation prob K := (fb_problem (fb_laplacian p) ns S (fb_alpha p) (fb_beta p) (fb_vareps p) K).
Local Notation run g k d := (tgl_forward_backward tv (@l1 1 m.+1) is_pos_def pinvh S (Some ns) (with_run p g k d) (Init3Array K)).
Local Notation pd' := (with_run p 1 1).

Lemma fixed_run_good (d : bool) : exists2 g1 : R, 0 < g1 & forall g : R, 0 < g -> g <= g1 -> forall k,
  let s0 := FBState K g None in
  [/\ goods tv is_pos_def pinvh S ns (pd' d) s0 k, all_pd tv is_pos_def pinvh S ns (pd' d) s0 k &
      forall j, used tv is_pos_def pinvh S ns (pd' d) j (iter_state (fb_body tv (@l1 1 m.+1) is_pos_def pinvh S ns (pd' d)) 0 s0 j) = g].
Proof.
have [g1 g1p h] := @fixed_good n m tv is_pos_def pinvh S ns (pd' d) Htv Hp sS ns0 a0 b0 v0 l0 ll1 d0 d1 (prob K) hch.
exists g1 => // g gp gle k s0; have [h1 h2] := h s0 pK (lexx _) gp gle k; split=> // j.
by rewrite (@fixed_step n m tv is_pos_def pinvh S ns (pd' d) l0 ll1 j _ hch).1 (@fixed_gam n m tv is_pos_def pinvh S ns (pd' d) l0 ll1 s0 j hch).
Qed.
End Fixed.

(** ** C115, in part: with a small fixed step length every run returns positive definite matrices *)
Theorem C115_fixed_step : forall n m tv is_pos_def pinvh (S : stack n m.+2) ns p (K : stack n m.+2),
  tv_ok tv -> pinvh_ok pinvh -> slices (@sym n) S -> (forall t, 0 < ns t) ->
  0 <= fb_alpha p -> 0 <= fb_beta p -> 0 < fb_vareps p -> 0 < fb_lamda p -> fb_lamda p <= 1 ->
  0 < fb_delta p -> fb_delta p < 1 -> fb_choose p = "fixed"%string -> slices (@pd n) K ->
  exists2 g1 : R, 0 < g1 & forall g max_iter r, 0 < g -> g <= g1 ->
    tgl_forward_backward tv (@l1 1 m.+1) is_pos_def pinvh S (Some ns) (with_run p g max_iter (fb_debug p)) (Init3Array K) = FBOk r ->
    slices (@pd n) (fr_precision r) /\
    fb_problem (fb_laplacian p) ns S (fb_alpha p) (fb_beta p) (fb_vareps p) (fr_precision r) <=
    fb_problem (fb_laplacian p) ns S (fb_alpha p) (fb_beta p) (fb_vareps p) K.
Proof.
move=> n m tv is_pos_def pinvh S ns p K Htv Hp sS ns0 a0 b0 v0 l0 ll1 d0 d1 hch pK.
have [g1 g1p h] := fixed_run_good is_pos_def Htv Hp sS ns0 a0 b0 v0 l0 ll1 d0 d1 hch pK (fb_debug p).
exists g1 => // g k r gp gle er.
have hr : fb_runs (with_run p g k (fb_debug p)) by rewrite /fb_runs /= hch.
have [i [_ -> _ _ _]] := fb_result_run hr er.
have [h1 h2 _] := h g gp gle i; split; first exact: h2 i (leqnn i).
apply: (@prob_mono n m tv is_pos_def pinvh S ns (with_run p 1 1 (fb_debug p)) Htv sS (fun t => ltW (ns0 t)) a0 b0 l0 ll1 d0 d1
  (FBState K g None) i i 0 _ h1 h2).
by rewrite leq0n leqnn.
Qed.
Print Assumptions C115_fixed_step.

(** ** C119: convergence to the optimal value *)
(** choose="fixed": with a small step length, unconditionally (debug=True: no early stop) *)
Theorem C119_fixed_step : forall n m tv is_pos_def pinvh (S : stack n m.+2) ns p (K : stack n m.+2),
  tv_ok tv -> pinvh_ok pinvh -> slices (@sym n) S -> (forall t, 0 < ns t) ->
  0 <= fb_alpha p -> 0 <= fb_beta p -> 0 < fb_vareps p -> 0 < fb_lamda p -> fb_lamda p <= 1 ->
  0 < fb_delta p -> fb_delta p < 1 -> fb_choose p = "fixed"%string -> fb_stop_at p = None -> slices (@pd n) K ->
  let prob K := fb_problem (fb_laplacian p) ns S (fb_alpha p) (fb_beta p) (fb_vareps p) K in
  exists2 g1 : R, 0 < g1 & forall g, 0 < g -> g <= g1 ->
    forall (Z : stack n m.+2) (e : R), slices (@pd n) Z -> 0 < e ->
    exists N, forall max_iter r, (N <= max_iter)%N ->
      tgl_forward_backward tv (@l1 1 m.+1) is_pos_def pinvh S (Some ns) (with_run p g max_iter true) (Init3Array K) = FBOk r ->
      prob (fr_precision r) <= prob Z + e.
Proof.
move=> n m tv is_pos_def pinvh S ns p K Htv Hp sS ns0 a0 b0 v0 l0 ll1 d0 d1 hch hst pK prob.
have [g1 g1p h] := fixed_run_good is_pos_def Htv Hp sS ns0 a0 b0 v0 l0 ll1 d0 d1 hch pK true.
exists g1 => // g gp gle Z e pZ ep.
have [N hN] := @converges n m tv is_pos_def pinvh S ns (with_run p 1 1 true) Htv Hp sS ns0 a0 b0 v0 l0 ll1 d0 d1 (FBState K g None) Z e g pZ ep gp.
exists N => k r Nk er.
have hr : fb_runs (with_run p g k true) by rewrite /fb_runs /= hch.
have [i [[i1 [_ i2]] -> _ _ _]] := fb_result_run hr er.
have ik : i = k.
  apply/eqP; rewrite eqn_leq i1 leqNgt; apply/negP => /i2 [i0]; rewrite add0n /fb_body.
  by case: (fb_step _ _ _ _ _ _ _ _) => gg z; rewrite /= hst.
have [h1 h2 h3] := h g gp gle k; rewrite ik; apply: (hN k Nk h1 h2) => j jk.
by rewrite h3.
Qed.
Print Assumptions C119_fixed_step.
(** choose="gamma": as long as the searches succeed and the iterates are positive definite *)
Theorem C119_line_search : forall n m tv is_pos_def pinvh (S : stack n m.+2) ns p init,
  tv_ok tv -> pinvh_ok pinvh -> slices (@sym n) S -> (forall t, 0 < ns t) ->
  0 <= fb_alpha p -> 0 <= fb_beta p -> 0 < fb_vareps p -> fb_choose p = "gamma"%string ->
  0 < fb_gamma p -> 0 < fb_lamda p -> fb_lamda p <= 1 -> 0 < fb_delta p -> fb_delta p < 1 ->
  0 < fb_eps p -> fb_eps p < 1 ->
  let prob K := fb_problem (fb_laplacian p) ns S (fb_alpha p) (fb_beta p) (fb_vareps p) K in
  forall (Z : stack n m.+2) (e : R), slices (@pd n) Z -> 0 < e -> exists N, forall k, (N <= k)%N ->
    (forall j, (j < k)%N -> search_succeeds tv (@l1 1 m.+1) is_pos_def pinvh S ns p init j) ->
    (forall j, (j <= k)%N -> slices (@pd n) (fb_K (fb_run tv (@l1 1 m.+1) is_pos_def pinvh S ns p init j))) ->
    prob (fb_K (fb_run tv (@l1 1 m.+1) is_pos_def pinvh S ns p init k)) <= prob Z + e.
Proof.
move=> n m tv is_pos_def pinvh S ns p init Htv Hp sS ns0 a0 b0 v0 hch g0 l0 ll1 d0 d1 e0 e1 prob Z e pZ ep.
exact: (@gamma_converges n m tv is_pos_def pinvh S ns p Htv Hp sS ns0 a0 b0 v0 l0 ll1 d0 d1
  (FBState (init_precision3 pinvh S init) (fb_gamma p) None) hch e0 e1 g0 Z e pZ ep).
Qed.
Print Assumptions C119_line_search.

(** ** C120: termination *)
Theorem C120_fixed_step : forall n m tv is_pos_def pinvh (S : stack n m.+2) ns p (K : stack n m.+2),
  tv_ok tv -> pinvh_ok pinvh -> slices (@sym n) S -> (forall t, 0 < ns t) ->
  0 <= fb_alpha p -> 0 <= fb_beta p -> 0 < fb_vareps p -> 0 < fb_lamda p -> fb_lamda p <= 1 ->
  0 < fb_delta p -> fb_delta p < 1 -> fb_choose p = "fixed"%string -> slices (@pd n) K ->
  0 < fb_tol p -> fb_stop_at p = None ->
  exists2 g1 : R, 0 < g1 & forall g, 0 < g -> g <= g1 -> exists N, forall max_iter r, (N <= max_iter)%N ->
    tgl_forward_backward tv (@l1 1 m.+1) is_pos_def pinvh S (Some ns) (with_run p g max_iter false) (Init3Array K) = FBOk r ->
    fr_warned r = false.
Proof.
move=> n m tv is_pos_def pinvh S ns p K Htv Hp sS ns0 a0 b0 v0 l0 ll1 d0 d1 hch pK t0 hst.
have [g1 g1p h] := fixed_run_good is_pos_def Htv Hp sS ns0 a0 b0 v0 l0 ll1 d0 d1 hch pK false.
exists g1 => // g gp gle.
have [N hN] := @stops n m tv is_pos_def pinvh S ns (with_run p 1 1 false) Htv sS ns0 a0 b0 v0 l0 ll1 d0 d1 (FBState K g None) g gp t0 hst erefl.
exists N => k r Nk.
have hr : fb_runs (with_run p g k false) by rewrite /fb_runs /= hch.
have [h1 h2 h3] := h g gp gle k.
have [j jN hb] := hN k Nk h1 h2 (fun j _ => eq_ind_r (fun x => g <= x) (lexx g) (h3 j)).
have nw := py_for_nowarn (body := fb_body tv (@l1 1 m.+1) is_pos_def pinvh S ns (with_run p g k false)) [::] None (leq_trans jN Nk) hb.
rewrite (fb_runE _ _ _ _ _ _ _ hr); case: fb_return_n_iter; last by move=> [<-]; apply/negbTE.
by case: le_iter => // it [<-]; apply/negbTE.
Qed.
Print Assumptions C120_fixed_step.
(** a long enough run that still warns had a failing search or an indefinite iterate *)
Theorem C120_line_search : forall n m tv is_pos_def pinvh (S : stack n m.+2) ns p init,
  tv_ok tv -> pinvh_ok pinvh -> slices (@sym n) S -> (forall t, 0 < ns t) ->
  0 <= fb_alpha p -> 0 <= fb_beta p -> 0 < fb_vareps p -> fb_choose p = "gamma"%string ->
  0 < fb_gamma p -> 0 < fb_lamda p -> fb_lamda p <= 1 -> 0 < fb_delta p -> fb_delta p < 1 ->
  0 < fb_eps p -> fb_eps p < 1 -> 0 < fb_tol p -> fb_stop_at p = None -> fb_debug p = false ->
  exists N, forall max_iter r, (N <= max_iter)%N ->
    (forall j, (j < N)%N -> search_succeeds tv (@l1 1 m.+1) is_pos_def pinvh S ns p init j) ->
    (forall j, (j <= N)%N -> slices (@pd n) (fb_K (fb_run tv (@l1 1 m.+1) is_pos_def pinvh S ns p init j))) ->
    tgl_forward_backward tv (@l1 1 m.+1) is_pos_def pinvh S (Some ns) (with_run p (fb_gamma p) max_iter (fb_debug p)) init = FBOk r ->
    fr_warned r = false.
Proof.
move=> n m tv is_pos_def pinvh S ns p init Htv Hp sS ns0 a0 b0 v0 hch g0 l0 ll1 d0 d1 e0 e1 t0 hst hdb.
have [N hN] := @gamma_stops n m tv is_pos_def pinvh S ns p Htv Hp sS ns0 a0 b0 v0 l0 ll1 d0 d1
  (FBState (init_precision3 pinvh S init) (fb_gamma p) None) hch e0 e1 g0 t0 hst hdb.
exists N => k r Nk hs hp.
have hr : fb_runs (with_run p (fb_gamma p) k (fb_debug p)) by rewrite /fb_runs /= hch.
have [j jN hb] := hN N (leqnn N) hs hp.
have nw := py_for_nowarn (body := fb_body tv (@l1 1 m.+1) is_pos_def pinvh S ns (with_run p (fb_gamma p) k (fb_debug p))) [::] None (leq_trans jN Nk) hb.
rewrite (fb_runE _ _ _ _ _ _ _ hr); case: fb_return_n_iter; last by move=> [<-]; apply/negbTE.
by case: le_iter => // it [<-]; apply/negbTE.
Qed.
Print Assumptions C120_line_search.
