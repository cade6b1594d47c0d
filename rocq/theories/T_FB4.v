(** Cases for the property theorems C51, C111-C120. *)
From Coq Require Import Reals Lra String.
From mathcomp Require Import all_ssreflect all_algebra.
From Verif Require Import RStruct RTac LinTac Spectral S_Mat RMx ADMM NP Str M_Prox S_Prox.
From Verif Require Import P_Prox P_Prox2 P_Prox3 M_Loop P_Loop M_GL M_LGL S_Fit P_GL2.
From Verif Require Import M_TGL S_TGL P_TGL M_FB S_FB P_FB P_FB2 P_FB3 P_FB4 P_FB5 P_FB6 P_FB7 P_FB8 T_FB T_FB2 T_FB3.
Import Order.TTheory GRing.Theory Num.Theory.

Set Implicit Arguments.
Unset Strict Implicit.
Unset Printing Implicit Defensive.
Local Open Scope ring_scope.


(** ** cases *)
(** two variables, two times: S = I/2 and vareps = 1/2, started at the optimum I. The searches succeed at once, and forever *)
Definition case_params : fb_params :=
  FBParams 1 1 100 (10000%:R^-1) (10000%:R^-1) 1 1 (2%:R^-1) false true true "gamma" true (2%:R^-1) None 0 false.
Definition case_S : stack 2 2 := [ffun=> (2%:R^-1)%:M].
Definition case_K : stack 2 2 := [ffun=> 1%:M].
Lemma case_numbers : [/\ 0 < 10000%:R^-1 :> R, 10000%:R^-1 < 1 :> R, 0 < 2%:R^-1 :> R & 2%:R^-1 < 1 :> R].
Proof. by rewrite !invr_gt0 !ltr0n !invf_lt1 ?ltr0n // !ltr1n. Qed.
Lemma case_pd : slices (@pd 2) case_K.
Proof. by move=> t; rewrite ffunE; exact: pd1. Qed.
Lemma case_sym : slices (@sym 2) case_S.
Proof. by move=> t; rewrite ffunE; exact: sym_scalar. Qed.
Lemma case_y tv pinvh g : tv_ok tv -> pinvh_ok pinvh -> 0 < g -> fb_y tv pinvh case_S (fun=> 1) case_params g case_K = case_K.
Proof.
move=> Htv Hp g0; rewrite /fb_y.
have -> : fb_grad pinvh case_S (fun=> 1) case_params case_K = 0.
  apply: stackE => t; rewrite !ffunE Hp ?invmx1 ?unitmx1 //; last exact: sym_scalar.
  rewrite scale1r scale_scalar_mx -raddfB -raddfD /= mulr1.
  by have -> : 2%:R^-1 - 1 + 2%:R^-1 = 0 :> R; [mcfield|rewrite raddf0].
by rewrite scaler0 subr0 prox_const ?ler01 ?ltW.
Qed.
Lemma case_run tv is_pos_def pinvh j : tv_ok tv -> pinvh_ok pinvh ->
  let s := fb_run tv (@l1 1 1) is_pos_def pinvh case_S (fun=> 1) case_params (Init3Array case_K) j in
  fb_K s = case_K /\ 0 < fb_gam s.
Proof.
move=> Htv Hp s; have [h1 h2 h3 h4] := case_numbers.
apply: (@opt_stays 2 0 tv is_pos_def (@l1 1 1) pinvh case_S (fun=> 1) case_params Htv Hp case_sym (fun=> ler01) ler01 ler01 (ltW h3)
  (FBState case_K 1 None) j ltr01 h3).
apply: (@rest_opt 2 0 tv pinvh case_S (fun=> 1) case_params Htv Hp case_sym (fun=> ler01) ler01 ler01 (ltW h3) 1 case_K ltr01 case_pd).
by apply: case_y => //; exact: ltr01.
Qed.
Example C113_C119_C120_case : exists tv is_pos_def pinvh, [/\ tv_ok tv, pinvh_ok pinvh & pos_def_ok is_pos_def] /\
  slices (@sym 2) case_S /\ slices (@pd 2) case_K /\
  forall j, search_succeeds tv (@l1 1 1) is_pos_def pinvh case_S (fun=> 1) case_params (Init3Array case_K) j /\
    slices (@pd 2) (fb_K (fb_run tv (@l1 1 1) is_pos_def pinvh case_S (fun=> 1) case_params (Init3Array case_K) j)).
Proof.
have [tv Htv] := tv2_exists; have [pinvh [is_pos_def [Hp Hd]]] := routines_exist 2.
exists tv, is_pos_def, pinvh; split=> //; split; first exact: case_sym.
split=> [|j]; first exact: case_pd.
have [eK g0] := case_run is_pos_def j Htv Hp; split; last by rewrite eK; exact: case_pd.
exists 0%N => //; set g := _ * _.
have gp : 0 < g.
  rewrite /g expr0 mulr1 /first_gamma; case: ifP => // _; apply: divr_gt0 => //; by have [_ _ ? _] := case_numbers.
rewrite eK; have := case_y Htv Hp gp; rewrite /fb_y /proposal => ->.
rewrite /gamma_test subrr scaler0 addr0 (fb_fE _ case_params case_sym case_pd) /= subrr.
by rewrite !scalarE !ip0l mulr0 addr0 mulr0.
Qed.
(** the optimum of C114 *)
Example C114_case : exists tv pinvh, [/\ @tv_ok 2 tv, @pinvh_ok 2 pinvh &
  minimiser (fun K : stack 2 2 => slices (@pd 2) K) (fun K => fb_problem false (fun=> 1) case_S 1 1 2%:R^-1 K) case_K].
Proof.
have [tv Htv] := tv2_exists; have [pinvh [is_pos_def [Hp Hd]]] := routines_exist 2.
have [h1 h2 h3 h4] := case_numbers.
exists tv, pinvh; split=> //.
apply: (@rest_opt 2 0 tv pinvh case_S (fun=> 1) case_params Htv Hp case_sym (fun=> ler01) ler01 ler01 (ltW h3) 1 case_K ltr01 case_pd).
by apply: case_y => //; exact: ltr01.
Qed.
(** a search of the relaxation parameter that succeeds at the second trial *)
Definition case_one : stack 1 1 := [ffun=> 1%:M].
Example C111_case : choose_lamda (fun=> true) 1 (0 : stack 1 1) 1 0 (2%:R^-1) (fun=> Fin 0)
  (fun K => if K == case_one then Fin 1 else Fin 0) (fun K => K) (fun=> 0) 5 "c" 0 case_one = SearchOk (2%:R^-1) 2.
Proof.
have ne (a : R) : a != 1 -> a *: case_one != case_one.
  move=> a1; apply/eqP => /ffunP /(_ 0) /matrixP /(_ 0 0); rewrite !ffunE !mxE /= mulr1n mulr1 => e.
  by rewrite e eqxx in a1.
have [_ _ _ h] := case_numbers.
rewrite /choose_lamda /= /lamda_accept /= !scalarE !ip0r !subr0 !add0r !mulr0 scale1r eqxx mul1r.
have -> : (0 == case_one) = false by apply/negbTE; have := ne 0; rewrite scale0r; apply; rewrite eq_sym oner_neq0.
rewrite /= subr0 ler10 (negbTE (ne _ _)) ?lt_eqF //= subr0 lexx //.
Qed.
Print Assumptions C113_C119_C120_case.

(** C118_stop_test: an iteration with a fixed step that stops *)
Definition case_fixed : fb_params :=
  FBParams 1 1 100 (10000%:R^-1) (10000%:R^-1) 1 1 (2%:R^-1) false true true "fixed" true (2%:R^-1) None 0 false.
Example C118_stop_case : exists tv is_pos_def pinvh s' c, tv_ok tv /\
  fb_body tv (@l1 1 1) is_pos_def pinvh case_S (fun=> 1) case_fixed 1 (FBState case_K 1 None) = (Break s', c).
Proof.
have [tv Htv] := tv2_exists; have [pinvh [is_pos_def [Hp Hd]]] := routines_exist 2; have [h1 h2 h3 h4] := case_numbers.
exists tv, is_pos_def, pinvh; rewrite /fb_body.
have -> : fb_step tv is_pos_def pinvh case_S (fun=> 1) case_fixed 1 (FBState case_K 1 None) = (1, case_K).
  by rewrite /fb_step -[fb_choose _ == _]/false; congr pair; exact: (case_y Htv Hp ltr01).
rewrite -[fb_K _]/case_K -[fb_lamda _]/(1 : R) -[fb_stop_at _]/(@None R).
have -> : stack_norm (case_K + np_min (np_max 1 0) 1 *: (case_K - case_K) - case_K) = 0.
  by rewrite subrr scaler0 addr0 subrr stack_normE /nrm ip0l sqrt_0.
by rewrite !mul0r (ltW h1) /=; eexists; eexists; split.
Qed.
