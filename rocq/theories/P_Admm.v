(** Generic consequences of the ADMM analysis for a solver loop. *)
From Coq Require Import Reals Lra Psatz.
From mathcomp Require Import all_ssreflect all_algebra.
From Verif Require Import RStruct RTac LinTac S_Mat RMx ADMM NP M_Loop P_Loop P_GL P_GL2.
Import Order.TTheory GRing.Theory Num.Theory.

Set Implicit Arguments.
Unset Strict Implicit.
Unset Printing Implicit Defensive.
Local Open Scope ring_scope.

Section Gen.
Variables (V W : lmodType R) (dv : innerp V) (dw : innerp W) (B : V -> W) (Bt : W -> V).
Hypothesis BD : forall x y, B (x - y) = B x - B y.
Hypothesis Badj : forall x w, dw (B x) w = dv x (Bt w).
Variables (D : V -> Prop) (f : V -> R) (g : W -> R) (rho : R).
Hypothesis r0 : 0 < rho.
Variables (S C : Type) (body : nat -> S -> outcome S * C) (st : S).
Variables (zp up : S -> W) (kp : S -> V).
Local Notation it := (iter_state body 0 st).
Hypothesis run : forall k, admm_step dv dw B Bt D f g rho (zp (it k)) (up (it k)) (kp (it k.+1))
  (zp (it k.+1)) (up (it k.+1)).
Variable e : R.
Hypothesis e0 : 0 < e.
Hypothesis brk : forall k,
  dw (up (it k.+2) - up (it k.+1)) (up (it k.+2) - up (it k.+1)) <= e ^+ 2 ->
  rho ^+ 2 * dw (zp (it k.+2) - zp (it k.+1)) (zp (it k.+2) - zp (it k.+1)) <= e ^+ 2 ->
  is_break (body k.+1 (it k.+1)).1.

Lemma gen_nowarn xo uo N max_iter : kkt dv dw B Bt D f g rho xo uo ->
  (0 < N)%N -> (N < max_iter)%N ->
  let d := dw (up st - uo) (up st - uo) + dw (zp st - B xo) (zp st - B xo) in
  d <= e ^+ 2 * N%:R -> rho ^+ 2 * d <= e ^+ 2 * N%:R ->
  ~~ le_else (py_for body max_iter 0 st [::] None).
Proof.
move=> k N0 Nm d h1 h2; have r2 : 0 < rho ^+ 2 by apply: exprn_gt0.
have e2 : 0 < e ^+ 2 by apply: exprn_gt0.
pose eps := np_min (e ^+ 2) (e ^+ 2 / rho ^+ 2).
have [ep [el1 el2]] : 0 < eps /\ (eps <= e ^+ 2 /\ eps <= e ^+ 2 / rho ^+ 2).
  have [m1 m2 m3] := np_minP (e ^+ 2) (e ^+ 2 / rho ^+ 2).
  by split=> //; case: m3 => E; rewrite /eps E // divr_gt0.
have dN : d <= eps * N%:R.
  have [_ _ [|]] := np_minP (e ^+ 2) (e ^+ 2 / rho ^+ 2).
    by rewrite /eps => ->.
  by rewrite /eps => ->; rewrite mulrAC ler_pdivl_mulr // (mulrC d).
have [j [/andP[j1 jN] s1 s2]] := run_small (zs := fun k => zp (it k)) (us := fun k => up (it k)) BD Badj r0 run k N0 ep dN.
case: j j1 jN s1 s2 => // j _ jN s1 s2.
apply: (@py_for_nowarn _ _ _ _ _ _ _ _ j.+1); first exact: leq_ltn_trans jN Nm.
rewrite add0n; apply: brk; first exact: le_trans s1 el1.
by rewrite mulrC -ler_pdivl_mulr //; exact: le_trans s2 el2.
Qed.

Lemma gen_bound (x : R) : exists N, [/\ (0 < N)%N, x <= e ^+ 2 * N%:R & rho ^+ 2 * x <= e ^+ 2 * N%:R].
Proof.
have e2 : 0 < e ^+ 2 by apply: exprn_gt0.
have [N1 [N10 h1]] := archi x e2; have [N2 [N20 h2]] := archi (rho ^+ 2 * x) e2.
exists (maxn N1 N2); split.
- by rewrite leq_max N10.
- by apply: le_trans h1 _; apply: ler_wpmul2l; rewrite ?ler_nat ?leq_maxl // ltW.
- by apply: le_trans h2 _; apply: ler_wpmul2l; rewrite ?ler_nat ?leq_maxr // ltW.
Qed.
End Gen.
