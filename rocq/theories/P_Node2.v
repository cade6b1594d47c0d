(** More proofs about prox_node_penalty: what the matrices it returns satisfy. *)
From Coq Require Import Reals Lra Psatz.
From mathcomp Require Import all_ssreflect all_algebra.
From Verif Require Import RStruct RTac LinTac S_Mat RMx NP M_Prox M_Loop M_TGL M_Node P_Node.
Import Order.TTheory GRing.Theory Num.Theory.

Set Implicit Arguments.
Unset Strict Implicit.
Unset Printing Implicit Defensive.
Local Open Scope ring_scope.

Lemma node_step_sum n (A1 A2 : 'M[R]_n) lam s s' : node_step A1 A2 lam s = Some s' -> nd_Y1 s' + nd_Y2 s' = A1 + A2.
Proof.
rewrite /node_step; case: (bsts _ _) => // V; set Z := node_inverse n *m _ => -[<-] /=.
have eZ : Z = col_mx (col_mx (usubmx (usubmx Z)) (dsubmx (usubmx Z))) (dsubmx Z) by rewrite !vsubmxK.
move/node_solve: eZ; cbv zeta; set E := (_ + nd_U1 s); move=> [_ h2 h3].
set Y1 := dsubmx (usubmx Z); set Y2 := dsubmx Z.
have -> : Y1 + Y2 = 2%:R^-1 *: ((- E + 2%:R *: Y1) + (E + 2%:R *: Y2)) by lin.
by rewrite h2 h3; lin.
Qed.

Lemma node_all_sum n T (A1 A2 : stack n T) lam ss new : node_all A1 A2 lam ss = Some new ->
  forall t, nd_Y1 (new t) + nd_Y2 (new t) = A1 t + A2 t.
Proof.
rewrite /node_all; case: forallP => // h [<-] t; have := h t.
by case E: (node_step _ _ _ _) => [s'|] // _; apply: node_step_sum E.
Qed.

Lemma node_loop_sum n T (A1 A2 : stack n T) lam tol rtol todo s Y1 Y2 w :
  (0 < todo)%N \/ (forall t, nd_Y1 (ns_slices s t) + nd_Y2 (ns_slices s t) = A1 t + A2 t) ->
  node_loop A1 A2 lam tol rtol todo s = Some (Y1, Y2, w) -> forall t, Y1 t + Y2 t = A1 t + A2 t.
Proof.
elim: todo s => [|todo IH] s /=.
  by case=> // h [<- <- _] t; rewrite !ffunE.
move=> _; case E: (node_all _ _ _ _) => [new|] //.
case: ifP => [_ [<- <- _] t|_]; first by rewrite !ffunE (node_all_sum E).
by apply: IH; right => t /=; rewrite (node_all_sum E).
Qed.

(** the iteration that returned *)
Lemma node_loop_stop n T (A1 A2 : stack n T) lam tol rtol todo s Y1 Y2 :
  node_loop A1 A2 lam tol rtol todo s = Some (Y1, Y2, false) ->
  exists old new, [/\ node_all A1 A2 lam (ns_slices old) = Some new,
    stop_test (node_check (ns_rho old) tol rtol (ns_slices old) new),
    (forall t, Y1 t = nd_Y1 (new t)) & (forall t, Y2 t = nd_Y2 (new t))].
Proof.
elim: todo s => [|todo IH] s //=; case E: (node_all _ _ _ _) => [new|] //.
case: ifP => [st [<- <-]|_]; last exact: IH.
by exists s, new; split=> // t; rewrite ffunE.
Qed.
