(** Proofs about the generalised linear models: proximal gradient steps, loops, the Ising solver. *)
From Coq Require Import Reals Lra Psatz.
From mathcomp Require Import all_ssreflect all_algebra.
From Verif Require Import Calc RStruct RTac LinTac Spectral S_Mat RMx ADMM NP M_Prox M_Loop M_LGL M_Stab P_Prox P_Rules M_GLM.
Import Order.TTheory GRing.Theory Num.Theory.

Set Implicit Arguments.
Unset Strict Implicit.
Unset Printing Implicit Defensive.
Local Open Scope ring_scope.

(** * the calculus lemmas in ring notation *)
Lemma lchE (u : R) : ln (exp u + exp (- u)) = lch u. Proof. by []. Qed.
Lemma thE (u : R) : (exp u - exp (- u)) / (exp u + exp (- u)) = th u.
Proof. by rewrite /th; toR. Qed.
Lemma lch_quad (u v : R) : lch v <= lch u + th u * (v - u) + (v - u) ^+ 2 / 2%:R.
Proof. by have := lch_quadratic u v => h; mclra. Qed.
Lemma exp_quad (B u v : R) : u <= B -> v <= B ->
  exp v <= exp u + exp u * (v - u) + exp B / 2%:R * (v - u) ^+ 2.
Proof. by move=> /RleP h1 /RleP h2; have := exp_quadratic h1 h2 => h; mclra. Qed.
Lemma lch_node_ge0 (x u : R) : `|x| <= 1 -> 0 <= lch u - x * u.
Proof. by move=> /RleP h; apply/RleP; apply: node_ge0. Qed.

(** Cauchy-Schwarz for sums over an index set *)
Lemma sum_cauchy d (P : pred 'I_d) (a b : 'I_d -> R) :
  (\sum_(j | P j) a j * b j) ^+ 2 <= (\sum_j a j ^+ 2) * (\sum_j b j ^+ 2).
Proof.
pose u : 'rV[R]_d := \row_j (if P j then a j else 0); pose v : 'rV[R]_d := \row_j b j.
have h : fdot u v ^+ 2 <= fdot u u * fdot v v := cauchy2 (mat_ip 1 d) u v.
have -> : \sum_(j | P j) a j * b j = fdot u v.
  rewrite /fdot big_ord1 big_mkcond; apply: eq_bigr => j _; rewrite !mxE; case: (P j) => //.
  by rewrite mul0r.
apply: le_trans h _; apply: ler_pmul; rewrite ?fdotAA_ge0 //.
  rewrite /fdot big_ord1; apply: ler_sum => j _; rewrite !mxE; case: (P j); first by rewrite expr2.
  by rewrite mul0r sqr_ge0.
by rewrite /fdot big_ord1; apply: ler_sum => j _; rewrite !mxE expr2.
Qed.

(** * one proximal gradient step *)
Lemma soft_step m n (x g y : 'M[R]_(m, n)) (a gam : R) : 0 <= a -> 0 < gam ->
  forall t, t = soft_thresholding (x - gam *: g) (a * gam) ->
  a * l1 t + fdot g (t - y) + fdot (t - x) (t - y) / gam <= a * l1 y.
Proof.
move=> a0 g0 t et.
have := soft_subgrad (x - gam *: g) y (mulr_ge0 a0 (ltW g0)); rewrite -et => h.
have e : fdot (x - gam *: g - t) (y - t) = gam * (fdot g (t - y) + fdot (t - x) (t - y) / gam).
  rewrite -(opprB t y) fdotNr.
  have -> : x - gam *: g - t = - ((t - x) + gam *: g) by lin.
  rewrite fdotNl opprK fdotDl fdotZl.
  by rewrite mulrDr [gam * (_ / _)]mulrC divfK ?gt_eqF // addrC.
rewrite e in h.
have h' : gam * (a * l1 t + fdot g (t - y) + fdot (t - x) (t - y) / gam) <= gam * (a * l1 y).
  by rewrite -addrA mulrDr mulrCA [gam * (a * l1 y)]mulrCA !mulrA in h *.
by rewrite ler_pmul2l in h'.
Qed.
Lemma soft_step_self m n (x g : 'M[R]_(m, n)) (a gam : R) : 0 <= a -> 0 < gam ->
  forall t, t = soft_thresholding (x - gam *: g) (a * gam) ->
  a * l1 t + fdot g (t - x) + fnorm2 (t - x) / gam <= a * l1 x.
Proof. by move=> a0 g0 t et; have := soft_step x a0 g0 et; rewrite -fnorm2E. Qed.
Lemma sod_step_self n (x g : 'M[R]_n) (a gam : R) : 0 <= a -> 0 < gam ->
  forall t, t = soft_thresholding_off_diagonal (x - gam *: g) (a * gam) ->
  a * l1od t + fdot g (t - x) + fnorm2 (t - x) / gam <= a * l1od x.
Proof.
move=> a0 g0 t et.
have := sod_subgrad (x - gam *: g) x (mulr_ge0 a0 (ltW g0)); rewrite -et => h.
have e : fdot (x - gam *: g - t) (x - t) = gam * (fdot g (t - x) + fnorm2 (t - x) / gam).
  rewrite fnorm2E -(opprB t x) fdotNr.
  have -> : x - gam *: g - t = - ((t - x) + gam *: g) by lin.
  rewrite fdotNl opprK fdotDl fdotZl.
  by rewrite mulrDr [gam * (_ / _)]mulrC divfK ?gt_eqF // addrC.
rewrite e in h.
have h' : gam * (a * l1od t + fdot g (t - x) + fnorm2 (t - x) / gam) <= gam * (a * l1od x).
  by rewrite -addrA mulrDr mulrCA [gam * (a * l1od x)]mulrCA !mulrA in h *.
by rewrite ler_pmul2l in h'.
Qed.

(** * the loop *)
Section Loop.
Variables (S : Type) (body : nat -> S -> option (bool * S)).

Lemma glm_for_inv (P : S -> Prop) :
  (forall it s b s', P s -> body it s = Some (b, s') -> P s') ->
  forall todo it s l s' l', P s -> glm_for body todo it s l = Some (s', l') -> P s'.
Proof.
move=> hP; elim=> [|k IH] it s l s' l' Ps /=; first by case=> <- _.
case e : (body it s) => [[[] s1]|] //; first by case=> <- _; apply: hP e.
by apply: IH; apply: hP e.
Qed.
(** same, with the index of the iteration *)
Lemma glm_for_inv_it (P : nat -> S -> Prop) :
  (forall it s b s', P it s -> body it s = Some (b, s') -> P it.+1 s') ->
  forall todo it s l s' l', P it s -> glm_for body todo it s l = Some (s', l') -> exists k, P k s'.
Proof.
move=> hP; elim=> [|k IH] it s l s' l' Ps /=; first by case=> <- _; exists it.
case e : (body it s) => [[[] s1]|] //; first by case=> <- _; exists it.+1; apply: hP e.
by apply: IH; apply: hP e.
Qed.

(** a potential that loses [c] at every iteration that does not break *)
Lemma glm_for_stops (P : S -> Prop) (Phi : S -> R) (c : R) : 0 < c ->
  (forall s, P s -> 0 <= Phi s) ->
  (forall it s, P s -> exists b s', [/\ body it s = Some (b, s'), P s' & ~~ b -> Phi s' + c <= Phi s]) ->
  forall k todo it s l, (k <= todo)%N -> P s -> Phi s < c * k%:R ->
  exists s0 s' i, [/\ P s0, body i s0 = Some (true, s'), (i < it + k)%N &
                      glm_for body todo it s l = Some (s', Some i)].
Proof.
move=> c0 h0 hb; elim=> [|k IH] todo it s l kt Ps hs.
  by have := h0 s Ps; rewrite mulr0 in hs; rewrite leNgt hs.
case: todo kt => // todo kt /=.
have [b [s1 [e P1 d]]] := hb it s Ps; rewrite e.
case: b e d => e d; first by exists s, s1, it; rewrite addnS ltnS leq_addr.
have hs1 : Phi s1 < c * k%:R.
  rewrite -(ltr_add2r c); apply: le_lt_trans (d isT) _; apply: lt_le_trans hs _.
  by rewrite -addn1 natrD mulrDr mulr1.
have [s0 [s' [i [? ? ? ?]]]] := IH todo it.+1 s1 (Some it) kt P1 hs1.
by exists s0, s', i; split=> //; rewrite addnS -addSn.
Qed.
Lemma glm_for_total (P : S -> Prop) :
  (forall it s, P s -> exists b s', body it s = Some (b, s') /\ P s') ->
  forall todo it s l, P s -> exists s' l', glm_for body todo it s l = Some (s', l').
Proof.
move=> hb; elim=> [|k IH] it s l Ps /=; first by exists s, l.
have [b [s1 [-> P1]]] := hb it s Ps.
by case: b; [exists s1, (Some it) | apply: IH].
Qed.
End Loop.

(** * Ising *)
Section Ising.
Variables (n d : nat) (X : 'M[R]_(n.+1, d)).
Implicit Types (theta : 'M[R]_d).

Lemma grad_rowE theta r : ising_gradient_row X theta r =
  Some (fun j => 0 + 1 / n.+1%:R * X 0 j * ((exp (ising_XT X theta 0 r) - exp (- ising_XT X theta 0 r)) /
     (exp (ising_XT X theta 0 r) + exp (- ising_XT X theta 0 r)) - X 0 r)).
Proof. by rewrite /ising_gradient_row enum_ordSl. Qed.

(** only the first sample counts *)
Definition g0 theta : 'M[R]_d := \matrix_(r, j)
  if j != r then n.+1%:R^-1 * X 0 j * (th (ising_XT X theta 0 r) - X 0 r) else 0.
Lemma grad_noneE theta rho T : gradient_ising X theta None rho T = g0 theta.
Proof.
apply/matrixP => r j; rewrite !mxE grad_rowE; case: ifP => // _.
by rewrite thE add0r div1r.
Qed.
Lemma grad_someE theta A rho T : gradient_ising X theta (Some A) rho T =
  g0 theta + (rho * T) *: (theta - A).
Proof. by rewrite -(grad_noneE theta rho T). Qed.
Definition addA (A : option 'M[R]_d) (c : R) theta : 'M[R]_d :=
  if A is Some a then c *: (theta - a) else 0.
Lemma gradE theta A rho T : gradient_ising X theta A rho T = g0 theta + addA A (rho * T) theta.
Proof. by case: A => [a|]; rewrite ?grad_someE ?grad_noneE /addA ?addr0. Qed.

Lemma g0_diag theta i : g0 theta i i = 0.
Proof. by rewrite mxE eqxx. Qed.

(** ** symmetry *)
Definition zdiag theta := forall i, theta i i = 0.
Definition szd theta := sym theta /\ zdiag theta.
Lemma symmetrise_sym theta : sym (symmetrise theta).
Proof. exact: sym_halfsum. Qed.
Lemma symmetrise_diag theta i : symmetrise theta i i = theta i i.
Proof. by rewrite !mxE -mulr2n -[theta i i *+ 2]mulr_natl mulKf // pnatr_eq0. Qed.
Lemma step_sym p gam theta : sym (ising_step X p gam theta).
Proof. exact/sod_sym/symmetrise_sym. Qed.
Lemma step_diag p gam theta i : ig_A p = None -> ising_step X p gam theta i i = theta i i.
Proof.
move=> e; rewrite /ising_step e grad_noneE sod_diag symmetrise_diag !mxE eqxx /=.
by rewrite mulr0 subr0.
Qed.
Definition zdiagA (A : option 'M[R]_d) := if A is Some a then zdiag a else True.
Lemma subZE (A B : 'M[R]_d) c i j : (A - c *: B) i j = A i j - c * B i j.
Proof. by rewrite !mxE. Qed.
Lemma grad_diag A rho T theta i : zdiagA A -> zdiag theta ->
  gradient_ising X theta A rho T i i = 0.
Proof.
move=> hA ht; rewrite gradE mxE g0_diag add0r /addA; case: A hA => [a|] /= hA; rewrite ?mxE //.
by rewrite ht hA subrr mulr0.
Qed.
Lemma step_zdiag p gam theta : zdiagA (ig_A p) -> zdiag theta -> zdiag (ising_step X p gam theta).
Proof.
move=> hA ht i; rewrite /ising_step sod_diag symmetrise_diag.
by rewrite subZE grad_diag // ht mulr0 subrr.
Qed.
Lemma ls_szd p fuel told theta gam r : zdiagA (ig_A p) -> zdiag told -> zdiag theta ->
  ising_line_search X p fuel told theta gam = Some r -> szd r.1.
Proof.
move=> hA; elim: fuel told theta gam => // fuel IH told theta gam h1 h2 /=.
case: ifP => _; last by case=> <-; split; [exact: step_sym | exact: step_zdiag].
apply: IH => // i; rewrite sod_diag.
by rewrite subZE grad_diag // h1 mulr0 subrr.
Qed.

Definition iall (P : 'M[R]_d -> Prop) (s : glm_state d d) :=
  P (gs_theta s) /\ forall t, t \in gs_thetas s -> P t.
Lemma body_szd p fuel it s b s' : zdiagA (ig_A p) -> iall szd s ->
  ising_body X p fuel it s = Some (b, s') -> iall szd s'.
Proof.
move=> hA [[h1 h2] h3]; rewrite /ising_body.
have hnew theta' gam : szd theta' -> forall c, iall szd (GLMState theta' gam (rcons (gs_thetas s) theta') c).
  by move=> h c; split=> //= t; rewrite mem_rcons inE => /orP[/eqP->|/h3].
case: ifP => _.
  case=> _ <-; apply: hnew; split; [exact: step_sym | exact: step_zdiag].
case e: ising_line_search => [[theta' gam]|] // [_ <-]; apply: hnew.
exact: (ls_szd hA h2 h2 e).
Qed.

(** ** descent *)
Definition f0 theta : R := n.+1%:R^-1 * \sum_r (lch (ising_XT X theta 0 r) - X 0 r * ising_XT X theta 0 r).
Definition Lip : R := (\sum_j X 0 j ^+ 2) / n.+1%:R.
Lemma n1_gt0 : (0 : R) < n.+1%:R. Proof. exact: ltr0Sn. Qed.
Lemma Lip_ge0 : 0 <= Lip.
Proof. by apply: divr_ge0; [apply: sumr_ge0 => j _; apply: sqr_ge0 | exact: ltW n1_gt0]. Qed.

Lemma XT_sub theta theta' r :
  ising_XT X theta' 0 r - ising_XT X theta 0 r = \sum_(j | j != r) X 0 j * (theta' - theta) j r.
Proof.
by rewrite /ising_XT -sumrB; apply: eq_bigr => j _; rewrite !mxE mulrBr.
Qed.
Lemma f0_quad theta theta' : sym theta -> sym theta' ->
  f0 theta' <= f0 theta + fdot (g0 theta) (theta' - theta) + Lip / 2%:R * fnorm2 (theta' - theta).
Proof.
move=> hs hs'; set D := theta' - theta.
have Dsym : sym D by apply: symB.
have e1 : fdot (g0 theta) D = n.+1%:R^-1 * \sum_r (th (ising_XT X theta 0 r) - X 0 r) *
            (ising_XT X theta' 0 r - ising_XT X theta 0 r).
  rewrite /fdot mulr_sumr; apply: eq_bigr => r _; rewrite XT_sub -/D !mulr_sumr [RHS]big_mkcond.
  apply: eq_bigr => j _; rewrite [g0 theta r j]mxE; case: eqP => _ /=; last first.
    have -> : D r j = D j r by rewrite -{1}Dsym mxE.
    by rewrite -!mulrA; congr (_ * _); rewrite mulrCA.
  by rewrite mul0r.
have e2 : fnorm2 D = \sum_r \sum_j D j r ^+ 2 by rewrite /fnorm2 exchange_big.
rewrite e1 e2 /Lip /f0.
have -> : (\sum_j X 0 j ^+ 2) / n.+1%:R / 2%:R * (\sum_r \sum_j D j r ^+ 2) =
          n.+1%:R^-1 * (\sum_r (\sum_j X 0 j ^+ 2) * (\sum_j D j r ^+ 2) / 2%:R).
  rewrite -mulr_suml -mulr_sumr; set a := \sum_j _; set b := \sum_r _.
  by rewrite [a / _]mulrC -!mulrA; congr (_ * (_ * _)); rewrite mulrC.
rewrite -!mulrDr ler_pmul2l ?invr_gt0 ?n1_gt0 // -!big_split; apply: ler_sum => r _ /=.
have h := lch_quad (ising_XT X theta 0 r) (ising_XT X theta' 0 r).
have c := sum_cauchy (fun j => j != r) (fun j => X 0 j) (fun j => D j r).
rewrite XT_sub -/D in h *; rewrite -XT_sub in c h *.
move: h c; set u := ising_XT X theta 0 r; set v := ising_XT X theta' 0 r.
set P := _ * (\sum_j D j r ^+ 2); set a := lch v; set b := lch u; set t := th u; set x := X 0 r.
by move=> h c; mcnra.
Qed.
End Ising.
