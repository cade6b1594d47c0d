(** Coupling from the past with responses (-1, 0): the law of the first variable is wrong. *)
From Coq Require Import Reals Lra.
From mathcomp Require Import all_ssreflect all_algebra.
From Verif Require Import RStruct RTac S_Prob P_Prob S_Ising M_Ising P_Ising P_Ising2 P_Ising3 P_Ising4 P_Ising5.
Import Order.TTheory GRing.Theory Num.Theory.

Set Implicit Arguments.
Unset Strict Implicit.
Unset Printing Implicit Defensive.
Local Open Scope ring_scope.

Lemma minimum_lt : minimum < - 1.
Proof.
rewrite /minimum ltr_opp2; apply: exprn_egt1 => //; mclra.
Qed.
Lemma not_minimum (v : R) : - 1 <= v -> v != minimum.
Proof. by move=> h; rewrite gt_eqF // (lt_le_trans minimum_lt h). Qed.

Definition i0 : 'I_2 := ord0.
Definition i1 : 'I_2 := lift ord0 ord0.
Lemma enum2 : enum 'I_2 = [:: i0; i1].
Proof. by apply: (inj_map val_inj); rewrite val_enum_ord. Qed.
Lemma big2 (F : 'I_2 -> R) : \sum_i F i = F i0 + F i1.
Proof. by rewrite -big_enum /= enum2 !big_cons big_nil addr0. Qed.
Lemma big2c (P : pred 'I_2) (F : 'I_2 -> R) : \sum_(i | P i) F i = (if P i0 then F i0 else 0) + (if P i1 then F i1 else 0).
Proof. by rewrite big_mkcond big2. Qed.
Definition mk2 (a b : bool) : config 2 := [ffun i => if i == i0 then a else b].
Lemma mk2_onto (c : config 2) : c = mk2 (c i0) (c i1).
Proof.
apply/ffunP=> i; rewrite ffunE; case: (boolP (i == i0)) => [/eqP -> //|ne].
by congr (c _); apply/val_inj; case: i ne => [[|[|k]]].
Qed.
Lemma mk2_sum (P : pred (config 2)) (F : config 2 -> R) :
  \sum_(c | P c) F c = \sum_a \sum_b if P (mk2 a b) then F (mk2 a b) else 0.
Proof.
rewrite big_mkcond (reindex (fun ab : bool * bool => mk2 ab.1 ab.2)) /=; last first.
  exists (fun c : config 2 => (c i0, c i1)) => [[a b] _|c _] /=; last by rewrite -mk2_onto.
  by rewrite !ffunE.
by rewrite pair_big.
Qed.
Lemma bool_sum (F : bool -> R) : \sum_a F a = F true + F false.
Proof. by rewrite big_bool. Qed.

Definition th2 : 'M[R]_2 := \matrix_(i, j) (i != j)%:R.
Definition rN : R * R := (- 1, 0).
Definition t0 : 'I_2 -> R := fun=> 0.

Lemma th2_sym : th2 = th2^T.
Proof. by apply/matrixP=> i j; rewrite !mxE eq_sym. Qed.
Lemma th2E : (th2 i0 i0 = 0) * (th2 i0 i1 = 1) * (th2 i1 i0 = 1) * (th2 i1 i1 = 0).
Proof. by rewrite !mxE. Qed.

Lemma field0 (r : R * R) (c : config 2) : field th2 t0 r i0 c = response r (c i1).
Proof. by rewrite /field big2c /= th2E add0r mul1r /t0 add0r. Qed.
Lemma field1 (r : R * R) (c : config 2) : field th2 t0 r i1 c = response r (c i0).
Proof. by rewrite /field big2c /= th2E addr0 mul1r /t0 add0r. Qed.

Lemma exp0R : exp 0 = 1 :> R.
Proof. exact: exp_0. Qed.
Lemma exp1_gt1 : 1 < exp 1.
Proof.
by rewrite -[X in X < _]exp0R; apply/RltP; apply: exp_increasing; exact: Rlt_0_1.
Qed.
Lemma up2N : up2 th2 rN i0 i1 = false.
Proof. by rewrite /up2 /= !mulr0 mul0r ltxx. Qed.
Lemma ppN_lo : pp th2 t0 1 rN i0 (lo th2 rN i0 (free 2)) = 1 / 2%:R.
Proof.
rewrite /pp /p_plus !fieldE field0 !ffunE /= up2N /response /= !mulr0 exp0R.
by rewrite -[2%:R]/(1 + 1)%:R natrD.
Qed.
Lemma ppN_hi : pp th2 t0 1 rN i0 (hi th2 rN i0 (free 2)) <= 1 / 2%:R.
Proof.
rewrite /pp /p_plus !fieldE field0 !ffunE /= up2N /response /= mul0r mulr0 exp0R.
have -> : 1 * (- 1 * - 1) = 1 :> R by rewrite mulrN1 opprK mulr1.
have := exp1_gt1; move: (exp 1) => v v1.
rewrite ler_pdivr_mulr; last by mclra.
by rewrite mulrAC ler_pdivl_mulr ?ltr0n //; mclra.
Qed.

Definition startN : nat -> 'I_2 -> R := fun _ _ => 0.
Lemma past1 : past 2 1 1 = [:: (0%N, 0%N, i0); (0%N, 0%N, i1)].
Proof. by rewrite /past /= enum2. Qed.

Lemma m0N : rN.1 != minimum. Proof. by apply: not_minimum; rewrite lexx. Qed.
Lemma m1N : rN.2 != minimum. Proof. by apply: not_minimum; rewrite oppr_le0 ler01. Qed.

Lemma rN_pass (d : nat * nat * 'I_2 -> R) : exists b,
  ising_exact th2 t0 1 rN 1 true (fun t it i => d (t, it, i)) startN 1 =
  Some (values rN (mk2 (d (0%N, 0%N, i0) < 1 / 2%:R)%R b)).
Proof.
change (exists b, exact_loop th2 t0 1 rN 1 true (blocks d) startN 1 0 [ffun=> minimum] =
  Some (values rN (mk2 (d (0%N, 0%N, i0) < 1 / 2%:R)%R b))).
have -> : [ffun=> minimum] = pvalues rN minimum (free 2) by apply/ffunP=> i; rewrite !ffunE.
cbn [exact_loop]; rewrite (exact_passE _ _ _ m0N m1N) !(known_total m0N m1N).
have nt : ~~ total (free 2) by apply/negP => /forallP /(_ i0); rewrite ffunE.
rewrite (negbTE nt).
have -> : timeL 2 1 1 = [:: ((0%N, 0%N, i0), i0); ((0%N, 0%N, i1), i1)] by rewrite /timeL /blockL /= enum2.
rewrite /prun /=; set x1 := pstep _ _ _ _ _ (free 2) i0; set u0 := d (0%N, 0%N, i0) in x1 *.
have e0 : x1 i0 = Some (u0 < 1 / 2%:R)%R.
  rewrite /x1 /pstep ppN_lo ffunE eqxx; case: ltrP => // h; by rewrite (le_trans ppN_hi h).
set x2 := pstep _ _ _ _ _ x1 i1.
have e1 : exists b, x2 i1 = Some b.
  rewrite /x2 /pstep ffunE eqxx.
  have -> : pp th2 t0 1 rN i1 (hi th2 rN i1 x1) = pp th2 t0 1 rN i1 (lo th2 rN i1 x1).
    have el : lo th2 rN i1 x1 i0 = hi th2 rN i1 x1 i0 by rewrite [LHS]ffunE [RHS]ffunE e0.
    by rewrite /pp /p_plus !fieldE !field1 el.
  by case: ltrP => _; [exists true | exists false].
have e2 : x2 i0 = Some (u0 < 1 / 2%:R)%R by rewrite /x2 ffunE.
case: e1 => b e1; exists b; move: (x2) e1 e2 => {}x2 e1 e2.
have ag : agrees x2 (mk2 (u0 < 1 / 2%:R)%R b).
  apply/forallP=> i; rewrite ffunE; case: (boolP (i == i0)) => [/eqP ->|ne]; first by rewrite e2.
  have -> : i = i1 by apply/val_inj; case: i ne => [[|[|k]]].
  by rewrite e1.
have tx : total x2.
  apply/forallP=> i; case: (boolP (i == i0)) => [/eqP ->|ne]; first by rewrite e2.
  have -> : i = i1 by apply/val_inj; case: i ne => [[|[|k]]].
  by rewrite e1.
by rewrite tx (total_values rN tx ag).
Qed.

Lemma rN_prob g : grid_ok g -> 1 / 2%:R \in g ->
  prob g (past 2 1 1) (fun d => if ising_exact th2 t0 1 rN 1 true (fun t it i => d (t, it, i)) startN 1 is Some s
                                then s i0 == rN.2 else false) = 1 / 2%:R.
Proof.
move=> gok hg; rewrite past1 /prob -[RHS](expect1_ind gok hg) /=; apply: expect1_eq => u.
rewrite -[RHS](expect1_const gok); apply: expect1_eq => v.
set d := assign _ _ _; have [b ->] := rN_pass d.
have -> : d (0%N, 0%N, i0) = u by rewrite /d /assign /=.
rewrite !ffunE /= /response /=; case: (u < _) => /=; first by rewrite eqxx.
by rewrite oppr_eq0 oner_eq0.
Qed.

Lemma rN_weight a b : weight th2 t0 1 rN (mk2 a b) = if a || b then 1 else exp 1.
Proof.
rewrite /weight !big2 !big2c /= /t0 !mul0r !add0r th2E !ffunE /=.
by case: a b => [] [] /=; rewrite ?mul1r ?mul0r ?mulr0 ?addr0 ?add0r ?mulr0 ?exp0R // mulN1r opprK.
Qed.
Lemma rN_law : \sum_(c : config 2 | c i0) ising_law th2 t0 1 rN (free 2) c < 1 / 2%:R.
Proof.
have af (c : config 2) : agrees (free 2) c by apply/forallP=> i; rewrite ffunE.
have e (c : config 2) : ising_law th2 t0 1 rN (free 2) c = weight th2 t0 1 rN c / (1 + 1 + (1 + exp 1)).
  rewrite /ising_law af mk2_sum !bool_sum !af !rN_weight //.
rewrite mk2_sum !bool_sum !ffunE /= !e !rN_weight /=.
have := exp1_gt1; move: (exp 1) => x x1.
rewrite !addr0 -mulrDl ltr_pdivr_mulr; last by mclra.
mclra.
Qed.
