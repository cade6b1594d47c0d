(** Further theorems for C53, each of which a wrong program had passed without. *)
From Coq Require Import Reals.
From mathcomp Require Import all_ssreflect all_algebra.
From Coq Require Import String.
From Verif Require Import RStruct RTac S_Mat S_Utils NP M_Utils M_Ising M_Gauss RMx P_Ising P_Gauss P_Gauss2 P_Gauss3 P_Gauss4 P_Gauss5.
Import Order.TTheory GRing.Theory Num.Theory.

Set Implicit Arguments.
Unset Strict Implicit.
Unset Printing Implicit Defensive.
Local Open Scope ring_scope.

Lemma ell_l1_entry p h (K : 'M[R]_(h, p)) ps pick i j :
  if (i, j) \in ps then update_ell_l1 K ps pick i j = 0 \/ update_ell_l1 K ps pick i j = c012 else update_ell_l1 K ps pick i j = K i j.
Proof.
rewrite /update_ell_l1; move: {1 2 3}0%N => k; elim: ps K k => [|[r c] ps IH] K k //=.
have := IH (\matrix_(i, j) if (i == r) && (j == c) then (if K i j == 0 then (if pick k then c012 else 0) else 0) else K i j) k.+1.
rewrite inE; case: ((i, j) \in ps); first by rewrite orbT.
rewrite orbF xpair_eqE => ->; rewrite mxE; case: (_ && _) => //.
by case: (_ == _) => /=; [case: (pick k); [right|left]|left].
Qed.

(** with update_ell = "yuan" one entry of K changes between two times: 0 becomes 0.12, any other value 0 *)
Theorem C53_yuan_latent chol eigh p h T ut normalize degree no epsilon (K0 : 'M[R]_(h, p)) choice d fuel l :
  make_covariance chol eigh T "yuan" ut normalize degree no epsilon K0 choice d fuel = Some (IOk l) -> (0 < h)%N ->
  forall t, (t.+1 < maxn 1 T)%N -> exists r c,
    let old := (nth (0, 0, 0) l t).2 in let new := (nth (0, 0, 0) l t.+1).2 in
    new r c = (if old r c == 0 then 12%:R / 100%:R else 0) /\ forall i j, (i, j) != (r, c) -> new i j = old i j.
Proof.
move=> run h0 t tm; have [_ _ /(_ t tm)] := run_spec run; rewrite /th /el /kh.
rewrite /cov_step; case: (if _ == _ then _ else _) => [[th|]|] //.
have -> : (h < 1)%N = false by rewrite ltnNge h0.
rewrite /=; case: ifP => // _; case: ifP => // _ [_ _ <-].
exists (cd_ell_rc (d t.+1)).1, (cd_ell_rc (d t.+1)).2; split; first by rewrite mxE !eqxx.
move=> i j; rewrite mxE; case: ifP => // /andP [/eqP -> /eqP ->]; by case: (cd_ell_rc _) => a b; rewrite eqxx.
Qed.
Print Assumptions C53_yuan_latent.

(** with update_ell = "l1" at most as many entries of K change as were picked, and they become 0 or 0.12 *)
Theorem C53_l1_latent chol eigh p h T ut normalize degree no epsilon (K0 : 'M[R]_(h, p)) choice d fuel l :
  make_covariance chol eigh T "l1" ut normalize degree no epsilon K0 choice d fuel = Some (IOk l) -> (0 < h)%N ->
  (forall t, size (cd_ell_picks (d t)) = no) ->
  forall t, (t.+1 < maxn 1 T)%N -> exists2 ps : seq ('I_h * 'I_p), (size ps <= no)%N &
    forall i j, let old := (nth (0, 0, 0) l t).2 i j in let new := (nth (0, 0, 0) l t.+1).2 i j in
    if (i, j) \in ps then new = 0 \/ new = 12%:R / 100%:R else new = old.
Proof.
move=> run h0 sz t tm; have [_ _ /(_ t tm)] := run_spec run; rewrite /th /el /kh.
rewrite /cov_step; case: (if _ == _ then _ else _) => [[th|]|] //.
have -> : (h < 1)%N = false by rewrite ltnNge h0.
rewrite /=; case: ifP => // _; case: ifP => // _ [_ _ <-].
exists (cd_ell_picks (d t.+1)); first by rewrite sz.
by move=> i j; exact: ell_l1_entry.
Qed.
Print Assumptions C53_l1_latent.

(** with update_theta = "l2" the off-diagonal entries move by a symmetric matrix of Frobenius norm epsilon at most, and those that end below
    2 epsilon / p are set to 0 *)
Theorem C53_l2_moves chol eigh p h T ue normalize degree no epsilon (K0 : 'M[R]_(h, p)) choice d fuel l :
  make_covariance chol eigh T ue "l2" normalize degree no epsilon K0 choice d fuel = Some (IOk l) ->
  (forall t, exists i j : 'I_p, (i <= j)%N /\ cd_add (d t) i j != 0) ->
  forall t, (t.+1 < maxn 1 T)%N -> exists A : 'M[R]_p, [/\ A^T = A, \sum_i \sum_j A i j ^+ 2 <= epsilon ^+ 2 &
    forall i j, i != j -> let x := (nth (0, 0, 0) l t).1.1 i j + A i j in
      (nth (0, 0, 0) l t.+1).1.1 i j = if `|x| < 2%:R * epsilon / p%:R then 0 else x].
Proof.
move=> run dr t tm; have [_ _ /(_ t tm)] := run_spec run; rewrite /th /el /kh.
rewrite /cov_step /=; set th := update_theta_l2 _ _ _; case: (if _ then _ else _) => [[L K]|] //.
case: ifP => // _; case: ifP => // _ [<- _ _].
set add : 'M[R]_p := \matrix_(i, j) if (i <= j)%N then cd_add (d t.+1) i j else cd_add (d t.+1) j i.
have addS : add^T = add.
  apply/matrixP => i j; rewrite !mxE; case: (ltngtP i j) => // e; by rewrite (val_inj e).
pose N2 := \sum_i \sum_j add i j ^+ 2.
exists (fill_diag ((epsilon / sqrt N2) *: add) (fun=> 0)); split.
- have fillE i j : fill_diag ((epsilon / sqrt N2) *: add) (fun=> 0) i j = if i == j then 0 else epsilon / sqrt N2 * add i j.
    by rewrite /fill_diag mxE; case: ifP => // _; rewrite mxE.
  have aS i j : add j i = add i j by have := congr1 (fun M : 'M[R]_p => M i j) addS; rewrite [LHS]mxE.
  by apply/matrixP => i j; rewrite [LHS]mxE !fillE eq_sym aS.
- have N0 : 0 < N2.
    have [i [j [ij nz]]] := dr t.+1; rewrite lt_neqAle eq_sym; apply/andP; split; last by apply: sumr_ge0 => a _; apply: sumr_ge0 => b _; exact: sqr_ge0.
    apply/eqP => z; move: nz; have : add i j ^+ 2 = 0.
      have z1 : \sum_j add i j ^+ 2 = 0 by apply: (psumr_eq0P _ z) => // a _; apply: sumr_ge0 => b _; exact: sqr_ge0.
      by apply: (psumr_eq0P _ z1) => // b _; exact: sqr_ge0.
    by move/eqP; rewrite sqrf_eq0 mxE ij => ->.
  apply: le_trans (_ : (epsilon / sqrt N2) ^+ 2 * N2 <= _).
    rewrite /N2 mulr_sumr; apply: ler_sum => i _; rewrite mulr_sumr; apply: ler_sum => j _; rewrite /fill_diag mxE.
    by case: eqP => _; [rewrite expr0n mulr_ge0 ?sqr_ge0|rewrite mxE exprMn].
  have -> : (epsilon / sqrt N2) ^+ 2 * N2 = epsilon ^+ 2; last exact: lexx.
  have sq : sqrt N2 ^+ 2 = N2 by rewrite expr2; apply: sqrt_sqrt; apply/RleP; exact: ltW.
  by rewrite expr_div_n sq divfK // gt_eqF.
by move=> i j ij; rewrite ell_off // /th /update_theta_l2 mxE [(_ + _ : 'M[R]_p) i j]mxE.
Qed.
Print Assumptions C53_l2_moves.

(** ** the hypotheses are met: two times from the matrices of [wstart] *)
Definition tdraws : cov_draws (2 + 50) 50 :=
  CovDraws (fun=> [:: (inord 0, inord 1)]) (fun=> false) (const_mx 1) 0 [:: (ord0, ord0)] (fun=> true) (ord0, ord0).
Example C53_latent_case chol eigh : (forall n, chol_ok (@chol n)) -> (forall n, eigh_ok (@eigh n)) ->
  (exists l, make_covariance chol eigh 2 "yuan" "l1" false 0 1 10%:R wK0 (@the_choice _) (fun=> tdraws) 1 = Some (IOk l)) /\
  (exists l, make_covariance chol eigh 2 "l1" "l2" false 0 1 10%:R wK0 (@the_choice _) (fun=> tdraws) 1 = Some (IOk l)).
Proof.
move=> cok eok.
have KE : update_ell_yuan wK0 ord0 ord0 = row_mx (\matrix_(i, j) if (i == ord0) && (j == ord0) then c012 else 0) (2%:R)%:M.
  apply/matrixP => i j; rewrite mxE; case: (split_ordP j) => j' ->.
    by rewrite /wK0 !row_mxEl !mxE eqxx -val_eqE.
  by rewrite /wK0 !row_mxEr; case: ifP => // /andP [_ /eqP /(congr1 val)].
have KE2 : update_ell_l1 wK0 [:: (ord0, ord0)] (fun=> true) = update_ell_yuan wK0 ord0 ord0 by [].
have nz : (2%:R : R) != 0 by rewrite pnatr_eq0.
have sd (K : 'M[R]_(50, 2 + 50)) : is_pos_semidef eigh (K^T *m K) tol15 by rewrite psd_semidef //; exact: gram_psd.
split.
  eexists; rewrite /make_covariance wstart //= /cov_step.
  rewrite (_ : update_theta_l1 _ _ _ _ _ _ _ = Some wtheta0); last exact: wupd.
  by rewrite /= KE gram_rank // eqxx /= sd.
eexists; rewrite /make_covariance wstart //= /cov_step /= KE2 KE gram_rank // eqxx /= sd //.
Qed.
