(** The probabilities of an edge, and the small cases of data_Meinshausen_Yuan_sparse_latent. *)
From Coq Require Import Reals String Lra.
From mathcomp Require Import all_ssreflect all_algebra.
From Verif Require Import RStruct RTac LinTac NP Str S_Mat RMx S_Utils M_Utils P_Utils2 M_Ising M_Gauss P_Gauss P_Gauss2 P_Gauss3.
From Verif Require Import M_MYLatent P_MYLatent P_MYLatent2.
Import Order.TTheory GRing.Theory Num.Theory.

Set Implicit Arguments.
Unset Strict Implicit.
Unset Printing Implicit Defensive.
Local Open Scope ring_scope.

Lemma pdf_gt0 x : 0 < norm_pdf x.
Proof.
rewrite /norm_pdf; apply: divr_gt0; apply/RltP; first exact: exp_pos.
apply: sqrt_lt_R0; have := PI_RGT_0; toR; lra.
Qed.
Lemma pdf_le x y : 0 <= x -> x <= y -> norm_pdf y <= norm_pdf x.
Proof.
move=> x0 xy; rewrite /norm_pdf ler_pmul2r ?invr_gt0; last first.
  by apply/RltP; apply: sqrt_lt_R0; have := PI_RGT_0; toR; lra.
have le : - (y ^+ 2) / 2%:R <= - (x ^+ 2) / 2%:R by rewrite ler_pmul2r ?invr_gt0 ?ltr0n // ler_opp2 ler_pexpn2r // nnegrE // (le_trans x0).
move: le; rewrite le_eqVlt => /orP [/eqP ->//|h]; apply: ltW; apply/RltP; apply: exp_increasing; exact/RltP.
Qed.
Lemma dist_ge0 a b : 0 <= location_dist a b.
Proof. by apply/RleP; exact: sqrt_pos. Qed.
Lemma dist_self a : location_dist a a = 0.
Proof. by rewrite /location_dist !subrr expr0n /= addr0; exact: sqrt_0. Qed.
Lemma dist_sym a b : location_dist a b = location_dist b a.
Proof. by rewrite /location_dist -(sqrrN (a.1 - b.1)) opprB -(sqrrN (a.2 - b.2)) opprB. Qed.
Lemma sqrtR_ge0 x : 0 <= sqrt x. Proof. by apply/RleP; exact: sqrt_pos. Qed.

Lemma pdf_lt_half x : 0 <= x -> 2%:R * norm_pdf x < 1.
Proof.
move=> x0; apply: (@le_lt_trans _ _ (2%:R * norm_pdf 0)).
  by rewrite ler_pmul2l ?ltr0n //; exact: pdf_le.
have h2 : 2%:R < sqrt (2%:R * PI).
  apply/RltP; rewrite -{1}(sqrt_square (2%:R)); last by toR; lra.
  by apply: sqrt_lt_1; move: PI2_1 PI_RGT_0 => h1 h2; toR; lra.
have -> : norm_pdf 0 = 1 / sqrt (2%:R * PI).
  by rewrite /norm_pdf expr0n /= oppr0 mul0r; congr (_ / _); exact: exp_0.
by rewrite mulrA mulr1 ltr_pdivr_mulr ?mul1r //; apply: lt_trans h2; rewrite ltr0n.
Qed.

(** * one latent variable *)
Lemma start_one p (ix : 'I_1 -> seq 'I_(1 + p)) nzp j l : (0 < p)%N -> ix 0 = j :: l -> nzp 0 = 1%N ->
  exists A, lat_start ix nzp = LOk A /\ forall k, A 0 k = if k == j then lat_value 1 p else 0.
Proof.
move=> p0 e n1; rewrite /lat_start; have -> : enum 'I_1 = [:: 0].
  by apply: (inj_map val_inj); rewrite val_enum_ord.
rewrite /= e n1; have -> : lat_nnz (0 : 'M[R]_(1, 1 + p)) 0 = 0%N.
  by rewrite /lat_nnz; apply: eq_card0 => k; rewrite !inE mxE eqxx.
rewrite subn0 (minn_idPr _); last by rewrite ?uphalf_gt0 ?half_gt0 ?add1n ?ltnS.
eexists; split; first reflexivity.
move=> k; rewrite !mxE !inE eqxx /=; case: (eqVneq k j) => // kj; case: ifP => // /andP [/eqP k0 /eqP e0].
by rewrite k0 e0 eqxx in kj.
Qed.
Lemma connect_one p (A : 'M[R]_(1, 1 + p)) j : (forall k, A 0 k = if k == j then lat_value 1 p else 0) ->
  forall k : 'I_p, rsubmx (unit_diag A) 0 k = if rshift 1 k == j then lat_value 1 p else 0.
Proof. by move=> h k; rewrite !mxE lr_neq h. Qed.

(** * two observed variables *)
Lemma enum2 : enum 'I_2 = [:: ord0; ord_max].
Proof. by apply: (inj_map val_inj); rewrite val_enum_ord. Qed.
Lemma theta_two chol (ix : 'I_2 -> seq 'I_2) shuffle theta : perm_eq (ix ord0) (enum 'I_2) -> theta_my chol ix shuffle = IOk theta ->
  theta ord0 ord_max = my_value.
Proof.
move=> pe; rewrite /theta_my; case: ifP => // _ [<-].
have -> : my_prune shuffle (my_fill ix my_value) = my_fill ix my_value.
  rewrite /my_prune; have -> : [seq i <- enum 'I_2 | (4 < nnz (my_fill ix my_value) i)%N] = [::]; last by [].
  rewrite -(filter_pred0 (enum 'I_2)); apply: eq_filter => i /=; apply/negbTE; rewrite -leqNgt.
  by apply: leq_trans (max_card _) _; rewrite card_ord.
rewrite mxE /= /my_fill enum2 /= !mxE /=.
have -> : ord_max \in my_pick ord0 (4 - nnz (0 : 'M[R]_2) ord0) (ix ord0).
  have -> : nnz (0 : 'M[R]_2) ord0 = 0%N by apply: eq_card0 => k; rewrite !inE mxE eqxx.
  have -> : my_pick ord0 4 (ix ord0) = ix ord0; last by rewrite (perm_mem pe) enum2 !inE eqxx orbT.
  have : (size (ix ord0) <= 4)%N by rewrite (perm_size pe) enum2.
  by case: (ix ord0) => // a [|b [|c [|d []]]].
by case: ifP => // _; rewrite eqxx.
Qed.
Lemma two_type_error chol T (ix : 'I_1 -> seq 'I_(1 + 2)) nzp pix psh lix lsh : chols_ok chol ->
  (forall k t l, perm_eq (psh k t l) l) -> (forall i, size (ix i) = 3%N) -> (forall k i, perm_eq (pix k i) (enum 'I_2)) ->
  data_my_latent chol T ix nzp pix psh lix lsh = LRaise LTypeError.
Proof.
move=> cok sh six pe; rewrite /data_my_latent /lat_first.
have [th e [st _]] := theta_my_ok cok (pix 0%N) (sh 0%N).
have [A [eA _ _ _]] := @lat_start_ok 1 2 ix nzp six isT.
have t := theta_two (pe _ _) e; rewrite e eA ifT //.
apply/existsP; exists ord0; have [_ d _ _] := st.
have -> : nnz th ord0 = 2%N; last by [].
rewrite /nnz -[RHS](card_ord 2); apply: eq_card => k; rewrite !inE.
have := ltn_ord k; case: k => -[|[|//]] hk _; last first.
  have -> : Ordinal hk = ord_max by apply/val_inj.
  by rewrite t /my_value; apply/eqP; toR; lra.
have -> : Ordinal hk = ord0 by apply/val_inj.
by rewrite d oner_eq0.
Qed.
