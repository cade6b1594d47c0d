(** data_Meinshausen_Yuan_sparse_latent never fails with 20 observed variables for each latent one; the joint precision matrix. *)
From Coq Require Import Reals String.
From mathcomp Require Import all_ssreflect all_algebra.
From Verif Require Import RStruct RTac LinTac NP Str S_Mat RMx S_Utils M_Utils P_Utils2 M_Ising M_Gauss P_Gauss P_Gauss2 P_Gauss3 P_Gauss6 P_GLM.
From Verif Require Import M_MYLatent P_MYLatent.
Import Order.TTheory GRing.Theory Num.Theory.

Set Implicit Arguments.
Unset Strict Implicit.
Unset Printing Implicit Defensive.
Local Open Scope ring_scope.

(** * the joint precision matrix *)
Lemma joint_pd h p (H : 'M[R]_h) (C : 'M[R]_(h, p)) (B : 'M[R]_p) : pd H -> pd (B - C^T *m invmx H *m C) ->
  pd (block_mx H C C^T B).
Proof.
move=> dH dS; have uH := pd_unit dH; have sH := pd_sym dH.
have sB : B^T = B.
  have := pd_sym dS; rewrite /sym linearB /= !trmx_mul trmxK (sym_inv sH) mulmxA => e.
  by rewrite -[LHS](subrK (C^T *m invmx H *m C)) e subrK.
split; first by rewrite /sym tr_block_mx trmxK sH sB.
move=> v v0; rewrite -[v]vsubmxK; set u := usubmx v; set x := dsubmx v.
set w := u + invmx H *m C *m x.
have -> : quad (block_mx H C C^T B) (col_mx u x) = quad H w + quad (B - C^T *m invmx H *m C) x.
  have wT : w^T = u^T + x^T *m C^T *m invmx H.
    by rewrite /w linearD /= [(invmx H *m C *m x)^T]trmx_mul [(invmx H *m C)^T]trmx_mul (sym_inv sH) !mulmxA.
  rewrite /quad tr_col_mx mul_row_block mul_row_col wT /w.
  have e1 : (u^T + x^T *m C^T *m invmx H) *m H = u^T *m H + x^T *m C^T by rewrite mulmxDl -(mulmxA _ (invmx H) H) mulVmx // mulmx1.
  have e2 : (u^T *m H + x^T *m C^T) *m (u + invmx H *m C *m x) =
      u^T *m H *m u + x^T *m C^T *m u + u^T *m C *m x + x^T *m C^T *m invmx H *m C *m x.
    rewrite mulmxDr !mulmxDl !mulmxA -(mulmxA _ H (invmx H)) (mulmxV uH) mulmx1 !addrA //.
  rewrite e1 e2 mulmxBr !mulmxBl !mulmxDl !mulmxA !mxE.
  have num (a b c d e : R) : a + b + (c + d) = a + b + c + e + (d - e) by mclra.
  exact: num.
have [_ ge] := pd_psd dH.
have [x0|x0] := eqVneq x 0.
  have [_ gt] := dH; rewrite x0 quad0v addr0; apply: gt.
  rewrite /w x0 mulmx0 addr0; apply: contra_neq v0 => u0.
  by rewrite -[v]vsubmxK -/u -/x u0 x0 col_mx0.
have [_ gt] := dS; apply: ltr_paddl; [exact: ge | exact: gt].
Qed.
Lemma joint_marginal h p (H : 'M[R]_h) (C : 'M[R]_(h, p)) (B : 'M[R]_p) : pd H -> pd (B - C^T *m invmx H *m C) ->
  drsubmx (invmx (block_mx H C C^T B)) = invmx (B - C^T *m invmx H *m C).
Proof.
move=> dH dS; have uK := pd_unit (joint_pd dH dS); have uH := pd_unit dH; have uS := pd_unit dS.
set K := block_mx H C C^T B; set X := invmx K.
have : K *m X = 1%:M by rewrite mulmxV.
rewrite -[X]submxK mulmx_block (scalar_mx_block h p 1) => /eq_block_mx [_ e1 _ e2].
have {e1} e1 : ursubmx X = - (invmx H *m C *m drsubmx X).
  apply: (can_inj (mulKmx uH)); rewrite mulmxN !mulmxA mulmxV // mul1mx; apply/eqP; rewrite -addr_eq0; apply/eqP; exact: e1.
apply: (can_inj (mulKmx uS)); rewrite mulmxV // -e2 e1 mulmxBl mulmxN !mulmxA addrC ?block_mxKdr //.
Qed.

(** * total correctness *)
Section Run.
Variable chol : chol_t.
Hypothesis cok : chols_ok chol.
Variables (h p : nat).
Hypotheses (h0 : (0 < h)%N) (hp : (20 * h <= p)%N).
Definition lat_good (C : 'M[R]_(h, p)) (t : lat_time h p) : Prop :=
  [/\ my_shape (lt_theta t), lat_shape (lat_value h p) (lt_H t) /\ pd (lt_H t),
      lt_obs t = lt_theta t - C^T *m invmx (lt_H t) *m C, pd (lt_obs t) & lt_sigma t = invmx (lt_obs t)].
Let C_small (C : 'M[R]_(h, p)) := fnorm2 C <= 2%:R * (7%:R / 75%:R) ^+ 2.

Let v0 : 0 < lat_value h p. Proof. by apply: value_gt0; rewrite addn_gt0 h0. Qed.
Let vh : h%:R * lat_value h p <= 7%:R / 75%:R. Proof. exact: value_h. Qed.

Lemma shape_ok (H : 'M[R]_h) : lat_shape (lat_value h p) H -> pd H /\ pd (H - (9%:R / 10%:R)%:M).
Proof.
move=> sh; apply: shape_margin sh (ltW v0) _; apply: le_lt_trans vh _; mclra.
Qed.
Lemma observed_ok (theta : 'M[R]_p) H C : my_shape theta -> lat_shape (lat_value h p) H -> C_small C ->
  lat_observed chol theta H C = LOk (theta - C^T *m invmx H *m C, invmx (theta - C^T *m invmx H *m C)) /\
  pd (theta - C^T *m invmx H *m C).
Proof.
move=> st sH cs; have [dH dm] := shape_ok sH; have d := obs_pd st dH dm cs.
by rewrite /lat_observed !cholE //; exact: pd_inv.
Qed.
Lemma lat_first_ok pix psh (ix : 'I_h -> seq 'I_(h + p)) nzp : (forall t l, perm_eq (psh t l) l) -> (forall i, size (ix i) = (h + p)%N) ->
  exists t C, [/\ lat_first chol pix psh ix nzp = LOk (t, C), lat_good C t & C_small C].
Proof.
move=> sh six; have [th e [st dt]] := theta_my_ok cok pix sh.
have hp' : (h <= p)%N by apply: leq_trans hp; rewrite leq_pmull.
have [A [eA s t n]] := lat_start_ok nzp six hp'.
rewrite /lat_first e eA ifF; last first.
  apply/negbTE; rewrite negb_exists; apply/forallP => i; rewrite -leqNgt.
  have [_ d _ le4] := st; apply: (@leq_trans (2 * 5)); last first.
    by apply: leq_trans (leq_trans hp (leq_addl _ _)); rewrite (@leq_trans (20 * 1)) // leq_mul.
  rewrite leq_mul2l /= /nnz (cardsD1 i) !inE d oner_eq0 /= add1n ltnS.
  by apply: leq_trans (le4 i); apply: subset_leq_card; apply/subsetP => j; rewrite !inE.
have sH := start_shape s t; have [dH dm] := shape_ok sH.
have cs : C_small (rsubmx (unit_diag A)).
  apply: le_trans (conn_bound t n) _; have hv := vh; have hv0 := v0.
  have hh : 0 < h%:R :> R by rewrite ltr0n.
  have -> : (h * (h + h))%:R * lat_value h p ^+ 2 = 2%:R * (h%:R * lat_value h p) ^+ 2.
    by rewrite natrM natrD; move: (h%:R : R) (lat_value h p) => a b; mcring.
  rewrite ler_pmul2l ?ltr0n // ler_pexpn2r ?nnegrE //; first by rewrite mulr_ge0 // ltW.
  by mclra.
have [eo d] := observed_ok st sH cs; rewrite cholE //= eo.
by eexists; eexists; split; first reflexivity.
Qed.
Lemma lat_step_ok C prev pix psh lix lsh : C_small C -> (forall t l, perm_eq (psh t l) l) ->
  exists t, lat_step chol C prev pix psh lix lsh = LOk t /\ lat_good C t.
Proof.
move=> cs sh; have [th e [st dt]] := theta_my_ok cok pix sh; rewrite /lat_step e.
have sH := next_shape (lt_H prev) (lat_value h p) lix lsh; have [dH dm] := shape_ok sH.
have [eo d] := observed_ok st sH cs; rewrite cholE //= eo.
by eexists; split; first reflexivity.
Qed.
Lemma lat_times_ok C pix psh lix lsh todo k prev : C_small C -> (forall k t l, perm_eq (psh k t l) l) ->
  exists l, [/\ lat_times chol C pix psh lix lsh todo k prev = LOk l, size l = todo & forall t, List.In t l -> lat_good C t].
Proof.
move=> cs sh; elim: todo k prev => [|todo IH] k prev /=; first by exists [::].
have [cur [-> g]] := lat_step_ok prev (pix k) (lix k) (lsh k) cs (sh k).
have [l [-> sz gl]] := IH k.+1 cur; exists (cur :: l); split=> //=; first by rewrite sz.
by move=> t [<-|/gl].
Qed.
Lemma data_my_latent_ok T (ix : 'I_h -> seq 'I_(h + p)) nzp pix psh lix lsh :
  (forall k t l, perm_eq (psh k t l) l) -> (forall i, size (ix i) = (h + p)%N) ->
  exists l C, [/\ data_my_latent chol T ix nzp pix psh lix lsh = LOk (l, C), size l = maxn 1 T & forall t, List.In t l -> lat_good C t].
Proof.
move=> sh six; rewrite /data_my_latent.
have [t [C [-> g cs]]] := lat_first_ok (pix 0%N) nzp (sh 0%N) six.
have [l [-> sz gl]] := lat_times_ok pix lix lsh (T - 1) 1 t cs sh.
exists (t :: l), C; split=> //=; first by rewrite sz maxnE.
by move=> u [<-|/gl].
Qed.
End Run.
