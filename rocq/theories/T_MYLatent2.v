(** C174, continued: the number of links of the latent variables at later times. *)
From Coq Require Import Reals.
From mathcomp Require Import all_ssreflect all_algebra.
From Verif Require Import RStruct S_Mat M_Utils M_Gauss P_Gauss M_MYLatent T_MYLatent.
Import Order.TTheory GRing.Theory Num.Theory.

Set Implicit Arguments.
Unset Strict Implicit.
Unset Printing Implicit Defensive.
Local Open Scope ring_scope.

Lemma lat_prune_nnz h (to_put : 'I_h -> nat) shuffle (A : 'M[R]_h) : (forall t l, perm_eq (shuffle t l) l) ->
  forall i, (nnz (lat_prune to_put shuffle A) i <= maxn 4 (to_put i))%N.
Proof.
move=> sh; rewrite /lat_prune; set f := fun _ _ => _.
have : forall i, i \notin [seq i <- enum 'I_h | (to_put i < nnz A i)%N] -> (nnz A i <= maxn 4 (to_put i))%N.
  by move=> i; rewrite mem_filter mem_enum andbT -leqNgt leq_max => ->; rewrite orbT.
move: [seq i <- enum 'I_h | (to_put i < nnz A i)%N] => rem; elim: rem A => [|i l IH] A small /=; first by move=> i; exact: small.
apply: IH => k kl; case: (eqVneq k i) => [->|ki]; first by rewrite leq_max; apply/orP; left; exact: (prune_step sh (erefl _)).
apply: leq_trans (small k _); last by rewrite inE negb_or ki.
by apply: nnz_mono => j; exact: cross0_nz.
Qed.

(** At every later time a latent variable has, with other latent variables, at most max(4, m) links, where m is the number of nonzero entries (with the
    diagonal) of its row at the time before *)
Theorem C174_links chol h p T (ix : 'I_h -> seq 'I_(h + p)) nzp pix psh lix lsh l C d : (forall k t e, perm_eq (lsh k t e) e) ->
  data_my_latent chol T ix nzp pix psh lix lsh = LOk (l, C) ->
  forall k i, (k.+1 < size l)%N ->
    (#|[set j | (j != i) && (lt_H (nth d l k.+1) i j != 0%R)]| <= maxn 4 #|[set j | lt_H (nth d l k) i j != 0%R]|)%N.
Proof.
move=> sh; rewrite /data_my_latent; case: (lat_first _ _ _ _ _) => [[first C0]|] //.
case e: (lat_times _ _ _ _ _ _ _ _ _) => [l'|] // [<- _] {l C}.
suff gen todo k0 prev l1 : lat_times chol C0 pix psh lix lsh todo k0 prev = LOk l1 -> forall k i, (k.+1 < size (prev :: l1))%N ->
    (#|[set j | (j != i) && (lt_H (nth d (prev :: l1) k.+1) i j != 0%R)]| <= maxn 4 #|[set j | lt_H (nth d (prev :: l1) k) i j != 0%R]|)%N by exact: gen e.
clear e l'; elim: todo k0 prev l1 => [|todo IH] k0 prev l' /=; first by move=> [<-] k i.
case es: (lat_step _ _ _ _ _ _ _) => [cur|] //; case et: (lat_times _ _ _ _ _ _ _ _ _) => [l''|] // [<-] [|k] i kl /=; last exact: (IH _ _ _ et).
move: es; rewrite /lat_step; case: (theta_my _ _ _) => [theta|] //; case: ifP => // _; case: (lat_observed _ _ _ _) => [[obs sg]|] // [<-] /=.
rewrite -/(nnz (lt_H prev) i) /lat_next; set B := lat_prune _ _ _.
apply: leq_trans (lat_prune_nnz (fun i => nnz (lt_H prev) i) (lat_fill (fun i => nnz (lt_H prev) i) (lix k0) (lat_value h p)) (sh k0) i).
apply: subset_leq_card; apply/subsetP => j; rewrite !inE mxE eq_sym => /andP[/negbTE ->]; by rewrite -/B.
Qed.
Print Assumptions C174_links.
(** two latent and 198 observed variables, three times, shuffles that do nothing *)
Example C174_links_case : exists (chol : chol_t) l C, let id_shuffle n := fun (_ : nat) (_ : 'I_n) (e : seq 'I_n) => e in
  (forall k t e, perm_eq (id_shuffle 2%N k t e) e) /\
  data_my_latent (h := 2%N) (p := 198%N) chol 3 (fun=> enum 'I_(2 + 198)) (fun=> 5%N) (fun _ _ => enum 'I_198) (id_shuffle 198%N) (fun _ _ => enum 'I_2) (id_shuffle 2%N) = LOk (l, C) /\
  size l = 3%N.
Proof.
have [h0 [hp [sh [six [chol cok]]]]] := C174_case.
have [l [C [e sz _]]] := C174_generator 3 (fun=> 5%N) (fun _ _ => enum 'I_198) (fun _ _ => enum 'I_2) (fun (_ : nat) (_ : 'I_2) (e : seq 'I_2) => e) cok h0 hp sh six.
by exists chol, l, C; split=> // k t e'; exact: perm_refl.
Qed.
