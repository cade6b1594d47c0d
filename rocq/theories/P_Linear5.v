(** group_lasso_overlap: when it stops, an instance, and the removal of unused features. *)
From Coq Require Import Reals Lra Psatz.
From mathcomp Require Import all_ssreflect all_algebra.
From Verif Require Import RStruct RTac LinTac S_Mat RMx ADMM NP M_Prox M_Loop P_Prox P_Loop P_GL P_GL2 P_LGL P_Rules.
From Verif Require Import S_Linear M_Linear P_Linear P_Linear2 P_Linear3 P_Linear4.
Import Order.TTheory GRing.Theory Num.Theory.

Set Implicit Arguments.
Unset Strict Implicit.
Unset Printing Implicit Defensive.
Local Open Scope ring_scope.

(** number of consecutive passes at the end of the log *)
Definition trail (h : seq convergence) : nat := foldl (fun c x => if ls_stop x then c.+1 else 0%N) 0%N h.
Lemma trail_rcons h c : trail (rcons h c) = if ls_stop c then (trail h).+1 else 0%N.
Proof. by rewrite /trail foldl_rcons. Qed.
Lemma trail_pass h c0 j : (j < trail h)%N -> ls_stop (nth c0 h (size h - j.+1)) /\ (j < size h)%N.
Proof.
elim/last_ind: h j => [|h c IH] [|j]; rewrite ?trail_rcons //.
  by case: ifP => // hc _; rewrite size_rcons subn1 /= nth_rcons ltnn eqxx.
case: ifP => // hc; rewrite ltnS => /IH [h1 h2]; rewrite size_rcons ltnS h2 subSS; split=> //.
by rewrite nth_rcons ltn_subrL /= (leq_ltn_trans (leq0n j) h2).
Qed.
Lemma trail_ge h c0 k : (k <= size h)%N -> (forall j, (j < k)%N -> ls_stop (nth c0 h (size h - j.+1))) -> (k <= trail h)%N.
Proof.
elim/last_ind: h k => [|h c IH] [|k] //; rewrite size_rcons ltnS trail_rcons => hk hp.
have h0 := hp 0%N isT; rewrite subn1 /= nth_rcons ltnn eqxx in h0; rewrite h0 ltnS; apply: IH => // j hj.
have := hp j.+1 hj; rewrite subSS nth_rcons ltn_subrL /=.
by have -> : (0 < size h)%N by exact: leq_trans (leq_ltn_trans (leq0n j) hj) hk.
Qed.

Section Stop.
Variables (m d : nat) (A : 'M[R]_(m, d)) (b : 'cV[R]_m) (groups : seq (seq nat)) (Minv : 'M[R]_d)
  (obj : seq (seq R) -> 'cV[R]_d -> xR) (p : ov_params).
Local Notation body := (ov_body A b groups Minv obj p).
Lemma ov_body_cases k s : let c := (body k s).2 in
  match (body k s).1 with
  | Break s' => ls_stop c /\ (10 < ov_count s)%N
  | Next s' => ov_count s' = (if ls_stop c then (ov_count s).+1 else 0%N) /\ (ls_stop c -> (ov_count s <= 10)%N)
  end.
Proof.
rewrite /ov_body; case: ifP => h1 /=; last by rewrite h1.
by case: ifP => h2 /=; rewrite h1 //; split=> // _; rewrite leqNgt h2.
Qed.
Lemma ov_run todo it s checks last : trail checks = ov_count s -> (ov_count s <= 11)%N ->
  (forall i, (i <= size checks)%N -> (trail (take i checks) <= 11)%N) ->
  let e := py_for body todo it s checks last in let H := le_checks e in
  [/\ forall i, (i < size H)%N -> (trail (take i H) <= 11)%N, (~~ le_else e -> trail H = 12%N) &
      le_else e -> (trail H <= 11)%N /\ size H = (size checks + todo)%N].
Proof.
elim: todo it s checks last => [|todo IH] it s checks last et ec hch /=.
  by split=> //; [move=> i hi; apply: hch; apply: ltnW | rewrite addn0 et].
have := ov_body_cases it s; case: (body it s) => [[s'|s'] c] /=.
  move=> [hs hc]; split=> // [i|].
    rewrite size_rcons ltnS => hi; rewrite -cats1 takel_cat //; exact: hch.
  by move=> _; rewrite trail_rcons hs et; congr S; apply/eqP; rewrite eqn_leq ec hc.
move=> [hc hs].
have h1 : trail (rcons checks c) = ov_count s' by rewrite trail_rcons hc et.
have h2 : (ov_count s' <= 11)%N by rewrite hc; case: ifP => // /hs.
have h3 : forall i, (i <= size (rcons checks c))%N -> (trail (take i (rcons checks c)) <= 11)%N.
  move=> i; rewrite leq_eqVlt => /orP[/eqP ->|]; first by rewrite take_size h1.
  by rewrite size_rcons ltnS => hi; rewrite -cats1 takel_cat //; exact: hch.
have [g1 g2 g3] := IH it.+1 s' (rcons checks c) (Some it) h1 h2 h3; split=> //.
by move=> /g3; rewrite size_rcons addSnnS.
Qed.

(** twelve consecutive passes starting at entry i *)
Definition passes12 (h : seq convergence) (i : nat) : Prop :=
  forall c0 j, (j < 12)%N -> c_rnorm (nth c0 h (i + j)) < c_e_pri (nth c0 h (i + j)) /\ c_snorm (nth c0 h (i + j)) < c_e_dual (nth c0 h (i + j)).
Lemma stopP c : ls_stop c <-> (c_rnorm c < c_e_pri c /\ c_snorm c < c_e_dual c).
Proof. by split=> [/andP []|[h1 h2]] //; rewrite /ls_stop h1 h2. Qed.
Lemma passes12P h i : (i + 12 <= size h)%N -> passes12 h i <-> (12 <= trail (take (i + 12) h))%N.
Proof.
move=> hi; have st : size (take (i + 12) h) = (i + 12)%N by rewrite size_takel.
split=> hp.
  apply: (@trail_ge _ (Convergence NaN 0 0 0 0)); rewrite ?st ?leq_addl // => j hj.
  rewrite nth_take; last by rewrite addnC; exact: ltn_subrL || rewrite ltn_subrL addn_gt0.
  have -> : (i + 12 - j.+1 = i + (11 - j))%N by rewrite -addnBA // subSS.
  by apply/stopP; apply: hp; rewrite ltnS leq_subr.
move=> c0 j hj; have hj' : (11 - j < trail (take (i + 12) h))%N by apply: leq_trans hp; rewrite ltnS leq_subr.
have [] := trail_pass c0 hj'; rewrite st => h1 _; apply/stopP; move: h1.
have -> : (i + 12 - (11 - j).+1 = i + j)%N by rewrite -addnBA ?ltnS ?leq_subr // subSS subKn.
by rewrite nth_take // ltn_add2l.
Qed.
End Stop.

(** * an instance *)
Section Witness.
Variables (obj : seq (seq R) -> 'cV[R]_2 -> xR) (p : ov_params).
Hypothesis pl : ov_lamda p = 1.
Hypothesis pr : ov_rho p = 1.
Definition half2 : 'M[R]_2 := (2%:R^-1)%:M.
Lemma D2 : ov_D 2 grp2 = 1%:M.
Proof.
rewrite /ov_D -diag_const_mx; congr diag_mx; apply/rowP => i; rewrite !mxE D_functionE /= addn0.
by have := cov2 i; rewrite /= => ->.
Qed.
Lemma half2_inv : ((1%:M : 'M[R]_2)^T *m 1%:M + ov_rho p *: ov_D 2 grp2) *m half2 = 1%:M.
Proof.
rewrite D2 pr scale1r trmx1 mul1mx mulmxDl mul1mx /half2 -raddfD /=.
by congr (_%:M); mclra.
Qed.
Local Notation body := (ov_body 1%:M ones2 grp2 half2 obj p).
Definition oinv (k : nat) (s : ov_state 2) : Prop :=
  [/\ ov_x s = copies_of grp2 (fun=> 0), ov_y s = copies_of grp2 (fun=> 2%:R ^- k - 1) &
      (0 < k)%N -> ov_z s = const_mx (2%:R ^- k)].
Lemma oinv_step k j s : oinv k s -> oinv k.+1 (out_state (body j s).1).
Proof.
move=> [ex ey _].
have t0 : 0 < (2%:R : R) ^- k by rewrite invr_gt0 exprn_gt0 // ltr0n.
have t1 : (2%:R : R) ^- k <= 1 by rewrite invf_le1 ?exprn_gt0 ?ltr0n // exprn_ege1 // ler1n.
have eS : (2%:R : R) ^- k.+1 = 2%:R ^- k / 2%:R by rewrite exprS invfM mulrC.
set t := 2%:R ^- k in t0 t1 eS ey; clearbody t.
have hx : ov_x (out_state (body j s).1) = copies_of grp2 (fun=> 0).
  rewrite ov_body_x ex ey ov_x_copies pl pr; congr copies_of.
  have -> // : soft1 (0 - (t - 1) / 1) (1 / 1) = 0.
  rewrite !divr1 soft1_small //; mclra.
have hz : ov_z (out_state (body j s).1) = const_mx (t / 2%:R).
  rewrite ov_body_z hx ey /ov_z_update D2 pr trmx1 !mul1mx scale1r; apply/matrixP => i c; rewrite !ord1.
  rewrite /half2 mul_scalar_mx !mxE !P_star_copies cov2; mclra.
split=> //; last by rewrite eS.
rewrite ov_body_y hx hz ey ov_y_copies pr; rewrite /copies_of /=; congr [:: _].
by congr [:: _; _]; rewrite eS /at_idx insubT // mxE; mclra.
Qed.
Lemma oinv_iter k : oinv k (iter_state body 0 (ov_init 2 grp2) k).
Proof.
elim: k => [|k IH]; last exact: oinv_step.
by split=> //; rewrite /= expr0 invr1 subrr.
Qed.
Lemma ov_run_z : (3 <= ov_max_iter p)%N -> exists2 k, (3 <= k)%N & ov_z (le_state (ov_loop 1%:M ones2 grp2 half2 obj p)) = const_mx (2%:R ^- k).
Proof.
move=> h3; have [k [[k1 [k2 k3]] hs hc _ he]] := py_forP body (ov_max_iter p) 0 (ov_init 2 grp2) [::] None.
have [_ _ hz] := oinv_iter k.
have k3' : (3 <= k)%N.
  rewrite /= in hc.
  have [_ g2 g3] := @ov_run 2 2 1%:M ones2 grp2 half2 obj p (ov_max_iter p) 0 (ov_init 2 grp2) [::] None erefl isT (fun i _ => isT).
  have sz : size (le_checks (py_for body (ov_max_iter p) 0 (ov_init 2 grp2) [::] None)) = k by rewrite hc size_map size_iota.
  case: (boolP (le_else (py_for body (ov_max_iter p) 0 (ov_init 2 grp2) [::] None))) => hel.
    by have [_] := g3 hel; rewrite sz add0n => ->.
  have ht := g2 hel; have [_] := @trail_pass _ (Convergence NaN 0 0 0 0) 11 (eq_leq (esym ht)); rewrite sz => h11; exact: leq_trans h11.
by exists k => //; rewrite /ov_loop hs; apply: hz; exact: leq_trans k3'.
Qed.
End Witness.
Lemma group_value_gap (t : R) : 0 <= t -> t <= 8%:R^-1 ->
  group_problem 1%:M ones2 1 grp2 (const_mx 4%:R^-1) < group_problem 1%:M ones2 1 grp2 (const_mx t).
Proof.
move=> t0 t1; rewrite !group_value //; last by rewrite invr_ge0 ler0n.
have := sqrt2_bound; move: (sqrt 2%:R : R) => r h.
have h2 : 0 < 4%:R^-1 - t by mclra.
have h3 : 0 < 7%:R / 4%:R - t - r by mclra.
have h4 := mulr_gt0 h2 h3; mcnra.
Qed.

(** * unused features *)
Lemma unused_mem (groups : seq (seq nat)) (g : seq nat) (e : nat) : g \in groups -> e \in g -> e \in unused_idx groups.
Proof. by move=> hg he; rewrite /unused_idx mem_sort mem_undup; apply/flattenP; exists g. Qed.
Lemma remove_unused_ok C (data : nat -> C) groups c0 g i : (g < size groups)%N -> (i < size (nth [::] groups g))%N ->
  let r := remove_unused_features data groups in
  let j := nth 0%N (nth [::] r.2 g) i in
  (j < size r.1)%N /\ nth c0 r.1 j = data (nth 0%N (nth [::] groups g) i).
Proof.
move=> hg hi /=; rewrite size_map (nth_map [::]) // (nth_map 0%N) //.
have hm : nth 0%N (nth [::] groups g) i \in unused_idx groups by apply: unused_mem; apply: mem_nth.
by rewrite index_mem hm (nth_map 0%N) ?index_mem // nth_index.
Qed.
Lemma remove_unused_used C (data : nat -> C) groups j : let r := remove_unused_features data groups in
  (j < size r.1)%N -> exists g i, [/\ (g < size groups)%N, (i < size (nth [::] groups g))%N & nth 0%N (nth [::] r.2 g) i = j].
Proof.
rewrite /= size_map => hj; have hm := mem_nth 0%N hj; move: hm.
rewrite {2}/unused_idx mem_sort mem_undup => /flattenP [g hg he].
exists (index g groups), (index (nth 0%N (unused_idx groups) j) g); rewrite index_mem hg nth_index // index_mem he; split=> //.
rewrite (nth_map [::]) ?index_mem // nth_index // (nth_map 0%N) ?index_mem // nth_index // index_uniq //.
by rewrite /unused_idx sort_uniq undup_uniq.
Qed.
