(** de Casteljau's algorithm computes the Bezier curve. *)
From Coq Require Import Reals Lra.
From mathcomp Require Import all_ssreflect all_algebra.
From Verif Require Import RStruct RTac LinTac M_Utils M_Bezier.
Import Order.TTheory GRing.Theory Num.Theory.

Set Implicit Arguments.
Unset Strict Implicit.
Unset Printing Implicit Defensive.
Local Open Scope ring_scope.

(** the Bernstein form *)
Definition bernstein (t : R) (r i : nat) : R := 'C(r, i)%:R * t ^+ i * (1 - t) ^+ (r - i).
Definition bezier n (t : R) (r : nat) (f : nat -> 'rV[R]_n) : 'rV[R]_n := \sum_(i < r.+1) bernstein t r i *: f i.

Lemma bezier0 n t (f : nat -> 'rV[R]_n) : bezier t 0 f = f 0%N.
Proof. by rewrite /bezier big_ord1 /bernstein bin0 subnn !expr0 !mulr1 scale1r. Qed.
Lemma bezierS n t r (f : nat -> 'rV[R]_n) : bezier t r.+1 f = (1 - t) *: bezier t r f + t *: bezier t r (fun i => f i.+1).
Proof.
rewrite /bezier big_ord_recl /= [X in _ = (1 - t) *: X + _]big_ord_recl /=.
have e1 : bernstein t r.+1 0 = (1 - t) * bernstein t r 0.
  by rewrite /bernstein !bin0 !expr0 !mul1r !subn0 exprS.
have e2 (i : 'I_r.+1) : bernstein t r.+1 (bump 0 i) = (if (i < r)%N then (1 - t) * bernstein t r i.+1 else 0) + t * bernstein t r i.
  rewrite /bump /= add1n /bernstein binS natrD !mulrDl subSS; congr (_ + _); last by rewrite exprS; move: (_%:R) (t ^+ i) ((1 - t) ^+ _) => x y z; mcring.
  case: ltnP => ir; last by rewrite bin_small ?mul0r.
  have -> : (1 - t) ^+ (r - i) = (1 - t) * (1 - t) ^+ (r - i.+1) by rewrite -exprS subnSK.
  by move: (_%:R) (t ^+ _) ((1 - t) ^+ _) => x y z; mcring.
rewrite (eq_bigr (fun i : 'I_r.+1 => (if (i < r)%N then (1 - t) * bernstein t r i.+1 else 0) *: f i.+1 + t *: (bernstein t r i *: f i.+1))); last first.
  by move=> i _; rewrite e2 scalerDl scalerA.
rewrite big_split /= -scaler_sumr addrA; congr (_ + _).
rewrite e1 scalerDr scalerA; congr (_ + _); rewrite big_ord_recr /= ltnn scale0r addr0 scaler_sumr.
by apply: eq_bigr => i _; rewrite ltn_ord scalerA /bump /= add1n.
Qed.
Lemma bezier_eq n t r (f g : nat -> 'rV[R]_n) : (forall i, (i <= r)%N -> f i = g i) -> bezier t r f = bezier t r g.
Proof. by move=> h; apply: eq_bigr => i _; rewrite h // -ltnS. Qed.

Section Cast.
Variables (n : nat) (b : seq 'rV[R]_n) (t : R).
Lemma step_size N a r : size (casteljau_step t N a r : seq 'rV[R]_n) = N.
Proof. by rewrite size_map size_iota. Qed.
Lemma steps r : (r < size b)%N -> let a := foldl (casteljau_step t (size b)) b (iota 1 r) in
  size a = size b /\ forall k, (k < size b - r)%N -> nth 0 a k = bezier t r (fun i => nth 0 b (k + i)).
Proof.
elim: r => [|r IH] rb; first by split=> // k _; rewrite bezier0 addn0.
have -> : iota 1 r.+1 = rcons (iota 1 r) r.+1 by have := iotaD 1 r 1; rewrite addn1 add1n /= cats1.
have [sz h] := IH (ltnW rb); set a' := foldl _ _ _ in sz h.
rewrite foldl_rcons -/a' /=; split; first by rewrite size_map size_iota.
move=> k kb; have k1 : (k.+1 < size b - r)%N by move: kb; rewrite subnS -ltnS prednK // subn_gt0 ltnW.
have kb' : (k < size b)%N by apply: leq_trans (leq_subr r _); exact: ltnW.
rewrite (nth_map 0%N) ?size_iota // nth_iota // add0n kb !h //; last exact: ltnW.
by rewrite bezierS; congr (_ + _ *: _); apply: bezier_eq => i _; rewrite addnS addSn.
Qed.
Lemma casteljauE : (1 < size b)%N -> deCasteljau b t = Val (bezier t (size b).-1 (nth 0 b)).
Proof.
move=> b2; rewrite /deCasteljau ltnNge b2 /=; congr Val.
have lt : ((size b).-1 < size b)%N by rewrite prednK // ltnW.
have [_ h] := steps lt; rewrite h; last by rewrite subn_gt0.
by apply: bezier_eq.
Qed.
End Cast.

(** weights *)
Lemma weights_sum t r : \sum_(i < r.+1) bernstein t r i = 1.
Proof.
have <- : ((1 - t) + t) ^+ r = 1 by rewrite subrK expr1n.
rewrite exprDn; apply: eq_bigr => i _; rewrite /bernstein -[RHS]mulr_natl -mulrA; congr (_ * _); exact: mulrC.
Qed.
Lemma weights_ge0 t r i : 0 <= t -> t <= 1 -> 0 <= bernstein t r i.
Proof. by move=> h0 h1; rewrite /bernstein !mulr_ge0 ?ler0n ?exprn_ge0 ?subr_ge0. Qed.
Lemma bezier_box n t r (f : nat -> 'rV[R]_n) j lo hi : 0 <= t -> t <= 1 -> (forall i, (i <= r)%N -> lo <= f i 0 j <= hi) ->
  lo <= bezier t r f 0 j <= hi.
Proof.
move=> t0 t1 h; rewrite /bezier summxE.
have e c : c = \sum_(i < r.+1) bernstein t r i * c by rewrite -mulr_suml weights_sum mul1r.
apply/andP; split.
  rewrite [lo]e; apply: ler_sum => i _; rewrite mxE ler_wpmul2l ?weights_ge0 //.
  by have /andP [] := h i (ltn_ord i).
rewrite [hi]e; apply: ler_sum => i _; rewrite mxE ler_wpmul2l ?weights_ge0 //.
by have /andP [] := h i (ltn_ord i).
Qed.
Lemma bezier_start n r (f : nat -> 'rV[R]_n) : bezier 0 r f = f 0%N.
Proof.
rewrite /bezier big_ord_recl big1 ?addr0; last by move=> i _; rewrite /bernstein expr0n /= mulr0 mul0r scale0r.
by rewrite /bernstein bin0 !expr0 subr0 expr1n !mulr1 scale1r.
Qed.
Lemma bezier_end n r (f : nat -> 'rV[R]_n) : bezier 1 r f = f r.
Proof.
rewrite /bezier big_ord_recr big1; last first.
  by move=> i _; rewrite /bernstein subrr expr0n subn_eq0 leqNgt (ltn_ord i) /= mulr0 scale0r.
by rewrite /= add0r /bernstein binn subnn !expr0 expr1n !mulr1 scale1r.
Qed.
Lemma bezier_rev n t r (f : nat -> 'rV[R]_n) : bezier t r (fun i => f (r - i)%N) = bezier (1 - t) r f.
Proof.
rewrite /bezier (reindex_inj rev_ord_inj); apply: eq_bigr => i _ /=; rewrite subSS.
have ir : (i <= r)%N by rewrite -ltnS.
by rewrite subKn // /bernstein bin_sub // subKn // subKr -!mulrA [t ^+ _ * _]mulrC.
Qed.

(** linspace *)
Lemma linspace0 nr : linspace01 nr 0 = 0. Proof. by rewrite /linspace01 mul0r. Qed.
Lemma linspace1 nr : (1 < nr)%N -> linspace01 nr nr.-1 = 1.
Proof. by move=> h; rewrite /linspace01 subn1 divff // pnatr_eq0 -lt0n -subn1 subn_gt0. Qed.
Lemma linspace_in nr k : (k < nr)%N -> 0 <= linspace01 nr k <= 1.
Proof.
move=> h; rewrite /linspace01 divr_ge0 ?ler0n //=; case: nr h => [|[|nr]] //; first by case: k => // _; rewrite mul0r ler01.
by move=> h; rewrite ler_pdivr_mulr ?ltr0n // mul1r ler_nat subn1.
Qed.
Lemma linspace_rev nr k : (k < nr)%N -> (1 < nr)%N -> linspace01 nr (nr.-1 - k) = 1 - linspace01 nr k.
Proof.
move=> h n1; have nz : (nr - 1)%:R != 0 :> R by rewrite pnatr_eq0 -lt0n subn_gt0.
rewrite /linspace01 natrB -?subn1 ?mulrBl ?divff //; by move: h; case: nr {nz} n1 => // nr _; rewrite subn1.
Qed.
Lemma collectE n (l : seq 'rV[R]_n) : collect [seq Val x | x <- l] = Val l.
Proof. by elim: l => //= x l ->. Qed.
Lemma BezierE n (b : seq 'rV[R]_n) nr : (1 < size b)%N ->
  BezierCv b nr = Val [seq bezier (linspace01 nr k) (size b).-1 (nth 0 b) | k <- iota 0 nr].
Proof.
move=> b2; rewrite /BezierCv -collectE -map_comp; congr collect; apply/eq_in_map => k _ /=; exact: casteljauE.
Qed.

(** * the interval *)
Lemma idx_loopP d D fuel k : (size D <= fuel + k)%N -> (forall i, (i < k)%N -> nth 0 D i < d) -> (k < size D)%N ->
  let m := idx_loop d D fuel k in [/\ (m < size D)%N, forall i, (i < m)%N -> nth 0 D i < d & d <= nth 0 D m \/ m.+1 = size D].
Proof.
elim: fuel k => [|f IH] k sz lo kd /=; first by move: sz; rewrite add0n leqNgt kd.
case: ifP => [/andP [k1 dk]|/negbT].
  apply: IH => //; first by rewrite addnS -addSn.
  by move=> i; rewrite ltnS leq_eqVlt => /orP [/eqP ->|/lo].
rewrite negb_and -leqNgt -leNgt => /orP c; split=> //; case: c => [h|]; [right; apply/eqP; rewrite eqn_leq kd h // | by left].
Qed.
