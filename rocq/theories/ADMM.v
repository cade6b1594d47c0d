(** Two-block ADMM in an abstract inner product space. Mathematics only: the
    solvers of /repo are instantiated to it in the P_*.v files. *)
From Coq Require Import Reals Lra.
From mathcomp Require Import all_ssreflect all_algebra.
From Verif Require Import RStruct RTac LinTac S_Mat RMx.
Import Order.TTheory GRing.Theory Num.Theory.

Set Implicit Arguments.
Unset Strict Implicit.
Unset Printing Implicit Defensive.
Local Open Scope ring_scope.

(** * Inner products *)
Record innerp (V : lmodType R) := Innerp {
  ip :> V -> V -> R;
  ipC : forall x y, ip x y = ip y x;
  ipDl : forall x y z, ip (x + y) z = ip x z + ip y z;
  ipZl : forall a x y, ip (a *: x) y = a * ip x y;
  ip_ge0 : forall x, 0 <= ip x x;
  ip_eq0 : forall x, ip x x = 0 -> x = 0 }.

Section Ip.
Variables (V : lmodType R) (d : innerp V).
Implicit Types x y z : V.
Lemma ipDr x y z : d x (y + z) = d x y + d x z.
Proof. by rewrite ipC ipDl !(ipC d x). Qed.
Lemma ipZr a x y : d x (a *: y) = a * d x y.
Proof. by rewrite ipC ipZl (ipC d x). Qed.
Lemma ipNl x y : d (- x) y = - d x y.
Proof. by rewrite -scaleN1r ipZl mulN1r. Qed.
Lemma ipNr x y : d x (- y) = - d x y.
Proof. by rewrite ipC ipNl ipC. Qed.
Lemma ipBl x y z : d (x - y) z = d x z - d y z.
Proof. by rewrite ipDl ipNl. Qed.
Lemma ipBr x y z : d x (y - z) = d x y - d x z.
Proof. by rewrite ipDr ipNr. Qed.
Lemma ip0l x : d 0 x = 0.
Proof. by rewrite -(scale0r 0) ipZl mul0r. Qed.
Lemma ip0r x : d x 0 = 0.
Proof. by rewrite ipC ip0l. Qed.
Definition nrm2 x := d x x.
Definition nrm x : R := sqrt (d x x).
Lemma nrm_ge0 x : 0 <= nrm x.
Proof. by apply/RleP; apply: sqrt_pos. Qed.
Lemma nrm_sqr x : nrm x ^+ 2 = d x x.
Proof. by rewrite RsqrE sqrt_sqrt //; apply/RleP/ip_ge0. Qed.
Lemma nrm2D x y : d (x + y) (x + y) = d x x + 2%:R * d x y + d y y.
Proof.
rewrite ipDl !ipDr (ipC d y x).
by move: (d x x) (d x y) (d y y) => a b c; mcring.
Qed.
Lemma nrm2B x y : d (x - y) (x - y) = d x x - 2%:R * d x y + d y y.
Proof.
rewrite ipBl !ipBr (ipC d y x).
by move: (d x x) (d x y) (d y y) => a b c; mcring.
Qed.
Lemma cauchy2 x y : d x y ^+ 2 <= d x x * d y y.
Proof.
have [y0|y0] := eqVneq (d y y) 0.
  by rewrite (ip_eq0 y0) !ip0r expr0n /= mulr0.
have yp : 0 < d y y by rewrite lt_def y0 ip_ge0.
have h := ip_ge0 d (x - (d x y / d y y) *: y).
move: h; rewrite nrm2B ipZl !ipZr.
move: (d x x) (d x y) (d y y) y0 yp => a b c c0 cp h.
have h2 : 0 <= c * (a - 2%:R * (b / c * b) + b / c * (b / c * c)).
  by apply: mulr_ge0 => //; apply: ltW.
have e : c * (a - 2%:R * (b / c * b) + b / c * (b / c * c)) = a * c - b ^+ 2.
  by mcfield.
by rewrite e subr_ge0 in h2.
Qed.
Lemma cauchy x y : `|d x y| <= nrm x * nrm y.
Proof.
have h := cauchy2 x y.
rewrite -(@ler_pexpn2r _ 2) ?nnegrE //; last by apply: mulr_ge0; apply: nrm_ge0.
by rewrite -normrX ger0_norm ?sqr_ge0 // exprMn !nrm_sqr.
Qed.
Lemma cauchy_le x y : d x y <= nrm x * nrm y.
Proof. exact: le_trans (ler_norm _) (cauchy x y). Qed.
Lemma nrmN x : nrm (- x) = nrm x.
Proof. by rewrite /nrm ipNl ipNr opprK. Qed.
Lemma nrm0 : nrm 0 = 0.
Proof. by rewrite /nrm ip0l sqrt_0. Qed.
Lemma polar x' x xs :
  2%:R * d (x' - xs) (x' - x) =
  d (x' - xs) (x' - xs) + d (x' - x) (x' - x) - d (x - xs) (x - xs).
Proof.
have -> : x - xs = (x' - xs) - (x' - x) by lin.
rewrite (nrm2B (x' - xs)); move: (d _ _) (d _ _) (d _ _) => a b c; mcring.
Qed.
End Ip.

Section Pair.
Variables (V W : lmodType R) (dv : innerp V) (dw : innerp W).
Definition pair_ip_def (x y : V * W) := dv x.1 y.1 + dw x.2 y.2.
Program Definition pair_ip : innerp [lmodType R of V * W] := @Innerp _ pair_ip_def _ _ _ _ _.
Next Obligation. by move=> x y; rewrite /pair_ip_def ipC (ipC dw). Qed.
Next Obligation. by move=> x y z; rewrite /pair_ip_def !ipDl addrACA. Qed.
Next Obligation. by move=> a x y; rewrite /pair_ip_def !ipZl mulrDr. Qed.
Next Obligation. by move=> x; apply: addr_ge0; apply: ip_ge0. Qed.
Next Obligation.
move=> [x1 x2] /eqP; rewrite /pair_ip_def paddr_eq0 ?ip_ge0 //= => /andP[/eqP h1 /eqP h2].
by rewrite (ip_eq0 h1) (ip_eq0 h2).
Qed.
End Pair.

Section Ffun.
Variables (I : finType) (V : lmodType R) (dv : innerp V).
Definition ffun_ip_def (x y : {ffun I -> V}) := \sum_i dv (x i) (y i).
Program Definition ffun_ip : innerp [lmodType R of {ffun I -> V}] :=
  @Innerp _ ffun_ip_def _ _ _ _ _.
Next Obligation. by move=> x y; apply: eq_bigr => i _; rewrite ipC. Qed.
Next Obligation.
by move=> x y z; rewrite /ffun_ip_def -big_split; apply: eq_bigr => i _; rewrite ffunE ipDl.
Qed.
Next Obligation.
by move=> a x y; rewrite /ffun_ip_def mulr_sumr; apply: eq_bigr => i _; rewrite ffunE ipZl.
Qed.
Next Obligation. by move=> x; apply: sumr_ge0 => i _; apply: ip_ge0. Qed.
Next Obligation.
move=> x h; apply/ffunP => i; rewrite ffunE; apply: (@ip_eq0 _ dv).
have H : forall i, true -> dv (x i) (x i) = 0.
  by apply/psumr_eq0P => // j _; apply: ip_ge0.
by apply: H.
Qed.
End Ffun.

Definition mat_ip m n : innerp [lmodType R of 'M[R]_(m, n)] :=
  @Innerp [lmodType R of 'M[R]_(m, n)] (@fdot m n) (@fdotC m n) (@fdotDl m n) (@fdotZl m n)
    (@fdotAA_ge0 m n) (@fdotAA_eq0 m n).

(** * ADMM *)
Section Admm.
Variables (V W : lmodType R) (dv : innerp V) (dw : innerp W).
Variables (B : V -> W) (Bt : W -> V).
Hypothesis BD : forall x y, B (x - y) = B x - B y.
Hypothesis Badj : forall x w, dw (B x) w = dv x (Bt w).
Variables (D : V -> Prop) (f : V -> R) (g : W -> R) (rho : R).
Hypothesis rho_gt0 : 0 < rho.

(** [s] is a subgradient of [f] at [x], relative to the domain [D] *)
Definition subgf (x s : V) := D x /\ forall y, D y -> f x + dv s (y - x) <= f y.
Definition subgg (z s : W) := forall w, g z + dw s (w - z) <= g w.

(** saddle point: primal feasible, and the scaled multiplier is stationary *)
Definition kkt (xs : V) (us : W) :=
  subgf xs (- rho *: Bt us) /\ subgg (B xs) (rho *: us).

Lemma kkt_opt xs us : kkt xs us ->
  minimiser D (fun x => f x + g (B x)) xs.
Proof.
move=> [[Dx hf] hg]; split=> // y Dy.
have h1 := hf _ Dy; have h2 := hg (B y).
rewrite ipZl mulNr ipC -Badj BD in h1.
rewrite ipZl (ipC dw us) in h2.
move: h1 h2; move: (rho * _) (f xs) (f y) (g _) (g _) => a b c e k h1 h2; mclra.
Qed.

(** one iteration: [x] solves the x-subproblem from (z,u), [z'] the z-subproblem *)
Definition admm_step (z u : W) (x : V) (z' u' : W) :=
  [/\ subgf x (- rho *: Bt (B x - z + u)),
      subgg z' (rho *: (B x + u - z')) &
      u' = u + B x - z'].

Lemma step_subgg z u x z' u' : admm_step z u x z' u' -> subgg z' (rho *: u').
Proof. by case=> _ + ->; rewrite (addrC u). Qed.

Lemma step_fixed z u x : admm_step z u x z u -> B x = z /\ kkt x u.
Proof.
case=> h1 h2 h3.
have e : B x = z.
  have -> : B x = (u + B x - z) - u + z by lin.
  by rewrite -h3; lin.
split=> //; split; first by rewrite e subrr add0r in h1.
rewrite e; move: h2; rewrite e.
by have -> : z + u - z = u by lin.
Qed.

Definition lyap (z u zs us : W) := dw (u - us) (u - us) + dw (z - zs) (z - zs).

Lemma step_mono z u x z' u' xs us :
  admm_step z u x z' u' -> kkt xs us ->
  lyap z' u' (B xs) us + dw (u' - u) (u' - u) + dw (z' - z) (z' - z)
    + 2%:R * dw (z' - z) (u' - u) <= lyap z u (B xs) us.
Proof.
move=> st [[Ds kf] kg].
have hg' := step_subgg st; case: st => [[Dx hf] _ eu].
have eBx : B x = u' - u + z' by rewrite eu; lin.
have f1 := hf _ Ds; have f2 := kf _ Dx.
have g1 := hg' (B xs); have g2 := kg z'.
rewrite ipZl mulNr ipC -Badj BD in f1.
rewrite ipZl mulNr ipC -Badj BD in f2.
rewrite ipZl in g1; rewrite ipZl in g2.
have e1 : B x - z + u = u' + (z' - z).
  by rewrite eBx; lin.
rewrite e1 in f1.
have hsum : rho * (dw (u' - us) (u' - u) + dw (z' - z) (z' - B xs) + dw (z' - z) (u' - u)) <= 0.
  have eA : dw (B xs - B x) (u' + (z' - z)) + dw (B x - B xs) us
     + dw u' (z' - B xs) - dw us (z' - B xs)
     = - (dw (u' - us) (u' - u) + dw (z' - z) (z' - B xs) + dw (z' - z) (u' - u)).
    have -> : B xs - B x = - ((u' - u) + (z' - B xs)) by rewrite eBx; lin.
    have -> : B x - B xs = (u' - u) + (z' - B xs) by rewrite eBx; lin.
    move: (u' - u) (z' - B xs) (z' - z) => dU Q dZ.
    rewrite ipBl ipNl !ipDr !ipDl (ipC dw u' Q) (ipC dw us Q) (ipC dw u' dU) (ipC dw us dU).
    rewrite (ipC dw dZ Q) (ipC dw dZ dU).
    move: (dw dU u') (dw Q u') (dw dU dZ) (dw Q dZ) (dw dU us) (dw Q us) => a1 a2 a3 a4 a5 a6.
    mcring.
  have : 0 <= rho * (dw (B xs - B x) (u' + (z' - z)) + dw (B x - B xs) us
     + dw u' (z' - B xs) - dw us (z' - B xs)).
    have -> : dw u' (z' - B xs) = - dw u' (B xs - z') by rewrite -ipNr opprB.
    by clear -f1 f2 g1 g2; mclra.
  rewrite eA mulrN oppr_ge0; apply.
have {}hsum : dw (u' - us) (u' - u) + dw (z' - z) (z' - B xs) + dw (z' - z) (u' - u) <= 0.
  by rewrite -(pmulr_rle0 _ rho_gt0).
have p1 := polar dw u' u us; have p2 := polar dw z' z (B xs).
rewrite (ipC dw (z' - B xs)) in p2.
rewrite /lyap.
by clear -hsum p1 p2; mclra.
Qed.

(** the Lyapunov function decreases by at least the squared residuals, as soon as the
    starting point itself comes out of a z-update *)
Lemma step_decrease z u x z' u' xs us :
  subgg z (rho *: u) ->
  admm_step z u x z' u' -> kkt xs us ->
  lyap z' u' (B xs) us + dw (u' - u) (u' - u) + dw (z' - z) (z' - z) <= lyap z u (B xs) us.
Proof.
move=> hz st k; have h := step_mono st k.
have h1 := hz z'; have h2 := step_subgg st z.
rewrite ipZl in h1; rewrite ipZl in h2.
have h3 : 0 <= dw (z' - z) (u' - u).
  rewrite -(pmulr_rge0 _ rho_gt0).
  have -> : dw (z' - z) (u' - u) = - dw u' (z - z') - dw u (z' - z).
    rewrite (ipBr dw (z' - z)) (ipC dw _ u') (ipC dw _ u) -(ipNr dw u' (z - z')).
    by rewrite opprB.
  by clear -h1 h2; mclra.
by move: h h3; clear; move=> h h3; mclra.
Qed.
Lemma step_noninc z u x z' u' xs us :
  admm_step z u x z' u' -> kkt xs us -> lyap z' u' (B xs) us <= lyap z u (B xs) us.
Proof.
move=> st k; have h := step_mono st k.
have h3 := ip_ge0 dw ((z' - z) + (u' - u)).
rewrite nrm2D in h3.
by move: h h3; clear; move=> h h3; mclra.
Qed.
Lemma lyap_ge0 z u zs us : 0 <= lyap z u zs us.
Proof. by apply: addr_ge0; apply: ip_ge0. Qed.

(** value gap after one step *)
Lemma step_gap z u x z' u' xs :
  admm_step z u x z' u' -> D xs ->
  f x + g z' - (f xs + g (B xs)) <=
  - (rho * dw u' (B x - z')) + rho * dw (z' - z) (B xs - B x).
Proof.
move=> st Ds.
have hg' := step_subgg st; case: st => [[Dx hf] _ eu].
have f1 := hf _ Ds; have g1 := hg' (B xs).
rewrite ipZl mulNr ipC -Badj BD in f1; rewrite ipZl in g1.
have e1 : B x - z + u = u' + (z' - z) by rewrite eu; lin.
rewrite e1 ipDr in f1.
rewrite (_ : dw u' (B x - z') = dw u' (B xs - z') - dw (B xs - B x) u'); last first.
  by rewrite (ipC dw _ u') -ipBr; congr (dw _ _); lin.
rewrite (ipC dw (z' - z)).
by move: f1 g1; clear; move=> f1 g1; mclra.
Qed.

(** a run: states related by steps; some step within the first [N+1] has small residuals *)
Section Run.
Variables (zs us : nat -> W) (xs_ : nat -> V).
Hypothesis run : forall k, admm_step (zs k) (us k) (xs_ k) (zs k.+1) (us k.+1).
Variables (xo : V) (uo : W).
Hypothesis ko : kkt xo uo.

Lemma run_sum N :
  lyap (zs N.+1) (us N.+1) (B xo) uo +
  \sum_(1 <= k < N.+1) (dw (us k.+1 - us k) (us k.+1 - us k) + dw (zs k.+1 - zs k) (zs k.+1 - zs k))
  <= lyap (zs 0%N) (us 0%N) (B xo) uo.
Proof.
elim: N => [|N IH].
  by rewrite big_geq // addr0; apply: (step_noninc (run 0%N) ko).
rewrite big_nat_recr //=.
have h := step_decrease (step_subgg (run N)) (run N.+1) ko.
move: IH h; clear; move=> IH h.
apply: le_trans IH; rewrite addrCA addrC -addrA.
set S := \sum_(_ <= _ < _) _.
by move: h; move: S => S h; mclra.
Qed.

Lemma run_small N eps : (0 < N)%N -> 0 < eps ->
  lyap (zs 0%N) (us 0%N) (B xo) uo <= eps * N%:R ->
  exists k, [/\ (1 <= k <= N)%N,
    dw (us k.+1 - us k) (us k.+1 - us k) <= eps &
    dw (zs k.+1 - zs k) (zs k.+1 - zs k) <= eps].
Proof.
move=> N0 e0 hN.
pose t k := dw (us k.+1 - us k) (us k.+1 - us k) + dw (zs k.+1 - zs k) (zs k.+1 - zs k).
have [/existsP [k /andP[k1 hk]]|] := boolP [exists k : 'I_N.+1, (0 < k)%N && (t k <= eps)].
  exists k; split; first by rewrite k1 -ltnS ltn_ord.
    by apply: le_trans hk; rewrite ler_addl ip_ge0.
  by apply: le_trans hk; rewrite ler_addr ip_ge0.
rewrite negb_exists => /forallP h.
have hs := run_sum N.
have : eps * N%:R < \sum_(1 <= k < N.+1) t k.
  have -> : eps * N%:R = \sum_(1 <= k < N.+1) eps.
    by rewrite big_const_nat subSS subn0 iter_addr_0 mulr_natr.
  have hk k : (0 < k < N.+1)%N -> eps < t k.
    by move=> /andP[k1 k2]; have := h (Ordinal k2); rewrite /= k1 /= -ltNge.
  rewrite (@big_ltn _ _ _ 1 N.+1) // [X in _ < X](@big_ltn _ _ _ 1 N.+1) //.
  apply: ltr_le_add; first by apply: hk; rewrite /= ltnS.
  apply: ler_sum_nat => k /andP[k1 k2]; apply/ltW/hk.
  by rewrite k2 andbT (leq_trans _ k1).
move=> hlt; have h0 := lyap_ge0 (zs N.+1) (us N.+1) (B xo) uo.
have : \sum_(1 <= k < N.+1) t k <= eps * N%:R.
  apply: le_trans hN; apply: le_trans hs; by rewrite ler_addr.
by rewrite leNgt hlt.
Qed.
End Run.
End Admm.
