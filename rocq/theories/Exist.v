(** Existence of minimisers of matrix functions whose level sets are bounded. Mathematics only. *)
From Coq Require Import Reals Lra Classical ClassicalEpsilon.
From mathcomp Require Import all_ssreflect all_algebra all_fingroup.
From Verif Require Import RStruct RTac S_Mat RMx BW.
Import Order.TTheory GRing.Theory Num.Theory.

Set Implicit Arguments.
Unset Strict Implicit.
Unset Printing Implicit Defensive.
Local Open Scope ring_scope.

Definition mx_cv m n (u : nat -> 'M[R]_(m, n)) (X : 'M[R]_(m, n)) : Prop := forall i j, Un_cv (fun k => u k i j) (X i j).
Definition ev_le (a : nat -> R) (v : R) : Prop := forall eps : R, 0 < eps -> exists N, forall k, (N <= k)%N -> a k <= v + eps.

(** a space with finitely many real coordinates *)
Record coords (V : Type) (I : finType) := Coords {
  co :> V -> I -> R; mk : (I -> R) -> V; comk : forall l i, co (mk l) i = l i }.

Lemma bw_co V (I : finType) (c : coords V I) (u : nat -> V) (r : R) : (forall k i, `|c (u k) i| <= r) ->
  exists phi X, increasing_idx phi /\ forall i, Un_cv (fun k => c (u (phi k)) i) (c X i).
Proof.
move=> hb; pose u' k i := if insub i is Some j then c (u k) (enum_val (j : 'I_#|I|)) else 0.
have [phi [l [hp hl]]] : exists phi l, increasing_idx phi /\ forall i, (i < #|I|)%coq_nat -> Un_cv (fun k => u' (phi k) i) (l i).
  by apply: (bw #|I| u' r) => k i /ssrnat.ltP hi; apply/RleP; rewrite /u' insubT.
exists phi, (mk c (fun i => l (enum_rank i))); split=> // i; rewrite comk.
have := hl (enum_rank i) (elimT ssrnat.ltP (ltn_ord _)).
rewrite /u' insubT ?ltn_ord // => ho.
have -> : Sub (val (enum_rank i)) ho = enum_rank i by apply: val_inj.
by move=> h eps he; have [N hN] := h eps he; exists N => k hk; have := hN k hk; rewrite enum_rankK.
Qed.

Lemma cv_le (a : nat -> R) l v : Un_cv a l -> ev_le a v -> l <= v.
Proof.
move=> hc he; rewrite leNgt; apply/negP => lt.
have e0 : 0 < (l - v) / 3%:R by rewrite divr_gt0 ?subr_gt0 ?ltr0n.
have e3 : l = v + 3%:R * ((l - v) / 3%:R) by rewrite mulrC divfK ?pnatr_eq0 // addrCA subrr addr0.
move: e0 e3; set e := (l - v) / 3%:R => e0 e3; clearbody e.
have [N1 h1] := hc _ (elimT (RltP _ _) e0); have [N2 h2] := he _ e0.
have := h1 (maxn N1 N2) (elimT ssrnat.leP (leq_maxl _ _)); have := h2 (maxn N1 N2) (leq_maxr _ _).
rewrite /R_dist; move: (a _) => x h3 /Rabs_def2 [_ h4].
move: h4 => /RltP h4; move: h3 h4 e3 e0 {h1 h2 lt} => h3 h4 e3 e0; mclra.
Qed.

Lemma ev_le_sub a v phi : increasing_idx phi -> ev_le a v -> ev_le (fun k => a (phi k)) v.
Proof.
move=> hp h eps e0; have [N hN] := h eps e0; exists N => k hk; apply: hN; apply: leq_trans hk _.
by apply/ssrnat.leP; exact: idx_ge.
Qed.

Theorem min_exists_co V (I : finType) (co : coords V I) (D : V -> Prop) (f : V -> R) c r :
  D c -> (forall X, D X -> f X <= f c -> forall i, `|co X i| <= r) ->
  (forall u X v, (forall k, D (u k) /\ f (u k) <= f c) -> (forall i, Un_cv (fun k => co (u k) i) (co X i)) -> ev_le (fun k => f (u k)) v -> D X /\ f X <= v) ->
  exists X, minimiser D f X.
Proof.
move=> Dc hb hcl.
have [a [ha1 ha2]] := inf_seq (fun y => exists X, [/\ D X, f X <= f c & f X = y]) (ex_intro _ (f c) (ex_intro _ c (And3 Dc (lexx _) erefl))).
pose u k := proj1_sig (constructive_indefinite_description _ (ha1 k)).
have hu k : [/\ D (u k), f (u k) <= f c & f (u k) = a k] by exact: (proj2_sig (constructive_indefinite_description _ (ha1 k))).
have [phi [X [hp hX]]] : exists phi X, increasing_idx phi /\ forall i, Un_cv (fun k => co (u (phi k)) i) (co X i).
  by apply: (@bw_co _ _ co u r) => k; have [d1 d2 _] := hu k; exact: hb.
have key Y : D Y -> f Y <= f c -> D X /\ f X <= f Y.
  move=> DY hY; apply: (hcl (fun k => u (phi k))) => //.
    by move=> k; have [] := hu (phi k).
  apply: (ev_le_sub (a := fun k => f (u k))) => // eps e0.
  have [N hN] := ha2 (f Y) (ex_intro _ Y (And3 DY hY erefl)) eps (elimT (RltP _ _) e0); exists N => k hk.
  by have [_ _ ->] := hu k; apply/RleP; apply: hN; apply/ssrnat.leP.
have [DX _] := key c Dc (lexx _); exists X; split=> // Y DY.
have [hY|hY] := lerP (f Y) (f c); first by have [] := key Y DY hY.
by apply: le_trans (ltW hY); have [] := key c Dc (lexx _).
Qed.

Definition mx_coords m n : coords 'M[R]_(m, n) [finType of 'I_m * 'I_n].
Proof.
exists (fun (X : 'M[R]_(m, n)) ij => X ij.1 ij.2) (fun l => \matrix_(i, j) l (i, j)).
by move=> l [i j]; rewrite mxE.
Defined.
Theorem min_exists m n (D : 'M[R]_(m, n) -> Prop) (f : 'M[R]_(m, n) -> R) c r :
  D c -> (forall X, D X -> f X <= f c -> forall i j, `|X i j| <= r) ->
  (forall u X v, (forall k, D (u k) /\ f (u k) <= f c) -> mx_cv u X -> ev_le (fun k => f (u k)) v -> D X /\ f X <= v) ->
  exists X, minimiser D f X.
Proof.
move=> Dc hb hcl; apply: (@min_exists_co _ _ (mx_coords m n) D f c r) => //.
  by move=> X DX hX ij; exact: hb.
by move=> u X v h1 h2; apply: hcl => // i j; exact: (h2 (i, j)).
Qed.

(** * limits *)
Lemma cv_const (c : R) : Un_cv (fun _ => c) c.
Proof. by move=> eps he; exists 0%N => k _; rewrite /R_dist Rminus_diag_eq // Rabs_R0. Qed.
Lemma cv_eq (a b : nat -> R) l : (forall k, a k = b k) -> Un_cv a l -> Un_cv b l.
Proof. by move=> h ha eps he; have [N hN] := ha eps he; exists N => k hk; rewrite -h; exact: hN. Qed.
Lemma cvD (a b : nat -> R) l m : Un_cv a l -> Un_cv b m -> Un_cv (fun k => a k + b k) (l + m).
Proof. exact: CV_plus. Qed.
Lemma cvM (a b : nat -> R) l m : Un_cv a l -> Un_cv b m -> Un_cv (fun k => a k * b k) (l * m).
Proof. exact: CV_mult. Qed.
Lemma cvN (a : nat -> R) l : Un_cv a l -> Un_cv (fun k => - a k) (- l).
Proof. exact: CV_opp. Qed.
Lemma cvB (a b : nat -> R) l m : Un_cv a l -> Un_cv b m -> Un_cv (fun k => a k - b k) (l - m).
Proof. by move=> h1 h2; apply: cvD => //; apply: cvN. Qed.
Lemma cv_norm (a : nat -> R) l : Un_cv a l -> Un_cv (fun k => `|a k|) `|l|.
Proof. exact: cv_cvabs. Qed.
Lemma cv_sum I (s : seq I) (P : pred I) (F : nat -> I -> R) (G : I -> R) :
  (forall i, P i -> Un_cv (fun k => F k i) (G i)) -> Un_cv (fun k => \sum_(i <- s | P i) F k i) (\sum_(i <- s | P i) G i).
Proof.
move=> h; elim: s => [|i s IH].
  by rewrite big_nil; apply: (cv_eq (a := fun=> 0)) => [k|]; [rewrite big_nil | exact: cv_const].
rewrite big_cons; case: (boolP (P i)) => hP; last first.
  by apply: cv_eq IH => k; rewrite big_cons (negbTE hP).
apply: (cv_eq (a := fun k => F k i + \sum_(j <- s | P j) F k j)) => [k|]; first by rewrite big_cons hP.
by apply: cvD => //; exact: h.
Qed.
Lemma cv_prod I (s : seq I) (P : pred I) (F : nat -> I -> R) (G : I -> R) :
  (forall i, P i -> Un_cv (fun k => F k i) (G i)) -> Un_cv (fun k => \prod_(i <- s | P i) F k i) (\prod_(i <- s | P i) G i).
Proof.
move=> h; elim: s => [|i s IH].
  by rewrite big_nil; apply: (cv_eq (a := fun=> 1)) => [k|]; [rewrite big_nil | exact: cv_const].
rewrite big_cons; case: (boolP (P i)) => hP; last first.
  by apply: cv_eq IH => k; rewrite big_cons (negbTE hP).
apply: (cv_eq (a := fun k => F k i * \prod_(j <- s | P j) F k j)) => [k|]; first by rewrite big_cons hP.
by apply: cvM => //; exact: h.
Qed.
Lemma mx_cvM m n p (u : nat -> 'M[R]_(m, n)) (v : nat -> 'M[R]_(n, p)) X Y : mx_cv u X -> mx_cv v Y -> mx_cv (fun k => u k *m v k) (X *m Y).
Proof.
move=> hu hv i j; rewrite mxE; apply: (cv_eq (a := fun k => \sum_l u k i l * v k l j)) => [k|]; first by rewrite mxE.
by apply: cv_sum => l _; apply: cvM.
Qed.
Lemma mx_cvD m n (u v : nat -> 'M[R]_(m, n)) X Y : mx_cv u X -> mx_cv v Y -> mx_cv (fun k => u k + v k) (X + Y).
Proof.
move=> hu hv i j; rewrite mxE; apply: (cv_eq (a := fun k => u k i j + v k i j)) => [k|]; first by rewrite mxE.
by apply: cvD.
Qed.
Lemma mx_cv_const m n (X : 'M[R]_(m, n)) : mx_cv (fun _ => X) X.
Proof. by move=> i j; exact: cv_const. Qed.
Lemma cv_fdot m n (u v : nat -> 'M[R]_(m, n)) X Y : mx_cv u X -> mx_cv v Y -> Un_cv (fun k => fdot (u k) (v k)) (fdot X Y).
Proof. by move=> hu hv; apply: cv_sum => i _; apply: cv_sum => j _; apply: cvM. Qed.
Lemma cv_fnorm2 m n (u : nat -> 'M[R]_(m, n)) X : mx_cv u X -> Un_cv (fun k => fnorm2 (u k)) (fnorm2 X).
Proof. by move=> hu; rewrite fnorm2E; apply: (cv_eq (a := fun k => fdot (u k) (u k))) => [k|]; [rewrite fnorm2E | exact: cv_fdot]. Qed.
Lemma cv_l1 m n (u : nat -> 'M[R]_(m, n)) X : mx_cv u X -> Un_cv (fun k => l1 (u k)) (l1 X).
Proof. by move=> hu; apply: cv_sum => i _; apply: cv_sum => j _; apply: cv_norm. Qed.
Lemma cv_l1od n (u : nat -> 'M[R]_n) X : mx_cv u X -> Un_cv (fun k => l1od (u k)) (l1od X).
Proof. by move=> hu; apply: cv_sum => i _; apply: cv_sum => j _; apply: cv_norm. Qed.
Lemma cv_det n (u : nat -> 'M[R]_n) X : mx_cv u X -> Un_cv (fun k => \det (u k)) (\det X).
Proof.
move=> hu; rewrite /determinant; apply: cv_sum => s _; apply: cvM; first exact: cv_const.
by apply: cv_prod => i _; exact: hu.
Qed.
