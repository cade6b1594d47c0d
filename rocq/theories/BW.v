(** Bolzano-Weierstrass for finitely many bounded real sequences. Mathematics only. *)
From Coq Require Import Reals Lra Lia Arith ClassicalEpsilon.
Local Open Scope R_scope.

Definition increasing_idx (phi : nat -> nat) : Prop := forall k, (phi k < phi (S k))%nat.
Lemma idx_ge phi : increasing_idx phi -> forall k, (k <= phi k)%nat.
Proof. intros h k; induction k as [|k IH]; [lia|]. specialize (h k); lia. Qed.
Lemma idx_mono phi : increasing_idx phi -> forall j k, (j <= k)%nat -> (phi j <= phi k)%nat.
Proof. intros h j k hjk; induction hjk as [|k hjk IH]; [lia|]. specialize (h k); lia. Qed.
Lemma idx_comp phi psi : increasing_idx phi -> increasing_idx psi -> increasing_idx (fun k => phi (psi k)).
Proof.
intros h1 h2 k; specialize (h2 k).
assert (h := idx_mono phi h1 (S (psi k)) (psi (S k)) ltac:(lia)); specialize (h1 (psi k)); lia.
Qed.
Lemma cv_sub u l phi : increasing_idx phi -> Un_cv u l -> Un_cv (fun k => u (phi k)) l.
Proof.
intros hp hu eps he; destruct (hu eps he) as [N hN]; exists N; intros n hn; apply hN.
assert (h := idx_ge phi hp n); lia.
Qed.

Lemma bw1 (u : nat -> R) (r : R) : (forall k, Rabs (u k) <= r) ->
  exists phi l, increasing_idx phi /\ Un_cv (fun k => u (phi k)) l.
Proof.
intros hb; destruct (Bolzano_Weierstrass u (fun c => - r <= c <= r)) as [l hl].
{ apply compact_P3. }
{ intros n; specialize (hb n); unfold Rabs in hb; destruct (Rcase_abs (u n)); lra. }
assert (hc : forall N k, exists p, (N <= p)%nat /\ Rabs (u p - l) < / (INR k + 1)).
{ intros N k. assert (hk : 0 < / (INR k + 1)) by (apply Rinv_0_lt_compat; assert (h := pos_INR k); lra).
  destruct (hl (fun y => Rabs (y - l) < / (INR k + 1)) N) as [p hp].
  { exists (mkposreal _ hk); intros y hy; exact hy. }
  exists p; exact hp. }
pose (F := fun N k => proj1_sig (constructive_indefinite_description _ (hc N k))).
assert (hF : forall N k, (N <= F N k)%nat /\ Rabs (u (F N k) - l) < / (INR k + 1)).
{ intros N k; unfold F; exact (proj2_sig (constructive_indefinite_description _ (hc N k))). }
pose (phi := fix phi k := match k with 0%nat => F 0%nat 0%nat | S j => F (S (phi j)) (S j) end).
exists phi, l; split.
- intros k; destruct (hF (S (phi k)) (S k)) as [h _]; exact h.
- intros eps he. destruct (archimed_cor1 eps he) as [N [h1 h2]]; exists N; intros n hn.
  assert (h : Rabs (u (phi n) - l) < / (INR n + 1)).
  { destruct n as [|n]; [exact (proj2 (hF 0%nat 0%nat)) | exact (proj2 (hF (S (phi n)) (S n)))]. }
  unfold R_dist; eapply Rlt_trans; [exact h|]; eapply Rlt_trans; [|exact h1].
  apply Rinv_lt_contravar; [|apply le_INR in hn; lra].
  apply Rmult_lt_0_compat; [apply lt_0_INR; lia | assert (h' := pos_INR n); lra].
Qed.

Lemma bw (N : nat) (u : nat -> nat -> R) (r : R) : (forall k i, (i < N)%nat -> Rabs (u k i) <= r) ->
  exists phi l, increasing_idx phi /\ forall i, (i < N)%nat -> Un_cv (fun k => u (phi k) i) (l i).
Proof.
induction N as [|N IH]; intros hb.
{ exists (fun k => k), (fun _ => 0); split; [intros k; lia | intros i hi; lia]. }
destruct IH as [phi [l [hp hl]]]; [intros k i hi; apply hb; lia|].
destruct (bw1 (fun k => u (phi k) N) r) as [psi [m [hq hm]]]; [intros k; apply hb; lia|].
exists (fun k => phi (psi k)), (fun i => if Nat.eq_dec i N then m else l i); split; [now apply idx_comp|].
intros i hi; destruct (Nat.eq_dec i N) as [->|ne]; [exact hm|].
apply (cv_sub (fun k => u (phi k) i) (l i) psi hq), hl; lia.
Qed.

(** a set of reals that is not empty: either it has a greatest lower bound, or it is not bounded below; in both cases a
    sequence approaches the bottom *)
Lemma inf_seq (E : R -> Prop) : (exists x, E x) ->
  exists u : nat -> R, (forall k, E (u k)) /\ forall x, E x -> forall eps, 0 < eps -> exists N, forall k, (k >= N)%nat -> u k <= x + eps.
Proof.
intros [x0 hx0]; destruct (classic (exists b, forall x, E x -> b <= x)) as [[b hb]|hb].
- destruct (completeness (fun y => E (- y))) as [s [hs1 hs2]].
  { exists (- b); intros y hy; specialize (hb _ hy); lra. }
  { exists (- x0); rewrite Ropp_involutive; exact hx0. }
  assert (hk : forall k : nat, exists x, E x /\ x < - s + / (INR k + 1)).
  { intros k; apply NNPP; intros hn.
    assert (0 < / (INR k + 1)) by (apply Rinv_0_lt_compat; assert (h := pos_INR k); lra).
    assert (s <= s - / (INR k + 1)); [|lra].
    apply hs2; intros y hy; apply Rnot_lt_le; intros hlt; apply hn; exists (- y); split; [exact hy|lra]. }
  pose (u := fun k => proj1_sig (constructive_indefinite_description _ (hk k))).
  assert (hu : forall k, E (u k) /\ u k < - s + / (INR k + 1)).
  { intros k; exact (proj2_sig (constructive_indefinite_description _ (hk k))). }
  exists u; split; [intros k; apply hu|]. intros x hx eps he.
  assert (hsx : - x <= s) by (apply hs1; rewrite Ropp_involutive; exact hx).
  destruct (archimed_cor1 eps he) as [N [h1 h2]]; exists N; intros k hkN.
  destruct (hu k) as [_ h3]; assert (/ (INR k + 1) < eps); [|lra].
  eapply Rlt_trans; [|exact h1]; apply Rinv_lt_contravar; [|apply le_INR in hkN; lra].
  apply Rmult_lt_0_compat; [apply lt_0_INR; lia | assert (h' := pos_INR k); lra].
- assert (hk : forall k : nat, exists x, E x /\ x < - INR k).
  { intros k; apply NNPP; intros hn; apply hb; exists (- INR k); intros x hx; apply Rnot_lt_le; intros hlt; apply hn; now exists x. }
  pose (u := fun k => proj1_sig (constructive_indefinite_description _ (hk k))).
  assert (hu : forall k, E (u k) /\ u k < - INR k).
  { intros k; exact (proj2_sig (constructive_indefinite_description _ (hk k))). }
  exists u; split; [intros k; apply hu|]. intros x hx eps he.
  assert (hp : 0 < Rabs x + 1) by (assert (h := Rabs_pos x); lra).
  destruct (archimed_cor1 (/ (Rabs x + 1)) (Rinv_0_lt_compat _ hp)) as [N [hN hN0]]; exists N; intros k hkN.
  assert (hN' : Rabs x + 1 < INR N).
  { apply Rnot_le_lt; intros hle; apply (Rlt_irrefl (/ INR N)); eapply Rlt_le_trans; [exact hN|].
    apply Rinv_le_contravar; [apply lt_0_INR; lia | exact hle]. }
  assert (hax : - x <= Rabs x) by (unfold Rabs; destruct (Rcase_abs x); lra).
  apply le_INR in hkN; destruct (hu k) as [_ h3]; lra.
Qed.
